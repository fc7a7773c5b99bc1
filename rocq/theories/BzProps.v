(* C68, C69: the Berlekamp-Zassenhaus search over subsets of the lifted modular factors and its d-1 test
   (rings/src/number/integer/berlekamp_zassenhaus.rs).
   ZP l is the integer polynomial with coefficient vector l; zin K is the ring map from the integers to K; cong m P Q says that all the
   coefficients of P - Q are multiples of m; W = 2^64. *)
From Coq Require Import List NArith ZArith QArith Bool Sorted.
From mathcomp Require Import all_ssreflect all_algebra.
From mathcomp Require Import zify.
From Coq Require Import Lia.
From Verif Require HenselProofs5.
From Verif Require Import SetsModel SetsSpec SetsProofs1 SetsProofs2.
From Verif Require Import RingSpec RingModel RingProofs RingProofs2 FactoredSpec FactoredModel FactoredProofs PermModel MatModel MatSpec ZRing MatInst PolyModel PolySpec PolyProofs PolyProofs2 PolyProofs3 PolyProofs11 PolyProofs12 PolyProps PolyProps3 FacModel FacProofs FacProofs2 FacProofs3 FacProofs4 FacProps HenselSpec HenselModel HenselProofs HenselProofs2 BoundModel BoundProofs BoundProofs2 BoundProps BzModel BzProofs1 BzProofs2 BzProofs3 BzProofs5 BzProofs6 BzProofs7 BzProofs8 BzProofs9 BzProofs10.
Close Scope rs_scope. Close Scope Q_scope.
Set Implicit Arguments.
Unset Strict Implicit.
Unset Printing Implicit Defensive.
Import GRing.Theory.
Local Open Scope ring_scope.

(* ------------------------------------------------------------------ C69: the memory of partial products *)
Section Memory.
Variables (A : Type) (compose : A -> A -> A) (vals : list A).
(* what is asked for: a nonempty list of indices of values *)
Definition valid_query (s : list nat) : Prop := s <> nil /\ forall i, List.In i s -> (i < List.length vals)%N.
(* the memories that a sequence of queries, starting from the empty one, can leave behind *)
Inductive reachable_memory : list (nat * A) -> Prop :=
| rm_new : reachable_memory nil
| rm_query mem s r mem' : reachable_memory mem -> valid_query s -> ms_get compose vals mem s = Some (r, mem') -> reachable_memory mem'.
(* v_i1 * v_i2 * ... * v_ik, from the left *)
Definition product_of (d : A) (s : list nat) : A :=
  match s with nil => d | i :: s' => List.fold_left (fun a j => compose a (List.nth j vals d)) s' (List.nth i vals d) end.
Lemma reachable_ok d mem : reachable_memory mem -> mem_ok compose vals d mem.
Proof.
  elim=> [|m s r m' _ IH [H1 H2] E]; first by exists nil. have [m2 [E2 H]] := ms_get_ok IH H1 H2. by move: E; rewrite E2 => -[_ <-].
Qed.
(* after any history of queries, a query never panics and returns the product over the requested indices *)
Theorem C69_memory_stack d mem s : reachable_memory mem -> valid_query s -> exists mem', ms_get compose vals mem s = Some (product_of d s, mem').
Proof. move=> H [H1 H2]. have [m' [E _]] := ms_get_ok (reachable_ok d H) H1 H2. by exists m'. Qed.
End Memory.
Print Assumptions C69_memory_stack.
Example C69_memory_ex : exists m1 m2, [/\ ms_get (fun a b => a ++ b) [:: [:: 0]; [:: 1]; [:: 2]; [:: 3]]%N nil [:: 0; 1; 3]%N = Some ([:: 0; 1; 3]%N, m1),
  reachable_memory (fun a b => a ++ b) [:: [:: 0]; [:: 1]; [:: 2]; [:: 3]]%N m1 & ms_get (fun a b => a ++ b) [:: [:: 0]; [:: 1]; [:: 2]; [:: 3]]%N m1 [:: 0; 2]%N = Some ([:: 0; 2]%N, m2)].
Proof.
  do 2 eexists. split; [reflexivity| |reflexivity]. apply: (@rm_query _ _ _ nil [:: 0; 1; 3]%N [:: 0; 1; 3]%N); [exact: rm_new| |reflexivity]. split=> // i. case=> [<-|[<-|[<-|[]]]] //.
Qed.

(* ------------------------------------------------------------------ C69: the d-1 test never rules out a true factor *)
(* f = F * H over the integers, and the lifted factors indexed by s are those of F: lead(H) F = lead(f) prod_{i in s} g_i modulo m.  Then, after any
   history of tests, testing s does not panic and does not rule it out, for all sizes below 2^64 *)
Theorem C69_dminusone_sound (m : Z) (f : list Z) (gs : list (list Z)) (F H : {poly Z_idomainType}) (s : list nat) :
  Z.lt Z0 m -> (1 < size (ZP f))%N -> (forall i, (i < size gs)%N -> ZP (nth [::] gs i) \is monic /\ (1 < size (ZP (nth [::] gs i)))%N) ->
  F * H = ZP f -> s <> [::] -> (forall i, i \in s -> (i < size gs)%N) ->
  @cong Z_idomainType m (lead_coef H *: F) (lead_coef (ZP f) *: \prod_(i <- s) ZP (nth [::] gs i)) ->
  size F = (\sum_(i <- s) (size (ZP (nth [::] gs i))).-1).+1 ->
  (forall i, (i < size gs)%N -> Z.lt (Z.of_nat (size (ZP (nth [::] gs i)))) (Z.of_N W)) -> Z.lt (Z.of_nat (size F)) (Z.of_N W) -> Z.lt (Z.of_nat (size s)) (Z.of_N W) ->
  exists bound vals, dm_new m f gs = Some (bound, vals) /\
    forall mem, reachable_memory dm_compose vals mem -> exists mem', dm_test bound vals mem s = Some (false, mem').
Proof.
  move=> m0 Sf Hg E s0 Hs C SF Hd HF HS. have [|beta [EB Edm]] := @dm_new_ok m f gs m0 Sf. { move=> g /(nthP [::]) [i Hi <-]. by have [] := Hg i Hi. }
  do 2 eexists. split; first exact: Edm. move=> mem Hm. rewrite /dm_test.
  have [|m' [-> _]] := ms_get_ok (reachable_ok (0%num, 0%num) Hm) s0. { move=> i /HenselProofs5.In_mem /Hs. by rewrite lengthE size_map. }
  cbn [obind fst snd]. exists m'. rewrite lengthE (@dm_sound f gs m beta F H s) //.
  - move=> i /HenselProofs5.In_mem. exact: Hs.
  - move=> i /Hs. exact: Hg.
  - move=> i Hi. have := Hd i Hi. clear. set x := size _. lia.
Qed.
Print Assumptions C69_dminusone_sound.

(* ------------------------------------------------------------------ C68: the search *)
(* what the state at a prime must satisfy (what Hensel lifting provides) *)
Definition lifted_at (f : list Z) (gs : list (list Z)) (p t : nat) : Prop :=
  let reduce g := map_poly (zin [ringType of 'F_p]) (ZP g) in
  [/\ prime p, (0 < t)%N & zin [ringType of 'F_p] (lead_coef (ZP f)) != 0] /\
  [/\ forall g, List.In g gs -> ZP g \is monic,
      @cong Z_idomainType (Z.pow (Z.of_nat p) (Z.of_nat t)) (ZP f) (lead_coef (ZP f) *: \prod_(g <- gs) ZP g),
      forall i, (i < size gs)%N -> irreducible_poly (reduce (nth [::] gs i)) &
      forall i j, (i < size gs)%N -> (j < size gs)%N -> i != j -> coprimep (reduce (nth [::] gs i)) (reduce (nth [::] gs j))].
(* factor_by_try_all_subsets on a primitive nonconstant f of degree below 2^64 - 1, with a modulus at least twice Mignotte's bound: it terminates,
   never panics, and returns a factorisation into primes of f or of -f *)
Theorem C68_search_partial (f : list Z) (gs : list (list Z)) (p t : nat) (b : N) :
  lifted_at f gs p t -> primitive (ZP f) -> (1 < size (ZP f))%N -> Z.lt (Z.of_nat (size (ZP f))) (Z.of_N W) ->
  mignotte_factor_coefficient_bound f = Some (Some b) -> Z.le (Z.mul 2 (Z.of_N b)) (Z.pow (Z.of_nat p) (Z.of_nat t)) ->
  forall fuel, (forall k, (length (subsets (size gs) k) + 2 <= fuel)%coq_nat) -> forall degree, exists r,
    [/\ factor_by_try_all_subsets fuel (AtPrime f (lead_coef (ZP f)) degree (Z.pow (Z.of_nat p) (Z.of_nat t)) gs) = Some r,
        is_factorization (@pffar ZO Zdiv Zffa) r & ZP (@expand PZ r) = ZP f \/ ZP (@expand PZ r) = - ZP f].
Proof.
  move=> [[H1 H2 H3] [H4 H5 H6 H7]] PR S0 HW MB Hb fuel Hf dg. have LI : lifted f gs p t by split.
  have [o [Eo]] := C52_cauchy algC f. case: o Eo => [beta|] Eo; last by rewrite leqNgt S0. move=> _.
  have [r [E1 E2 E3]] := search_ok LI HW PR S0 MB Hb Eo dg Hf. by exists r.
Qed.
Print Assumptions C68_search_partial.
(* the hypotheses are met: x^2 + x - 2 = (x - 1)(x + 2), p^t = 5^2 *)
Lemma lin_P (a : Z_idomainType) : ZP [:: a; Zpos 1] = 'X + a%:P.
Proof. rewrite -[Zpos 1]/(1 : Z_idomainType) /= !cons_poly_def. by rewrite mul0r add0r mul1r. Qed.
Lemma lin_irr (K : fieldType) (a : K) : irreducible_poly ('X + a%:P).
Proof. rewrite -[a]opprK polyCN. exact: irredp_XsubC. Qed.
Lemma lin_map (a : Z_idomainType) : map_poly (zin [ringType of 'F_5]) (ZP ([:: a; Zpos 1] : list Z)) = 'X + (zin [ringType of 'F_5] a)%:P.
Proof. have -> : ZP ([:: a; Zpos 1] : list Z) = 'X + a%:P := lin_P a. rewrite (rmorphD (map_poly_rmorphism (zin_rmorph [ringType of 'F_5]))) /=. congr (_ + _); [exact: (map_polyX (zin_rmorph [ringType of 'F_5]))|exact: (map_polyC (zin_rmorph [ringType of 'F_5]))]. Qed.
Lemma lin_cop (K : fieldType) (a b c : K) : (a - b) * c = 1 -> coprimep ('X + a%:P) ('X + b%:P).
Proof. move=> E. apply/Bezout_eq1_coprimepP. exists (c%:P, - c%:P). by rewrite [_.1]/= [_.2]/= mulNr -mulrBr opprD addrACA subrr add0r -polyCB -polyCM mulrC E. Qed.
Lemma lin_mul : ZP [:: Zneg 2; Zpos 1; Zpos 1] = ZP [:: Zneg 1; Zpos 1] * ZP [:: Zpos 2; Zpos 1].
Proof. transitivity (ZP (@p_mul ZO [:: Zneg 1; Zpos 1] [:: Zpos 2; Zpos 1])); last by rewrite (@p_mulE Z_idomainType) Poly_polyseq. by have -> : @p_mul ZO [:: Zneg 1; Zpos 1] [:: Zpos 2; Zpos 1] = [:: Zneg 2; Zpos 1; Zpos 1] by vm_compute. Qed.
Lemma lin_cop5 : coprimep ('X + (zin [ringType of 'F_5] (Zneg 1))%:P) ('X + (zin [ringType of 'F_5] (Zpos 2))%:P).
Proof. apply: (@lin_cop _ _ _ 3%:R). apply/eqP. by vm_compute. Qed.
Definition exf := [:: Zneg 2; Zpos 1; Zpos 1].
Definition exgs := [:: [:: Zneg 1; Zpos 1]; [:: Zpos 2; Zpos 1]].
Lemma ex_lifted : lifted_at exf exgs 5 2.
Proof.
  have M1 (a : Z_idomainType) : ZP [:: a; Zpos 1] \is monic by rewrite lin_P -[a]opprK polyCN; exact: monicXsubC.
  have L1 : lead_coef (ZP exf) = 1 by apply/eqP; rewrite -monicE lin_mul monicMl.
  split; first by split=> //; rewrite L1 (rmorph1 (zin_rmorph [ringType of 'F_5])) oner_eq0.
  split.
  - by move=> g [<-|[<-|[]]].
  - rewrite L1 scale1r big_cons big_seq1 -lin_mul. exact: cong_refl.
  - move=> [|[|i]] //= _; rewrite lin_map; apply: lin_irr.
  - have Co := lin_cop5. move=> [|[|i]] [|[|j]] //= _ _ _; rewrite !lin_map //. by rewrite coprimep_sym.
Qed.
Lemma ex_primitive : primitive (ZP exf).
Proof. move=> d Hd. have := Hd 2%N. by rewrite coef_Poly. Qed.
Lemma ex_fuel k : (length (subsets (size exgs) k) + 2 <= 40)%coq_nat.
Proof. by case: k => [|[|[|k]]]; vm_compute; lia. Qed.
Example C68_search_ex : [/\ lifted_at exf exgs 5 2, primitive (ZP exf), mignotte_factor_coefficient_bound exf = Some (Some 8%num),
      forall k, (length (subsets (size exgs) k) + 2 <= 40)%coq_nat &
      omap (fun r => @p_equal ZO (@expand PZ r) exf) (factor_by_try_all_subsets 40 (AtPrime exf (Zpos 1) 2 (Zpos 25) exgs)) = Some true].
Proof. split; [exact: ex_lifted|exact: ex_primitive|by vm_compute|exact: ex_fuel|by vm_compute]. Qed.

(* ------------------------------------------------------------------ the sign *)
(* without the "or of -f": for f = -(x-1)(x-2)(x-3)(x-4), factored modulo 5 by mf, the result is the unit 1 and the four factors x - i, which expand
   to -f; for -f the same factorisation comes out (l.382-450: the candidates have positive leading coefficient and the last quotient -1 is dropped) *)
Definition mf (p : Z) (f : list Z) : option (list (list Z * N)) :=
  if Z.eqb p (Zpos 5) then Some [:: ([:: Zpos 4; Zpos 1], 1%num); ([:: Zpos 3; Zpos 1], 1%num); ([:: Zpos 2; Zpos 1], 1%num); ([:: Zpos 1; Zpos 1], 1%num)]
  else Some [:: ([:: Zpos 1; Zpos 1], 2%num)].
Definition f1234 := [:: Zneg 24; Zpos 50; Zneg 35; Zpos 10; Zneg 1].
Lemma two_of (A : Type) (P : A -> Prop) (o o' : option A) : match o with Some r => P r /\ o' = Some r | None => False end -> exists r, [/\ o = Some r, o' = Some r & P r].
Proof. case: o => [r|[]] [H1 H2]. by exists r. Qed.
Theorem C68_sign_refuted : exists r, [/\ bz_sqfree (fun _ => true) mf 40 f1234 = Some r, bz_sqfree (fun _ => true) mf 40 (map Z.opp f1234) = Some r &
  [/\ f_unit r = [:: Zpos 1], @p_equal ZO (@expand PZ r) (map Z.opp f1234) = true & @p_equal ZO (@expand PZ r) f1234 = false]].
Proof.
  refine (@two_of (factored PZ) (fun r => [/\ f_unit r = [:: Zpos 1], @p_equal ZO (@expand PZ r) (map Z.opp f1234) = true & @p_equal ZO (@expand PZ r) f1234 = false])
    (bz_sqfree (fun _ => true) mf 40 f1234) (bz_sqfree (fun _ => true) mf 40 (map Z.opp f1234)) _).
  vm_compute. split; [split; reflexivity|reflexivity].
Qed.
Print Assumptions C68_sign_refuted.
