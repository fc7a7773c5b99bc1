(* C28: Hensel lifting (rings/src/polynomial/hensel_lifting.rs).
   The coefficient ring is any Euclidean domain with a monotone norm; p is irreducible and 1 is its own remainder modulo p^k (small_one).
   Over the integers: every prime p >= 2.  A vector l stands for the polynomial Poly l; cong m P Q says that all the coefficients of
   P - Q are multiples of m (HenselSpec). *)
From Coq Require Import List Arith NArith ZArith Znumtheory Bool.
From mathcomp Require Import all_ssreflect all_algebra.
From mathcomp Require Import zify.
From Coq Require Import Lia.
From Verif Require Import RingSpec RingModel RingProofs RingProofs2 PermModel MatModel MatSpec ZRing MatInst PolyModel PolyProofs PolyProofs2 PolyProofs3 PolyProps HenselSpec HenselModel HenselProofs HenselProofs2 HenselProofs3 HenselProofs4 HenselProofs5.
Close Scope rs_scope.
Set Implicit Arguments.
Unset Strict Implicit.
Unset Printing Implicit Defensive.
Import GRing.Theory.
Local Open Scope ring_scope.

(* do something k times, stopping at a panic *)
Fixpoint times (A : Type) (f : A -> option A) (k : nat) (x : A) : option A := match k with O => Some x | S k' => match f x with Some y => times f k' y | None => None end end.

Section C28.
Variable R : idomainType.
Notation O := (mc_ops R).
Variables (div : div_op O) (ffa : ffa_op O) (norm : R -> option N) (quorem : R -> R -> option (R * R)).
Hypothesis D : idom_laws O div.
Hypothesis F : ffa_laws O ffa.
Hypothesis E : euclid_laws O norm quorem.
Hypothesis M : norm_mono O norm.
(* UniqueFactorizationStructure::is_irreducible *)
Variable is_irr : R -> bool.
Implicit Types (f g h a b : seq R) (n k : nat).
Definition small_one (m : R) : Prop := forall k, (0 < k)%N -> @rem O quorem 1 (m ^+ k) = Some 1.
Lemma small_rm m : m != 0 -> small_one m -> forall k, (0 < k)%N -> q_rem (R := O) quorem (m ^+ k) 1 = 1.
Proof. move=> m0 H k Hk. by rewrite /q_rem H. Qed.
(* f' is f lifted: same residue modulo m, monic of the same degree *)
Definition lift_of (m : R) (f f' : seq R) : Prop := [/\ cong m (Poly f') (Poly f), Poly f' \is monic & size (Poly f') = size (Poly f)].

(* ------------------------------------------------------------------ one step: compute_lift_factors *)
(* i need not be prime: quadratic lifting uses i^n itself as the modulus *)
Theorem C28_step (i : R) (n : N) a b f g h : (0 < N.to_nat n)%N -> i != 0 -> i \isn't a GRing.unit -> small_one i ->
  let alpha := lead_coef (Poly h) in
  Poly f \is monic -> Poly g \is monic -> (1 < size (Poly h))%N -> (exists u v, u * alpha + v * i = 1) ->
  cong (i ^+ N.to_nat n) (Poly h) (alpha *: (Poly f * Poly g)) ->
  cong i (Poly a * Poly f + Poly b * Poly g) 1 ->
  exists df dg f' g', [/\ @compute_lift_factors O div ffa norm quorem i n a b f g h = Some (df, dg, f', g'),
    cong (i ^+ (N.to_nat n).+1) (Poly h) (alpha *: (Poly f' * Poly g')), lift_of (i ^+ N.to_nat n) f f' & lift_of (i ^+ N.to_nat n) g g'].
Proof.
  move=> n0 i0 iu Sm al Mf Mg Sh CM Ch Cab. rewrite -mul_polyC mulrA in Ch.
  have [df [dg [f' [g' [H1 H2 H3 H4 [[C1 _ S1] [C2 _ S2]]]]]]] := clf_i D F E M i0 iu (small_rm i0 Sm) n0 Mf Mg Sh CM Ch Cab.
  exists df, dg, f', g'. rewrite -mul_polyC mulrA. by split.
Qed.

(* ------------------------------------------------------------------ whole factorisations *)
Section Prime.
Variable p : R.
Hypothesis Hirr : @irreducible O p.
Hypothesis Hirr' : is_irr p.
Hypothesis Sm : small_one p.
(* what a factorisation of h that started from fs modulo p^n0 is required to be *)
Definition hensel_right (h : seq R) (fs : seq (seq R)) (n0 : nat) (X : @hfact O) : Prop :=
  [/\ @h_modulus O X = p ^+ N.to_nat (h_n X),
      cong (@h_modulus O X) (Poly h) (lead_coef (Poly h) *: \prod_(f <- @h_factors O X) Poly f) &
      List.Forall2 (lift_of (p ^+ n0)) fs (@h_factors O X)].
(* the input is fine: at least two nonconstant monic factors, pairwise coprime modulo p, of h modulo p^n; p does not divide the leading coefficient *)
Definition hensel_input (n : nat) (h : seq R) (fs : seq (seq R)) : Prop :=
  [/\ (0 < n)%N, (1 < size fs)%N, forall f, f \in fs -> Poly f \is monic /\ (1 < size (Poly f))%N,
      forall j k, (j < k)%N -> (k < size fs)%N -> coprime_mod p (Poly (nth [::] fs j)) (Poly (nth [::] fs k)) &
      Poly h != 0 /\ (~ exists c, lead_coef (Poly h) = p * c) /\ cong (p ^+ n) (Poly h) (lead_coef (Poly h) *: \prod_(f <- fs) Poly f)].
Let p0 := p0 Hirr.
Let pu := pu Hirr.
Let small := small_rm p0 Sm.
Lemma goods fs : (forall f, f \in fs -> Poly f \is monic /\ (1 < size (Poly f))%N) -> all (@good R) fs.
Proof. move=> H. apply/allP => f /H [H1 H2]. by apply/andP. Qed.
Lemma F2_trans n m fs gs hs : (n <= m)%N -> List.Forall2 (lifts p n) fs gs -> List.Forall2 (lifts p m) gs hs -> List.Forall2 (lifts p n) fs hs.
Proof.
  move=> Hn H. elim: H hs => [|f g fs' gs' H1 H2 IH] hs H; inversion H; subst; first by constructor.
  constructor; [by apply: (lifts_trans Hn H1)|exact: IH].
Qed.
Lemma F2_monic n fs gs : (forall f, f \in fs -> Poly f \is monic /\ (1 < size (Poly f))%N) -> List.Forall2 (lifts p n) fs gs -> List.Forall2 (lift_of (p ^+ n)) fs gs.
Proof.
  move=> H H2. elim: H2 H => [|f g fs' gs' [C L S] H2 IH] H; constructor.
  - split=> //. have [Mf _] := H f (mem_head _ _). by rewrite monicE L.
  - apply: IH => f' Hf. apply: H. by rewrite inE Hf orbT.
Qed.
Lemma F2_size n (fs gs : seq (seq R)) : List.Forall2 (lifts p n) fs gs -> size fs = size gs.
Proof. by elim=> //= f g fs' gs' _ _ ->. Qed.
Lemma leaf_size h : size (@factor_list O h (@Leaf O)) = 1%N. Proof. by []. Qed.
Lemma right_of n0 h fs (n : N) t : (1 < size fs)%N -> (forall f, f \in fs -> Poly f \is monic /\ (1 < size (Poly f))%N) ->
  inv p 1 (N.to_nat n) h t -> List.Forall2 (lifts p n0) fs (@factor_list O h t) -> hensel_right h fs n0 (@HFact O p n h t).
Proof.
  move=> Hs G I H. rewrite /hensel_right /h_modulus /h_factors. cbn [h_i h_n h_h h_t]. rewrite nat_powE. split=> //; last exact: F2_monic H.
  rewrite -mul_polyC. apply: prod_factors_top => // Et. move: Hs. by rewrite (F2_size H) Et.
Qed.
Lemma linear_times h fs n0 t k : forall (n : N), (1 < size fs)%N -> (forall f, f \in fs -> Poly f \is monic /\ (1 < size (Poly f))%N) -> (0 < n0 <= N.to_nat n)%N ->
  inv p 1 (N.to_nat n) h t -> List.Forall2 (lifts p n0) fs (@factor_list O h t) ->
  exists t', let X := @HFact O p (n + N.of_nat k) h t' in [/\ times (@h_linear_lift O div ffa norm quorem) k (@HFact O p n h t) = Some X,
    inv p 1 (N.to_nat (n + N.of_nat k)) h t', List.Forall2 (lifts p n0) fs (@factor_list O h t') & List.Forall2 (lifts p (N.to_nat n)) (@factor_list O h t) (@factor_list O h t')].
Proof.
  elim: k t => [|k IH] t n Hs G Hn I H.
  - exists t. have -> : (n + N.of_nat 0 = n)%num by lia. split=> //. elim: (factor_list _ _) => [|f l IHl]; constructor => //. exact: lifts_refl.
  - have n1 : (0 < N.to_nat n)%N by case/andP: Hn => H1 H2; exact: leq_trans H2.
    have [t' [E1 I1 F1]] := linear_ok D F E M p0 pu small n1 (lifts_refl p _ h) I. cbn [times]. rewrite {1}/h_linear_lift. cbn [h_i h_n h_h h_t]. rewrite E1. cbn [obind].
    have En : N.to_nat (n + 1) = (N.to_nat n).+1 by lia. have F1' := F2_trans (proj2 (andP Hn)) H F1.
    have Hn' : (0 < n0 <= N.to_nat (n + 1))%N by case/andP: Hn => H1 H2; rewrite H1 En leqW. rewrite -En in I1.
    have [t2 [E2 I2 F2 F3]] := IH t' (n + 1)%num Hs G Hn' I1 F1'. exists t2. have -> : (n + N.of_nat k.+1 = n + 1 + N.of_nat k)%num by lia. split=> //.
    apply: F2_trans F1 F3. rewrite En. exact: leqnSn.
Qed.
Lemma quad_times h fs n0 t k : forall (n : N), (1 < size fs)%N -> (forall f, f \in fs -> Poly f \is monic /\ (1 < size (Poly f))%N) -> (0 < n0 <= N.to_nat n)%N ->
  inv p (N.to_nat n) (N.to_nat n) h t -> List.Forall2 (lifts p n0) fs (@factor_list O h t) ->
  exists t', let X := @HFact O p (n * N.of_nat (2 ^ k)) h t' in [/\ times (@h_quadratic_lift O div ffa norm quorem) k (@HFact O p n h t) = Some X,
    inv p (N.to_nat (n * N.of_nat (2 ^ k))) (N.to_nat (n * N.of_nat (2 ^ k))) h t', List.Forall2 (lifts p n0) fs (@factor_list O h t') &
    List.Forall2 (lifts p (N.to_nat n)) (@factor_list O h t) (@factor_list O h t')].
Proof.
  elim: k t => [|k IH] t n Hs G Hn I H.
  - exists t. have -> : (n * N.of_nat (2 ^ 0) = n)%num by rewrite expn0; lia. split=> //. elim: (factor_list _ _) => [|f l IHl]; constructor => //. exact: lifts_refl.
  - have n1 : (0 < N.to_nat n)%N by case/andP: Hn => H1 H2; exact: leq_trans H2.
    have [t' [E1 I1 F1]] := quadratic_ok D F E M p0 pu small n1 (lifts_refl p _ h) I. cbn [times]. rewrite {1}/h_quadratic_lift. cbn [h_i h_n h_h h_t]. rewrite E1. cbn [obind].
    have En : N.to_nat (n * 2) = (N.to_nat n * 2)%N by lia. have F1' := F2_trans (proj2 (andP Hn)) H F1.
    have Hn' : (0 < n0 <= N.to_nat (n * 2))%N by case/andP: Hn => H1 H2; rewrite H1 En muln2 -addnn; apply: leq_trans H2 (leq_addr _ _). rewrite -En in I1.
    have [t2 [E2 I2 F2 F3]] := IH t' (n * 2)%num Hs G Hn' I1 F1'. exists t2. have -> : (n * N.of_nat (2 ^ k.+1) = n * 2 * N.of_nat (2 ^ k))%num by rewrite expnS; lia. split=> //.
    apply: F2_trans F1 F3. rewrite En muln2 -addnn. exact: leq_addr.
Qed.
Lemma input_new (lifted : bool) (n : N) h fs : (lifted -> N.to_nat n <= 1)%N -> hensel_input (N.to_nat n) h fs ->
  exists t, [/\ @h_new O div ffa norm quorem is_irr lifted p n h fs = Some (@HFact O p n h t), inv p 1 (N.to_nat n) h t & List.Forall2 (lifts p (N.to_nat n)) fs (@factor_list O h t)].
Proof.
  move=> Hl [n0 Hs G PC [h0 [CM C]]]. rewrite -mul_polyC in C.
  have [t [H1 H2 H3]] := h_new_ok D F E M Hirr Hirr' small n0 Hl (ltnW Hs) (goods G) PC h0 (comax_p D F E Hirr CM) C. exists t. split=> //. exact: H3.
Qed.
(* new::<false> modulo p^n, then any number of linear lifts: no panic, the exponent counts the lifts, and the factors are right; the factors after j lifts are
   those after j + k lifts, modulo p^(n+j) *)
Theorem C28_linear (n : N) h fs : hensel_input (N.to_nat n) h fs -> forall j k, exists X0 X Y,
  [/\ @h_new O div ffa norm quorem is_irr false p n h fs = Some X0,
      times (@h_linear_lift O div ffa norm quorem) j X0 = Some X, h_n X = (n + N.of_nat j)%num, hensel_right h fs (N.to_nat n) X &
      [/\ times (@h_linear_lift O div ffa norm quorem) k X = Some Y, h_n Y = (n + N.of_nat j + N.of_nat k)%num, hensel_right h fs (N.to_nat n) Y,
          @h_check O quorem false Y = Some true & List.Forall2 (lift_of (p ^+ (N.to_nat n + j))) (@h_factors O X) (@h_factors O Y)]].
Proof.
  move=> HI j k. have [t [E0 I0 F0]] := input_new (lifted := false) (fun H => False_ind _ (notF H)) HI. have [n0 Hs G PC _] := HI.
  have Hn : (0 < N.to_nat n <= N.to_nat n)%N by rewrite n0 leqnn.
  have [t1 [E1 I1 F1 _]] := linear_times j Hs G Hn I0 F0.
  have Hn1 : (0 < N.to_nat n <= N.to_nat (n + N.of_nat j))%N by rewrite n0; lia.
  have [t2 [E2 I2 F2 F3]] := linear_times k Hs G Hn1 I1 F1. cbn [h_n].
  exists (@HFact O p n h t), (@HFact O p (n + N.of_nat j) h t1), (@HFact O p (n + N.of_nat j + N.of_nat k) h t2). split=> //; first exact: right_of. split=> //; first exact: right_of.
  - rewrite /h_check. cbn [h_n h_i h_h h_t]. apply: (check_ok D E M p0 pu (e := 1)) => //. lia.
  - have -> : (N.to_nat n + j = N.to_nat (n + N.of_nat j))%N by lia. apply: F2_monic F3. move=> f /In_mem Hf. have [fo [Ho]] : exists fo, fo \in fs /\ lifts p (N.to_nat n) fo f.
    { elim: F1 Hf {G Hs PC HI I1 I2 F2 E1 E2 F0 I0} => //= x y xs ys Hxy _ IH [<-|/IH [z [Hz Hz']]]; [exists x|exists z]; rewrite inE ?eqxx ?Hz ?orbT. by []. by []. }
    case=> C L S. have [Mo So] := G _ Ho. by rewrite monicE L S.
Qed.
(* new::<true> modulo p, then any number of quadratic lifts, then (after dont_lift_bezout_coeffs) any number of linear ones *)
Theorem C28_quadratic h fs : hensel_input 1 h fs -> forall j k, exists X0 X Y,
  [/\ @h_new O div ffa norm quorem is_irr true p 1 h fs = Some X0,
      times (@h_quadratic_lift O div ffa norm quorem) j X0 = Some X, h_n X = N.of_nat (2 ^ j), hensel_right h fs 1 X &
      @h_check O quorem true X = Some true /\
      [/\ times (@h_linear_lift O div ffa norm quorem) k (@h_dont_lift_bezout_coeffs O X) = Some Y, h_n Y = N.of_nat (2 ^ j + k), hensel_right h fs 1 Y & @h_check O quorem false Y = Some true]].
Proof.
  move=> HI j k. have [t [E0 I0 F0]] := input_new (lifted := true) (n := 1%num) (fun _ => leqnn 1) HI. have [n0 Hs G PC _] := HI.
  have [t1 [E1 I1 F1 _]] := quad_times j Hs G (isT : (0 < 1 <= N.to_nat 1)%N) I0 F0. move: E1 I1. have -> : (1 * N.of_nat (2 ^ j) = N.of_nat (2 ^ j))%num by lia. move=> E1 I1.
  have P0 : (0 < 2 ^ j)%N by rewrite expn_gt0.
  have Hn1 : (0 < 1 <= N.to_nat (N.of_nat (2 ^ j)))%N by rewrite Nnat.Nat2N.id.
  have I1' : inv p 1 (N.to_nat (N.of_nat (2 ^ j))) h t1 by apply: inv_e I1.
  have [t2 [E2 I2 F2 _]] := linear_times k Hs G Hn1 I1' F1. move: E2 I2. have -> : (N.of_nat (2 ^ j) + N.of_nat k = N.of_nat (2 ^ j + k))%num by lia. move=> E2 I2.
  exists (@HFact O p 1 h t), (@HFact O p (N.of_nat (2 ^ j)) h t1), (@HFact O p (N.of_nat (2 ^ j + k)) h t2). rewrite /h_check. cbn [h_n h_i h_h h_t]. split=> //; first exact: right_of.
  split; first by apply: (check_ok D E M p0 pu) I1 => //; rewrite Nnat.Nat2N.id. split=> //; first exact: right_of.
  apply: (check_ok D E M p0 pu (e := 1)) => //. rewrite Nnat.Nat2N.id. apply: leq_trans P0 (leq_addr _ _).
Qed.
(* into_hensel_factorization: None as soon as a factor is repeated, otherwise the same as new::<true> modulo p, including its check *)
Theorem C28_into_hensel_factorization h (fps : seq (seq R * N)) :
  ((exists fp, fp \in fps /\ snd fp <> 1%num) -> @into_hensel_factorization O div ffa norm quorem is_irr p fps h = Some None) /\
  ((forall fp, fp \in fps -> snd fp = 1%num) -> hensel_input 1 h [seq fst fp | fp <- fps] ->
     exists X, @into_hensel_factorization O div ffa norm quorem is_irr p fps h = Some (Some X) /\
       [/\ @h_new O div ffa norm quorem is_irr true p 1 h [seq fst fp | fp <- fps] = Some X, h_n X = 1%num & hensel_right h [seq fst fp | fp <- fps] 1 X]).
Proof.
  rewrite /into_hensel_factorization forallbE mapE. split.
  - case=> fp [Hf Hn]. case: ifP => // /allP /(_ _ Hf) /N.eqb_eq. by move/Hn.
  - move=> H1 HI. have -> : all (fun fp => N.eqb (snd fp) 1) fps by apply/allP => fp /H1 ->.
    have [X0 [X [Y [E0 E1 E2 E3 [E4 _]]]]] := C28_quadratic HI 0 0. rewrite /= in E1. case: E1 => E1. subst X0.
    exists X. rewrite E0 [obind _ _]/= E4. by split.
Qed.
End Prime.
End C28.

(* ------------------------------------------------------------------ over the integers *)
Lemma Z_exp (p : Z) k : Z.le 2 p -> (0 < k)%N -> Z.le 2 (@GRing.exp Z_idomainType p k).
Proof.
  move=> Hp. case: k => // k _. elim: k => [|k IH]; first by rewrite expr1. rewrite exprS -[_ * _]/(Z.mul p (@GRing.exp Z_idomainType p k.+1)).
  move: IH. set x : Z := (_ ^+ k.+1). nia.
Qed.
Lemma Z_small (p : Z) : Z.le 2 p -> @small_one Z_idomainType Zquorem p.
Proof.
  move=> Hp k Hk. have := Z_exp Hp Hk. set m : Z := @GRing.exp Z_idomainType p k => Hm. rewrite /rem /Zquorem /Z_quorem. case: (Z.eqb_spec m Z0) => [?|_]; first lia.
  cbn [obind]. have -> : Z.modulo (1 : Z_idomainType) m = (1 : Z_idomainType); last by case: ifP. clearbody m. apply: Z.mod_small. change (1 : Z_idomainType) with (Zpos 1). lia.
Qed.
Notation Zh_new := (@h_new ZO Zdiv Zffa Znorm Zquorem (fun _ => true)).
Notation Zlinear := (@h_linear_lift ZO Zdiv Zffa Znorm Zquorem).
Notation Zquadratic := (@h_quadratic_lift ZO Zdiv Zffa Znorm Zquorem).
(* for every prime p >= 2; is_irr is whatever primality test the ring of integers uses, as long as it accepts p *)
Theorem C28_integers (is_irr : Z -> bool) (p : Z) : Znumtheory.prime p -> is_irr p ->
  (forall (n : N) h fs, @hensel_input Z_idomainType p (N.to_nat n) h fs -> forall k, exists X0 X,
    [/\ @h_new ZO Zdiv Zffa Znorm Zquorem is_irr false p n h fs = Some X0, times Zlinear k X0 = Some X, h_n X = (n + N.of_nat k)%num &
        @hensel_right Z_idomainType p h fs (N.to_nat n) X]) /\
  (forall h fs, @hensel_input Z_idomainType p 1 h fs -> forall k, exists X0 X,
    [/\ @h_new ZO Zdiv Zffa Znorm Zquorem is_irr true p 1 h fs = Some X0, times Zquadratic k X0 = Some X, h_n X = N.of_nat (2 ^ k) &
        @hensel_right Z_idomainType p h fs 1 X]).
Proof.
  move=> Hp Hi. have Hp2 := prime_ge_2 _ Hp. have Hirr : @irreducible ZO p := Z_irreducible_prime _ Hp. split.
  - move=> n h fs HI k. have [X0 [X [Y [H0 H1 H2 H3 _]]]] := C28_linear Zidom Zffa_ok Zeuclid Zmono Hirr Hi (Z_small Hp2) HI k 0. by exists X0, X.
  - move=> h fs HI k. have [X0 [X [Y [H0 H1 H2 H3 _]]]] := C28_quadratic Zidom Zffa_ok Zeuclid Zmono Hirr Hi (Z_small Hp2) HI k 0. by exists X0, X.
Qed.
Print Assumptions C28_step. Print Assumptions C28_linear. Print Assumptions C28_quadratic. Print Assumptions C28_into_hensel_factorization. Print Assumptions C28_integers.

(* ------------------------------------------------------------------ the hypotheses can be met *)
Definition zl (l : seq Z) : seq Z_comRingType := l.
(* the factors of the repository's own test; h is 8 f1 f2 f3 + 5 (1 + x^3) *)
Definition f1 := zl [:: Zpos 1; Zneg 1; Zpos 1].
Definition f2 := zl [:: Zpos 4; Zpos 3; Zpos 2; Zpos 1; Zpos 1].
Definition f3 := zl [:: Zpos 4; Zpos 3; Zpos 2; Zpos 1].
Definition hh := zl [:: Zpos 133; Zpos 64; Zpos 136; Zpos 157; Zpos 152; Zpos 104; Zpos 80; Zpos 40; Zpos 16; Zpos 8].
Notation Zpos5 := (Zpos 5 : Z_idomainType).
Lemma five0 : Zpos5 != 0. Proof. by []. Qed.
Lemma five1 : Zpos5 \isn't a GRing.unit. Proof. by []. Qed.
Lemma coprime5 (a b f g : seq Z_comRingType) : @p_equal (@quotient_ops ZO Zquorem Zpos5) (@p_add ZO (@p_mul ZO a f) (@p_mul ZO b g)) [:: (1 : Z_comRingType)] ->
  @coprime_mod Z_idomainType Zpos5 (Poly f) (Poly g).
Proof.
  move=> /(Q_equal Zidom Zeuclid Zmono five0 five1) H. exists (Poly a), (Poly b). move: H. by rewrite Poly1 p_addE Poly_polyseq !p_mulE !Poly_polyseq.
Qed.
Lemma monic5 (f : seq Z_comRingType) : @p_is_monic ZO f -> Nat.ltb 1 (size (@reduce_poly ZO f)) -> Poly f \is monic /\ (1 < size (Poly f))%N.
Proof. rewrite p_is_monicE reduceE => H1 H2. split=> //. apply/ssrnat.ltP. exact/Nat.ltb_spec0. Qed.
Lemma lead5 : @p_leading_coeff ZO hh = Some (Zpos 8). Proof. by vm_compute. Qed.
Lemma hh5 : @p_equal (@quotient_ops ZO Zquorem Zpos5) hh (@p_mul ZO [:: Zpos 8] (@p_mul ZO f1 (@p_mul ZO f2 f3))). Proof. by vm_compute. Qed.
Example C28_input_ok : @hensel_input Z_idomainType Zpos5 1 hh [:: f1; f2; f3].
Proof.
  have [h0 L] : Poly hh != 0 /\ lead_coef (Poly hh : {poly Z_idomainType}) = (Zpos 8 : Z_idomainType) by move: lead5; rewrite p_leading_coeffE; case: eqP => // _ [].
  split=> //.
  - move=> f. rewrite !inE => /orP[|/orP[]] /eqP ->; by apply: monic5; vm_compute.
  - case=> [|[|j]] [|[|[|k]]] // _ _; cbn [nth].
    + apply: (@coprime5 (zl [:: Zpos 1; Zpos 2; Zpos 3; Zpos 4]) (zl [:: Z0; Zpos 1])). by vm_compute.
    + apply: (@coprime5 (zl [:: Zpos 2; Zpos 4]) (zl [:: Zpos 1])). by vm_compute.
    + apply: (@coprime5 (zl [:: Z0; Zpos 1]) (zl [:: Zpos 4; Zpos 1; Zpos 4])). by vm_compute.
  - split=> //. rewrite L. split.
    + move=> [c] H. have {}H : Zpos 8 = Z.mul (Zpos 5) c := H. lia.
    + rewrite expr1 !big_cons big_nil mulr1 -mul_polyC. have /(Q_equal Zidom Zeuclid Zmono five0 five1) := hh5.
      by rewrite !p_mulE !Poly_polyseq Poly1.
Qed.
Lemma ex_of (A : Type) (o : option A) (P : A -> Prop) : match o with Some x => P x | None => False end -> exists x, o = Some x /\ P x.
Proof. by case: o => // x H; exists x. Qed.
(* what actually comes out: after three quadratic lifts the modulus is 5^8 *)
Example C28_run : exists X0, Zh_new true (Zpos 5) 1%num hh [:: f1; f2; f3] = Some X0 /\ exists X, times Zquadratic 3 X0 = Some X /\ (h_modulus X = Zpos 390625 /\
  @h_factors ZO X = [:: zl [:: Zpos 1; Zpos 390624; Zpos 1]; zl [:: Zpos 195694; Zpos 192128; Zpos 275102; Zpos 254891; Zpos 1];
                        zl [:: Zpos 76154; Zpos 22738; Zpos 135737; Zpos 1]]).
Proof. have H : match Zh_new true (Zpos 5) 1%num hh [:: f1; f2; f3] with Some X0 => match times Zquadratic 3 X0 with Some X => h_modulus X = Zpos 390625 /\
    @h_factors ZO X = [:: zl [:: Zpos 1; Zpos 390624; Zpos 1]; zl [:: Zpos 195694; Zpos 192128; Zpos 275102; Zpos 254891; Zpos 1]; zl [:: Zpos 76154; Zpos 22738; Zpos 135737; Zpos 1]]
    | None => False end | None => False end by vm_compute; split.
  move: H. case: (Zh_new true (Zpos 5) 1%num hh [:: f1; f2; f3]) => [X0|[]]. case E1: (times Zquadratic 3 X0) => [X|]; last by case.
  move=> H. exists X0. split; first reflexivity. exists X. split; [exact: E1|exact: H]. Qed.

(* ------------------------------------------------------------------ what does not work *)
(* p = -5 is irreducible too and new accepts it, but then every lift panics: 1 is not its own remainder modulo -5 *)
Theorem C28_negative_prime_refuted : exists X0, Zh_new true (Zneg 5) 1%num hh [:: f1; f2; f3] = Some X0 /\ (Zlinear X0 = None /\ Zquadratic X0 = None).
Proof. apply: ex_of. vm_compute. by split. Qed.
(* constant factors: new accepts h = 1 = 1 * 1, but then every lift panics *)
Theorem C28_constant_factors_refuted : exists X0,
  Zh_new false (Zpos 5) 1%num (zl [:: Zpos 1]) [:: zl [:: Zpos 1]; zl [:: Zpos 1]] = Some X0 /\ (Zlinear X0 = None /\ Zquadratic X0 = None).
Proof. apply: ex_of. vm_compute. by split. Qed.
(* new::<true> only computes the Bezout coefficients modulo p, so it panics in its own check when n >= 2; new::<false> accepts the same input *)
Theorem C28_new_lifted_refuted : Zh_new true (Zpos 5) 2%num (zl [:: Zneg 1; Z0; Zpos 1]) [:: zl [:: Zpos 1; Zpos 1]; zl [:: Zneg 1; Zpos 1]] = None /\
  Zh_new false (Zpos 5) 2%num (zl [:: Zneg 1; Z0; Zpos 1]) [:: zl [:: Zpos 1; Zpos 1]; zl [:: Zneg 1; Zpos 1]] <> None.
Proof. by split; vm_compute. Qed.
(* a single factor: the list of factors is [h] itself, so the leading coefficient is counted twice and 2 * (2x+1) is not 2x+1 modulo 5 *)
Theorem C28_single_factor_refuted : exists X, [/\ Zh_new false (Zpos 5) 1%num (zl [:: Zpos 1; Zpos 2]) [:: zl [:: Zpos 3; Zpos 1]] = Some X,
  @h_factors ZO X = [:: zl [:: Zpos 1; Zpos 2]] &
  ~ @cong Z_idomainType Zpos5 (Poly (zl [:: Zpos 1; Zpos 2])) ((Zpos 2 : Z_idomainType) *: \prod_(f <- @h_factors ZO X) Poly f)].
Proof.
  have E : match Zh_new false (Zpos 5) 1%num (zl [:: Zpos 1; Zpos 2]) [:: zl [:: Zpos 3; Zpos 1]] with Some X => @h_factors ZO X = [:: zl [:: Zpos 1; Zpos 2]] | None => False end by vm_compute.
  move: E. case: (Zh_new false (Zpos 5) 1%num (zl [:: Zpos 1; Zpos 2]) [:: zl [:: Zpos 3; Zpos 1]]) => [X|[]] E2. exists X. split; [reflexivity|exact: E2|]. rewrite E2 big_seq1 -mul_polyC => H.
  have : @p_equal (@quotient_ops ZO Zquorem Zpos5) (zl [:: Zpos 1; Zpos 2]) (@p_mul ZO (zl [:: Zpos 2]) (zl [:: Zpos 1; Zpos 2])).
  { apply/(Q_equal Zidom Zeuclid Zmono five0 five1). by rewrite p_mulE Poly_polyseq Poly1. }
  by vm_compute.
Qed.
Print Assumptions C28_negative_prime_refuted. Print Assumptions C28_constant_factors_refuted. Print Assumptions C28_new_lifted_refuted. Print Assumptions C28_single_factor_refuted.
