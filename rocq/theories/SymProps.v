(* C64: symmetric polynomials. `symmetric vars p`: only variables of vars occur, and every renaming that permutes vars leaves every
   value unchanged. *)
From Coq Require Import List Arith NArith ZArith Bool.
From mathcomp Require Import all_ssreflect all_algebra all_fingroup.
From mathcomp Require Import zify.
From Coq Require Import Lia.
From Verif Require Import RingSpec RingModel PermModel MatModel MatSpec MatInst ZRing PolyModel PolyProofs PolyProofs2 PolyHom SetsModel SetsProps MpModel FinSupp MpRing MpRing2 MpRing3 MpRing4 MpProofs MpProofs2 MpSpec MpProofs3 MpProps MpProps2 MpProps3 SymModel SymRing SymProofs SymProofs2 SymProofs3 SymProofs4 SymProofs5.
Close Scope rs_scope.
Set Implicit Arguments. Unset Strict Implicit. Unset Printing Implicit Defensive.
Import GRing.Theory.
Local Open Scope ring_scope.
(* specification *)
Definition symmetric (R : comRingType) (vars : seq nat) (p : seq (monomial * R)) : Prop :=
  (forall v, occurs v p -> v \in vars) /\
  forall g : nat -> nat, perm_eq [seq g v | v <- vars] vars -> forall (A : comRingType) (f : {rmorphism R -> A}) th, value f (fun v => th (g v)) p = value f th p.
(* the k-th elementary symmetric function of xs: the coefficient of X^k in the product of the 1 + x X *)
Definition elementary (A : comRingType) (xs : seq A) (k : nat) : A := (\prod_(x <- xs) (1 + x *: 'X))`_k.

Section Com.
Variable R : comRingType.
Notation O := (mc_ops R).
Notation poly := (seq (mon * R)).
Lemma evkX (A : comRingType) (f : {rmorphism R -> A}) th v : evk f th (kvar R predT v) = th v.
Proof. by rewrite /evk kmE // evl_nf /evl big_seq1 /= rmorph1 mul1r /mev big_seq1 expr1. Qed.
Lemma evk_elv (A : comRingType) (f : {rmorphism R -> A}) th vars n : evk f th (elv R vars n) = elementary [seq th v | v <- vars] n.
Proof. rewrite /elv (elg_map (evk_rmorph f th predT)) -map_comp /=. rewrite (_ : [seq _ | v <- vars] = [seq th v | v <- vars]) //. apply: eq_map => v /=. exact: evkX. Qed.
Lemma mv_occ (x : mpoly R predT) (P : pred nat) : varsin P x -> forall v, occurs v (x : poly) -> P v.
Proof. move=> /allP H v /hasP[t Ht /hasP[z Hz /eqP <-]]. exact: (allP (H t Ht)). Qed.
Lemma symmE vars (p : poly) : wf p -> symmetric vars p <-> (forall v, occurs v p -> v \in vars) /\ symm vars (ofl predT p : mpoly R predT).
Proof.
  move=> W. split=> [[Oc H]|[Oc [_ H]]]; split=> //.
  - split; first exact: V_in. move=> g Pg. rewrite -[RHS]sub_id /ren /sub !V_ev //. by have := H g Pg _ [rmorphism of kconst predT] (kvar R predT).
  - move=> g Pg A f th. have := congr1 (@evk _ _ f th predT) (H g Pg). rewrite /ren sub_evk !V_ev // => <-. apply: C29_value_occurs => v _. by rewrite evkX.
Qed.
Theorem C64_is_symmetric vars (p : poly) : uniq vars -> wf p -> exists2 b, @is_symmetric O vars p = Some b & (b = true <-> symmetric vars p).
Proof. move=> U W. have [b E H] := is_symmetricE U W. exists b => //. rewrite symmE //. Qed.
Theorem C64_elementary n vars : exists p : poly, @elementary_symmetric O n vars = Some p /\ normal p /\ 
  forall (A : comRingType) (f : {rmorphism R -> A}) th, value f th p = elementary [seq th v | v <- vars] n.
Proof.
  exists (mv (elv R vars n)). rewrite elementaryE. split=> //. split; first exact: normal_mv. move=> A f th. exact: evk_elv.
Qed.
Theorem C64_elementary_symmetric n vars (p : poly) : uniq vars -> @elementary_symmetric O n vars = Some p -> @is_symmetric O vars p = Some true.
Proof.
  move=> U. rewrite elementaryE => -[<-]. have [b E H] := is_symmetricE U (wf_mv (elv R vars n)). rewrite E. congr Some. apply/H. split; first exact: (mv_occ (elv_in R vars n)). rewrite V_mv. split; [exact: elv_in|]. move=> g Pg. exact: elv_ren.
Qed.
End Com.

Section Idom.
Variable R : idomainType.
Notation O := (mc_ops R).
Notation poly := (seq (mon * R)).
Variable div : div_op O.
Hypothesis D : idom_laws O div.
Variable pick : list nat -> nat.
Hypothesis pickP : forall l, l <> [::] -> pick l \in l.
Variable dflt : poly -> poly -> divres poly.
Variable shuffle : seq (nat * poly) -> seq (nat * poly).
Hypothesis shufP : forall l, perm_eq (shuffle l) l.
(* the value of a variable of e is the elementary symmetric function of the values of vars *)
Definition elem_at (A : comRingType) (th the : nat -> A) (vars e : seq nat) : Prop := forall i, (i < size vars)%N -> the (nth 0%N e i) = elementary [seq th v | v <- vars] i.+1.
Theorem C64_as_elementary fuel fresh vars (p : poly) d : uniq vars -> wf p -> all (fun t => total_degree t.1 <= d)%N p -> (size vars + d < fuel)%N ->
  match @as_elem O div pick dflt shuffle fuel fresh vars p with
  | None => False
  | Some None => ~ symmetric vars p
  | Some (Some (e, q)) => symmetric vars p /\ e = iota fresh (size vars) /\ normal q /\ (forall v, occurs v q -> v \in e) /\
      (forall (A : comRingType) (f : {rmorphism R -> A}) th the, elem_at th the vars e -> value f the q = value f th p) /\
      (* the only one *)
      (forall q', wf q' -> (forall v, occurs v q' -> v \in e) -> (forall (A : comRingType) (f : {rmorphism R -> A}) th the, elem_at th the vars e -> value f the q' = value f th p) -> @mp_equal O q q' = true)
  end.
Proof.
  move=> U W Dg Hf. rewrite /as_elem. have [b E H] := is_symmetricE U W. rewrite E. cbn [obind]. case: b E H => E H; last by rewrite symmE // => /H.
  have [Oc Sy] := H.1 isT. rewrite /as_elem_unchecked lengthE seqE. set e := iota fresh (size vars).
  have Ue : uniq e by exact: iota_uniq. have Se : size e = size vars by exact: size_iota.
  have [|s [Es [G1 G2 G3]]] := sym_ok D pickP dflt shufP Ue (vars := vars) (p := p) (d := d) _ Hf; first by split; rewrite ?Se.
  have Te : take (size vars) e = e by rewrite take_oversize ?Se. rewrite Te in G1.
  rewrite Es. cbn [obind]. rewrite subst_elemE // G3. cbn [obind]. rewrite V_equal //; last exact: wf_mv. rewrite V_mv eqxx. cbn [obind].
  have Ev (A : comRingType) (f : {rmorphism R -> A}) th v : v \in e -> evk f th (sig R vars e v) = elementary [seq th v | v <- vars] (index v e).+1.
  { move=> Hv. exact: evk_elv. }
  have Val (x : mpoly R predT) : varsin (fun v => v \in e) x -> forall (A : comRingType) (f : {rmorphism R -> A}) th the, elem_at th the vars e -> evk f the x = evk f th (sub (sig R vars e) x).
  { move=> Hx A f th the Hth. rewrite sub_evk. apply: (evl_eq (ok := fun v => v \in e)) => // v Hv. rewrite Ev // -Hth ?nth_index //. by rewrite -Se index_mem. }
  split; first exact/symmE. split=> //. split; first exact: normal_mv. split; first exact: (mv_occ G1). split.
  - move=> A f th the Hth. rewrite valueE -[evl _ _ _]/(evk f the s). by rewrite (Val s G1 A f th the Hth) G3 V_ev.
  - move=> q' Wq Oq Hq. rewrite V_equal //; last exact: wf_mv. rewrite V_mv. have Gq := V_in Wq Oq. rewrite -subr_eq0. apply/eqP. apply: (@indep R e Ue vars) => //; rewrite ?Se //; first by rewrite Te; apply: varsinD => //; apply: varsinN.
    rewrite (rmorphB (@sub_rmorphism R _)) /= G3. apply/eqP. rewrite subr_eq0 eq_sym. apply/eqP.
    have At : elem_at (kvar R predT) (sig R vars e) vars e by move=> i Hi; have Hn : nth 0%N e i \in e by [rewrite mem_nth ?Se]; rewrite -[LHS]sub_id /sub Ev // index_uniq ?Se.
    rewrite -[RHS]sub_id /sub !V_ev //. exact: (Hq _ [rmorphism of kconst predT] (kvar R predT) (sig R vars e) At).
Qed.
End Idom.
Print Assumptions C64_is_symmetric.
Print Assumptions C64_elementary.
Print Assumptions C64_elementary_symmetric.
Print Assumptions C64_as_elementary.

Notation ZO := (mc_ops Z_comRingType).
Notation zpoly := (seq (mon * Z_comRingType)).
(* a stored zero coefficient makes two equal polynomials get different answers *)
Theorem C64_is_symmetric_refuted : exists p q : zpoly, wf p /\ wf q /\ @mp_equal ZO p q = true /\ @is_symmetric ZO [::] p = Some false /\ @is_symmetric ZO [::] q = Some true.
Proof. exists [:: ([:: (0%N, 1%N)], Z0 : Z_comRingType)], [::]. by vm_compute. Qed.
Print Assumptions C64_is_symmetric_refuted.
(* x^3 + y^3 + z^3 = e1^3 - 3 e1 e2 + 3 e3 *)
Definition cubes : zpoly := [:: ([:: (0, 3)], Zpos 1); ([:: (1, 3)], Zpos 1); ([:: (2, 3)], Zpos 1)]%N.
Example C64_example : wf cubes /\ uniq [:: 0; 1; 2]%N /\ @as_elem ZO Zdiv (fun l => List.hd 0%N l) (fun _ _ => NotDivisible) id 8 10 [:: 0; 1; 2]%N cubes =
  Some (Some ([:: 10; 11; 12]%N, [:: ([:: (10, 3)]%N, Zpos 1); ([:: (10, 1); (11, 1)]%N, Zneg 3); ([:: (12, 1)]%N, Zpos 3)])).
Proof. by vm_compute. Qed.
Example C64_example2 : @is_symmetric ZO [:: 0; 1; 2]%N ([:: ([:: (0, 1); (1, 2)]%N, Zpos 1); ([:: (1, 1); (2, 2)]%N, Zpos 1); ([:: (0, 2); (2, 1)]%N, Zpos 1)] : zpoly) = Some false.
Proof. by vm_compute. Qed.
