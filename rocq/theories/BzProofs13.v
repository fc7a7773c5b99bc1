(* The naive Berlekamp-Zassenhaus search. *)
From Coq Require Import List NArith ZArith QArith Bool Sorted.
From mathcomp Require Import all_ssreflect all_algebra separable.
From mathcomp Require Import zify.
From Coq Require Import Lia.
From Verif Require HenselProofs5 NatModel NatSpec NatProofs2.
From Verif Require Import RingSpec RingModel RingProofs RingProofs2 FactoredSpec FactoredModel FactoredProofs PermModel MatModel MatSpec ZRing MatInst PolyModel PolySpec PolyProofs PolyProofs2 PolyProofs3 PolyProofs11 PolyProofs12 PolyProps PolyProps3 FacModel FacProofs FacProofs2 FacProofs3 FacProofs4 FacProofs5 HenselSpec HenselModel HenselProofs HenselProofs2 BoundModel BoundProofs BoundProofs2 BoundProps BzModel BzModel2 BzSpec BzProofs1 BzProofs2 BzProofs3 BzProofs5 BzProofs6 BzProofs7 BzProofs8 BzProofs9 BzProofs10 BzProofs11 BzProofs12.
Close Scope rs_scope. Close Scope Q_scope.
Set Implicit Arguments.
Unset Strict Implicit.
Unset Printing Implicit Defensive.
Import GRing.Theory.
Local Open Scope ring_scope.

Lemma sym_lift_class (m x y : Z) : m <> Z0 -> (exists c, x = Z.add y (Z.mul m c)) -> sym_lift m x = sym_lift m y.
Proof. move=> Hm [c ->]. rewrite /sym_lift !q_remZ //. have -> : Z.modulo (Z.add y (Z.mul m c)) m = Z.modulo y m by rewrite Z.mul_comm Z.mod_add. by []. Qed.
(* the subsets tried *)
Lemma bv_len n b : List.In b (bool_vectors n) -> size b = n.
Proof. elim: n b => [|n IH] b /=; first by case=> [<-|[]]. by case/List.in_app_iff => /List.in_map_iff [c [<- /IH <-]]. Qed.
Lemma bv_all n b : size b = n -> List.In b (bool_vectors n).
Proof. elim: n b => [|n IH] [|x b] //= => [_|[/IH H]]; first by left. apply/List.in_app_iff. by case: x; [right|left]; apply: List.in_map. Qed.
Lemma chosenE n (b : seq bool) : chosen n b = [seq i <- iota 0 n | nth false b i].
Proof. rewrite /chosen. have -> : List.seq 0 n = iota 0 n by elim: n 0%N => [|n IH] k //=; rewrite IH. elim: (iota 0 n) => [|i l IH] //=. rewrite IH. have -> : List.nth i b false = nth false b i by elim: b i {IH} => [|x b IHb] [|i] //=. by []. Qed.
Lemma chosen_pred n (P : pred nat) : exists b, List.In b (bool_vectors n) /\ chosen n b = [seq i <- iota 0 n | P i].
Proof.
  exists (map P (iota 0 n)). split; first by apply: bv_all; rewrite size_map size_iota. rewrite chosenE. apply: eq_in_filter => i. rewrite mem_iota add0n => Hi. by rewrite (nth_map 0%N) ?size_iota // nth_iota // add0n.
Qed.
Lemma prodE (l : seq (seq Z)) : ZP (RingModel.product (R := PZ) l) = \prod_(g <- l) ZP g.
Proof.
  rewrite /RingModel.product. have H acc : ZP (List.fold_left (@rmul PZ) l acc) = ZP acc * \prod_(g <- l) ZP g; last by rewrite H -[ZP (@r1 PZ)]/(Poly [:: 1 : ZR]) Poly1 mul1r.
  elim: l acc => [|g l IH] acc /=; first by rewrite big_nil mulr1. by rewrite IH big_cons mulrA -[ZP (p_mul acc g)]/(Poly (@rmul PZ acc g : seq ZR)) (@pmulE ZR).
Qed.
Section Search.
Variables (f : list Z) (M : Z) (gs : list (list Z)).
Hypothesis M0 : Z.lt Z0 M.
Hypothesis Sf : (1 < size (ZP f))%N.
Notation L := (lead_coef (ZP f)).
Notation d := (size (ZP f)).-1.
Notation nP s := (\prod_(i <- s) ZP (nth [::] gs i)).
Notation Yc s := (Poly (map (sym_lift M) (L *: nP s)) : {poly ZR}).
(* every candidate is nonzero, and a true nonconstant factor that is not all of f shows up as a candidate *)
Hypothesis Nz : forall b, List.In b (bool_vectors (size gs)) -> Yc (chosen (size gs) b) != 0.
Hypothesis Cover : forall F H : {poly ZR}, F * H = ZP f -> (1 < size F)%N -> (1 < size H)%N -> exists b, List.In b (bool_vectors (size gs)) /\ Yc (chosen (size gs) b) = lead_coef H *: F.
Hypothesis PR : prim (ZP f).
Lemma pdv (F H : {poly ZR}) : F * H = ZP f -> prim F.
Proof. move=> E c Hc. apply: PR. have [A EA] := dvp_fact Hc. rewrite -E EA -scalerAl. exact: dvp_scale. Qed.
Lemma step_vals b : MatModel.mapM (nth_error gs) (chosen (size gs) b) = Some [seq nth [::] gs i | i <- chosen (size gs) b].
Proof.
  rewrite -mapE. apply: MatProofs.mapM_some => i /HenselProofs5.In_mem. rewrite chosenE mem_filter mem_iota add0n => /andP [_ Hi]. elim: gs i Hi => [|g l IH] [|i] //= Hi. exact: IH.
Qed.
Lemma Ycoef s : Poly (map (sym_lift M) (@p_mul ZO [:: L] (RingModel.product (R := PZ) [seq nth [::] gs i | i <- s]))) = Yc s :> {poly ZR}.
Proof.
  congr Poly. congr map. have := @p_mulE ZR [:: L] (RingModel.product (R := PZ) [seq nth [::] gs i | i <- s]) => ->. congr polyseq. rewrite Poly1 mul_polyC. congr (_ *: _). have := prodE [seq nth [::] gs i | i <- s]. rewrite big_map => <-. by [].
Qed.
Lemma search_ok' subs : (forall b, List.In b subs -> List.In b (bool_vectors (size gs))) -> 
  (exists r, nv_search M L f d gs subs = Some r /\ match r with
    | FFComposite g h => [/\ ZP f = ZP g * ZP h, (1 < size (ZP g))%N & (1 < size (ZP h))%N]
    | FFIrreducible => forall b, List.In b subs -> forall F H : {poly ZR}, F * H = ZP f -> (1 < size F)%N -> (1 < size H)%N -> Yc (chosen (size gs) b) <> lead_coef H *: F end).
Proof.
  elim: subs => [|b subs IH] Hs; first by exists FFIrreducible. have [|r [Er Hr]] := IH; first by move=> c Hc; apply: Hs; right.
  have Hb := Hs b (or_introl erefl). cbn [nv_search]. rewrite -[List.length gs]/(size gs) step_vals. cbn [obind].
  have Y0 := Nz Hb. rewrite -Ycoef in Y0. have [c [g [E1 E2 E3 E4 _]]] := fp_ok Zidom Zgcd_ok Y0. rewrite /primitive_part E1. cbn [obind].
  have Sg : size (ZP g) = size (Yc (chosen (size gs) b)) by rewrite -Ycoef E2 size_scale. rewrite Ycoef in E2.
  have g0 : (0 < size (ZP g))%N by rewrite size_poly_gt0; exact: prim_neq0 E4.
  have -> : @p_degree ZO g = Some (size (ZP g)).-1. { have := @p_degreeE ZR g => ->. by case: (size _) g0. } cbn [obind].
  have NO : (size (ZP g)).-1 = 0%N \/ (size (ZP g)).-1 = d \/ (forall Q : {poly ZR}, ZP f <> Q * ZP g) -> forall F H : {poly ZR}, F * H = ZP f -> (1 < size F)%N -> (1 < size H)%N -> Yc (chosen (size gs) b) <> lead_coef H *: F.
  { move=> Cs F H E SF SH EY. have HF := pdv E. have H0 : lead_coef H != 0 by rewrite lead_coef_eq0 -size_poly_gt0; exact: ltn_trans SH. have EE : c *: ZP g = lead_coef H *: F by rewrite -EY -E2.
    have Sgg : size (ZP g) = size F by rewrite -(size_scale F H0) -EE size_scale. have F0 : F != 0 by rewrite -size_poly_gt0; exact: ltn_trans SF. have Hn : H != 0 by rewrite -size_poly_gt0; exact: ltn_trans SH.
    have Ss := size_mul F0 Hn. rewrite E in Ss. case: Cs => [Z|[Z|Z]].
    - move: Z. rewrite Sgg. move: SF. clear. case: (size F) => [|[|k]] //.
    - move: Z. rewrite Sgg Ss. move: SF SH. clear. move: (size F) (size H) => x y. lia.
    - have [U1 U2] := prim_fact_uniq Zgcd_ok E3 E4 HF EE. have [v Ev] := U2.
      apply: (Z (v *: H)). have C0 : (lead_coef H)%:P != 0 by rewrite polyC_eq0. apply: (mulfI C0). rewrite !mul_polyC. rewrite -E scalerAl -EE Ev -!scalerAl scalerA [v * _]mulrC. congr (_ *: _). exact: mulrC. }
  case C: (negb _ && negb _); last first.
  { exists r. split=> //. case: r Hr {Er} => // Hr b' [<-|Hb']; last exact: Hr. apply: NO. move/nandP: C => [/negbNE/Nat.eqb_eq|/negbNE/Nat.eqb_eq] H; [by left|by right; left]. }
  have := @p_div_ok ZR Zdiv Zidom f g. case: (@p_div ZO Zdiv f g) => [[h| |]|] //.
  - case=> _ E. cbn [obind]. exists (@FFComposite PZ g h). split=> //. case/andP: C => /negP C1 /negP C2. have C1' : (1 < size (ZP g))%N by move: C1 g0; case: (size (ZP g)) => [|[|k]] //= H; case: H.
    split=> //; first by rewrite mulrC. rewrite ltnNge. apply/negP => Sh. apply: C2. apply/Nat.eqb_eq. congr (_.-1).
    have h0 : ZP h != 0. { apply/eqP => Z. move: Sf. have Ez : ZP f = 0 by move: E => /= ->; rewrite [X in X * _]Z mul0r. by rewrite Ez size_poly0. }
    have Es := size_mul h0 (prim_neq0 E4). have {}Es : size (ZP f) = (size (ZP h) + size (ZP g)).-1 by move: E => /= ->. rewrite Es. move: Sh h0. rewrite -size_poly_gt0. clear. case: (size (ZP h)) => [|[|k]] //.
  - move=> Z. have := prim_neq0 E4. by rewrite Z eqxx.
  - case=> _ E. cbn [obind]. exists r. split=> //. case: r Hr {Er} => // Hr b' [<-|Hb']; last exact: Hr. apply: NO. right. right. exact: E.
Qed.
Lemma nv_search_ok : exists r, nv_search M L f d gs (bool_vectors (size gs)) = Some r /\ match r with
    | FFComposite g h => [/\ ZP f = ZP g * ZP h, (1 < size (ZP g))%N & (1 < size (ZP h))%N]
    | FFIrreducible => irrp (ZP f) end.
Proof.
  have [//|r [E H]] := search_ok' (subs := bool_vectors (size gs)). exists r. split=> //. case: r H {E} => // H. split=> // A B E. case HA: (size A <= 1)%N => //. case HB: (size B <= 1)%N => //. exfalso.
  have [||b [Hb E2]] := Cover E; [by rewrite ltnNge HA|by rewrite ltnNge HB|]. apply: (H b Hb A B E _ _ E2); by rewrite ltnNge ?HA ?HB.
Qed.
End Search.
