(* Factorisation over a field of fractions: the whole result. *)
From Coq Require Import List Arith NArith Bool.
From mathcomp Require Import all_ssreflect all_algebra separable.
From mathcomp Require Import zify.
From Coq Require Import Lia.
From Verif Require Import RingSpec RingModel RingProofs FactoredSpec FactoredModel FactoredProofs PermModel MatModel MatSpec PolyModel PolySpec PolyProofs PolyProofs2 PolyProofs3 PolyProofs11 PolyProofs12 FacModel FacProofs FacProofs2 FacProps FfProofs2 FfProofs5 FofModel FofProofs.
From Verif Require MatProofs MatProofs4.
Close Scope rs_scope.
Set Implicit Arguments.
Unset Strict Implicit.
Unset Printing Implicit Defensive.
Import GRing.Theory.
Local Open Scope ring_scope.

Lemma toN (n : N) : N.lt N0 n -> (0 < N.to_nat n)%N.
Proof. lia. Qed.
Lemma reorder (T : comRingType) (u v A B C w : T) : u * (v * (C * B * A) * w) = w * B * (u * (C * v) * A).
Proof. by rewrite [LHS](AC (1*(1*3*1)) (6*4*(1*(3*2)*5)))%AC. Qed.
Lemma F2_in A B (P : A -> B -> Prop) l l' x : List.Forall2 P l l' -> List.In x l -> exists y, P x y.
Proof. elim=> [|a b l1 l2 H _ IH] //= [<-|/IH] //. by exists b. Qed.
Section M.
Variable R : idomainType.
Notation O := (mc_ops R).
Variables (div : div_op O) (ffa : ffa_op O).
Hypothesis D : idom_laws O div.
Hypothesis FD : forall x y : R, y != 0 -> exists q, div x y = DivOk q.
Hypothesis FA : ffa_laws O ffa.
Lemma monic_fav (f : seq R) : Poly f \is monic -> @is_fav_assoc (poly_ops O) (@pffar O div ffa) f = true.
Proof.
  move=> M. have f0 : Poly f != 0 by exact: monic_neq0. rewrite /is_fav_assoc -[@pffar O div ffa f]/(pffa div ffa f). have [f' [-> E]] := pffaE D FA f. rewrite (negPf f0).
  rewrite (ffa1 D FD FA) ?lead_coef_eq0 // (monicP M) mul1r in E. apply/p_equalP. by rewrite E.
Qed.
End M.
Section S.
Variables (R : idomainType) (K : fieldType).
Notation KI := [idomainType of K].
Notation O := (mc_ops R).
Notation OK := (mc_ops KI).
Notation PR := (poly_ops O).
Notation PK := (poly_ops OK).
Variables (fb : {rmorphism R -> K}) (num den : K -> R).
Hypothesis FI : injective fb.
Hypothesis ND : forall x, den x != 0 /\ fb (den x) * x = fb (num x).
Hypothesis N1 : forall r, den (fb r) = 1.
Variables (div : div_op O) (ffa : ffa_op O) (gcd : R -> R -> R).
Hypotheses (D : idom_laws O div) (F : ffa_laws O ffa) (G : gcd_laws O ffa gcd).
Variables (kdiv : div_op OK) (kffa : ffa_op OK).
Hypothesis KD : idom_laws OK kdiv.
Hypothesis KF : forall x y : KI, y != 0 -> exists q, kdiv x y = DivOk q.
Hypothesis KA : ffa_laws OK kffa.
Notation mapf := (map_poly fb).
Notation monicf A := ((fb (lead_coef A))^-1 *: mapf A).

(* prime factors of primitive polynomials are not constant *)
Lemma prime_size (h : seq R) (r : factored PR) w x : prim (Poly h) -> is_factorization (@pffar O div ffa) r -> Poly (@expand PR r) * w%:P = Poly h ->
  List.In x (f_factors r) -> (1 < size (Poly x.1 : {poly R}))%N.
Proof.
  move=> Hh [_ [V1 _] _] E Hx. have [[P1 [P2 _]] Hk] := proj1 (List.Forall_forall _ _) V1 _ Hx.
  have x0 : Poly (x.1 : seq R) != 0. { apply/eqP => Z. move/negP: P1; apply. apply/p_equalP. by rewrite Z. }
  rewrite ltnNge. apply/negP => Sz. have [c Ec] : exists c, Poly (x.1 : seq R) = c%:P by exists (Poly (x.1 : seq R))`_0; rewrite -size1_polyC.
  have c0 : c != 0 by move: x0; rewrite Ec polyC_eq0. have [Q EQ] : exists Q, Poly h = c *: Q.
  { have [l1 [l2 El]] := List.in_split _ _ Hx. move: E. rewrite (exE D) powersE El big_cat big_cons /= Ec -(prednK (n := N.to_nat x.2)); last lia.
    rewrite exprS => <-. set A := Poly _. set B := \prod_(i <- l1) _. set C := \prod_(i <- l2) _. exists (A * B * (c%:P ^+ (N.to_nat x.2).-1 * C) * w%:P). rewrite -mul_polyC. rewrite -!mulrA. rewrite [B * _]mulrCA [A * _]mulrCA. by []. }
  have [|q] := Hh c; first by move=> i; exists Q`_i; rewrite EQ coefZ mulrC. move=> Eq. apply: P2. apply/punitE. exists c => //. apply/unitrP. exists q. split; first by rewrite -Eq. by rewrite mulrC -Eq.
Qed.
Lemma prod_monicf (fs : seq (seq R * N)) (l : seq (seq K * N)) : (forall x, List.In x fs -> Poly x.1 != 0 /\ (0 < N.to_nat x.2)%N) ->
  List.Forall2 (fun x y => Poly y.1 = monicf (Poly x.1) /\ y.2 = x.2) fs l ->
  (\prod_(x <- fs) fb (lead_coef (Poly x.1)) * \prod_(x <- fs) fb (lead_coef (Poly x.1)) ^+ (N.to_nat x.2).-1) *: \prod_(y <- l) Poly y.1 ^+ N.to_nat y.2 =
  mapf (\prod_(x <- fs) Poly x.1 ^+ N.to_nat x.2).
Proof.
  move=> H0. elim: fs l H0 => [|x fs IH] l H0 H2; inversion H2 as [|x1 y fs1 l' H1 HT]; subst; first by rewrite !big_nil mulr1 scale1r rmorph1.
  have [x0 xk] := H0 x (or_introl erefl). have a0 : fb (lead_coef (Poly x.1)) != 0 by rewrite (fb_eq0 FI) lead_coef_eq0. case: H1 => Ey1 Ey2. 
  rewrite !big_cons rmorphM /= -(IH l') //; last by move=> z Hz; apply: H0; right. rewrite rmorphX /= Ey1 Ey2 exprZn.
  move: (\prod_(_ <- fs) _) (\prod_(_ <- fs) _) (\prod_(_ <- l') _) => A B C. rewrite -scalerAl scalerA -scalerAr. congr (_ *: _).
  rewrite exprVn mulrACA. have -> : fb (lead_coef (Poly x.1)) * fb (lead_coef (Poly x.1)) ^+ (N.to_nat x.2).-1 = fb (lead_coef (Poly x.1)) ^+ N.to_nat x.2 by rewrite -exprS prednK.
  by rewrite mulrAC mulfV ?mul1r // expf_neq0.
Qed.
Variable pfactor : seq R -> option (option (factored PR)).
Notation fpf := (@factor_primitive_fof O OK fb num den div gcd kdiv).
Definition right_on (f : seq K) := forall u h, fpf f = Some (u, h) -> prim (Poly h) -> Poly f = u *: mapf (Poly h) ->
  exists r w, [/\ pfactor h = Some (Some r), is_factorization (@pffar O div ffa) r, w \is a GRing.unit & Poly (@expand PR r) * w%:P = Poly h].
Lemma fof_factor_ok (f : seq K) : Poly f != 0 -> right_on f -> exists r' u h r w,
  [/\ @factorize_by_factorize_primitive_part O OK fb num den div gcd kdiv kffa pfactor f = Some (Some r'),
      is_factorization (@pffar OK kdiv kffa) r',
      [/\ prim (Poly h), fpf f = Some (u, h) /\ Poly f = u *: mapf (Poly h), pfactor h = Some (Some r), w \is a GRing.unit & Poly (@expand PR r) * w%:P = Poly h],
      List.Forall2 (fun x y => (1 < size (Poly x.1 : {poly R}))%N /\ Poly y.1 = monicf (Poly x.1) /\ y.2 = x.2) (f_factors r) (f_factors r') &
      Poly f = (fb w * \prod_(x <- f_factors r) fb (lead_coef (Poly x.1)) ^+ (N.to_nat x.2).-1) *: Poly (@expand PK r')].
Proof.
  move=> f0 PF. have [u [h [E1 u0 Hh Ef]]] := fof_ok FI ND N1 D G KD KF f0. have [r [w [E2 V Uw Er]]] := PF _ _ E1 Hh Ef.
  have Sz x : List.In x (f_factors r) -> (1 < size (Poly x.1 : {poly R}))%N by exact: prime_size Hh V Er.
  have NZ x : List.In x (f_factors r) -> Poly (x.1 : seq R) != 0 by move/Sz => H; rewrite -size_poly_gt0; exact: ltn_trans H.
  have [U' [l [E3 L E4]]] := fof_loop FI KD KF KA NZ (map fb (f_unit r)) [::].
  case: (V) => Vu [V1 V2] Vf. have [u1 Uu1 Eu1] : exists2 v, v \is a GRing.unit & Poly (f_unit r : seq R) = v%:P by apply/punitE.
  have W2 : List.Forall2 (fun x y => (1 < size (Poly x.1 : {poly R}))%N /\ Poly y.1 = monicf (Poly x.1) /\ y.2 = x.2) (f_factors r) l.
  { elim: (f_factors r) l Sz L {E3 E4 V Vf V1 V2 NZ Er E2} => [|x fs IH] l Sz L; inversion L; subst; constructor; first by split=> //; apply: Sz; left. apply: IH => // z Hz. apply: Sz. by right. }
  pose r' := Factored (R := PK) (p_mul (R := OK) [:: u] U') l.
  have a0 x : List.In x (f_factors r) -> fb (lead_coef (Poly x.1)) != 0 by move=> Hx; rewrite (fb_eq0 FI) lead_coef_eq0; exact: NZ.
  have P0 : \prod_(x <- f_factors r) fb (lead_coef (Poly x.1)) != 0.
  { elim: (f_factors r) a0 {E3 E4 V Vf V1 V2 NZ Er E2 L W2 Sz} => [|x fs IH] a0; first by rewrite big_nil oner_eq0. rewrite big_cons mulf_neq0 ?a0 //; first by left. apply: IH => z Hz. apply: a0. by right. }
  exists r', u, h, r, w. split.
  - rewrite /factorize_by_factorize_primitive_part E1. cbn [obind fst snd]. rewrite E2. cbn [obind]. rewrite -mapE in E3. rewrite E3. by [].
  - split=> /=.
    + apply/punitE. exists (u * (\prod_(x <- f_factors r) fb (lead_coef (Poly x.1)) * fb u1)); first by rewrite unitfE !mulf_neq0 // fb_eq0 //; move: Uu1; apply: contraTneq => ->; rewrite unitr0.
      by rewrite p_mulE Poly_polyseq Poly1 E4 Poly_map Eu1 map_polyC /= -mul_polyC !polyCM mulrA.
    + split.
      * apply/List.Forall_forall => y Hy. have [x [Hx [Sx [Ey1 Ey2]]]] : exists x, List.In x (f_factors r) /\ (1 < size (Poly x.1 : {poly R}))%N /\ Poly y.1 = monicf (Poly x.1) /\ y.2 = x.2.
        { elim: W2 Hy {Sz L E3 E4 V Vf V1 V2 NZ Er E2 a0 P0} => [|x z fs l' Hz _ IH] //= [<-|/IH [t [Ht Ht2]]]; first by exists x; split=> //; left. exists t. by split=> //; right. }
        have [Px Kx] := proj1 (List.Forall_forall _ _) V1 _ Hx. rewrite Ey2. split=> //. apply: (prime_fof FI ND N1 D G KD KF Px Sx _ Ey1). by rewrite invr_eq0 a0.
      * clear E3 E4 P0 r' Vf V Er E2. rewrite /non_associate in V2 *. elim: W2 V1 V2 a0 {L NZ Sz} => [|x y fs l' [Sx [Ey _]] W IH] V1 V2 a0; first by constructor.
        inversion V1 as [|x3 fs3 H1 H2]; subst. inversion V2 as [|x4 fs4 H4 H5]; subst. constructor; last by apply: IH => // z Hz; apply: a0; right.
        apply/List.Forall_forall => y' Hy'. have [x' [Hx' [Sx' [Ey' _]]]] : exists x, List.In x fs /\ (1 < size (Poly x.1 : {poly R}))%N /\ Poly y'.1 = monicf (Poly x.1) /\ y'.2 = x.2.
        { elim: W Hy' {IH V1 V2 a0 H2 H4 H5} => [|x2 z fs2 l2 Hz _ IH] //= [<-|/IH [t [Ht Ht2]]]; first by exists x2; split=> //; left. exists t. by split=> //; right. }
        move=> A. apply: (proj1 (List.Forall_forall _ _) H4 _ Hx'). have [Px' _] := proj1 (List.Forall_forall _ _) H2 _ Hx'. have [Px _] := H1.
        apply: (assoc_fof FI ND N1 D G KD KF Px Px' Sx Sx' _ _ Ey Ey' A); rewrite invr_eq0; apply: a0; [by left|by right].
    + apply/List.Forall_forall => y Hy. have [x [Hx [Sx [Ey1 Ey2]]]] : exists x, List.In x (f_factors r) /\ (1 < size (Poly x.1 : {poly R}))%N /\ Poly y.1 = monicf (Poly x.1) /\ y.2 = x.2.
      { elim: W2 Hy {Sz L E3 E4 V Vf V1 V2 NZ Er E2 a0 P0} => [|x z fs l' Hz _ IH] //= [<-|/IH [t [Ht Ht2]]]; first by exists x; split=> //; left. exists t. by split=> //; right. }
      have My : lead_coef (Poly y.1) = 1 by rewrite Ey1 lead_coefZ lead_mapf // mulVf // a0. have y0 : Poly (y.1 : seq KI) != 0 by rewrite -lead_coef_eq0 My oner_eq0.
      apply: (monic_fav KD KF KA). by rewrite monicE My.
  - by split.
  - exact: W2.
  - rewrite (exE KD) powersE. cbn [f_unit f_factors r']. rewrite p_mulE Poly_polyseq Poly1 E4 Poly_map Eu1 map_polyC /= Ef -Er (exE D) powersE Eu1 !rmorphM /= !map_polyC /=.
    rewrite -(prod_monicf _ L); last by move=> x Hx; split; [exact: NZ|have [_ Kx] := proj1 (List.Forall_forall _ _) V1 _ Hx; exact: toN Kx].
    move: (\prod_(_ <- _) _) (\prod_(_ <- _) _) (\prod_(_ <- _) _) => A B C. rewrite -!mul_polyC !polyCM. move: (A%:P) (B%:P) (u%:P) ((fb u1)%:P) ((fb w)%:P) => A' B' u' v' w'.
    exact: (@reorder (poly_comRingType K)).
Qed.
(* a squarefree polynomial is factored exactly *)
Lemma fof_squarefree (f : seq K) : Poly f != 0 -> coprimep (Poly f) (Poly f)^`() -> right_on f -> (forall h r, pfactor h = Some (Some r) -> prim (Poly h) -> Poly (@expand PR r) = Poly h) ->
  exists r', [/\ @factorize_by_factorize_primitive_part O OK fb num den div gcd kdiv kffa pfactor f = Some (Some r'),
      is_factorization (@pffar OK kdiv kffa) r' & Poly (@expand PK r') = Poly f].
Proof.
  move=> f0 Cf PF EX. have [r' [u [h [r [w [E1 V [H1 [_ H2] H3 H4 H5] W E]]]]]] := fof_factor_ok f0 PF. exists r'. split=> //.
  have h0 := prim_neq0 H1.
  have w1 : w = 1. { have := H5. rewrite (EX h r H3 H1) -[X in _ = X]mulr1 => /(mulfI h0) /polyC_inj. by []. }
  have c1 : \prod_(x <- f_factors r) fb (lead_coef (Poly x.1)) ^+ (N.to_nat x.2).-1 = 1; last by rewrite [RHS]E w1 c1 rmorph1 mulr1 scale1r.
  have K1 x : List.In x (f_factors r) -> (N.to_nat x.2).-1 = 0%N.
  { move=> Hx. apply/eqP. rewrite -leqn0. rewrite leqNgt. apply/negP => Hk. have Hk2 : (1 < N.to_nat x.2)%N by move: Hk; case: (N.to_nat x.2) => [|[|k]].
    have Hd : mapf (Poly (x.1 : seq R)) ^+ N.to_nat x.2 %| Poly f.
    { have [l1 [l2 El]] := List.in_split _ _ Hx. rewrite H2 -H5 (exE D) powersE El big_cat big_cons /= !rmorphM /= rmorphX /= -mul_polyC. rewrite -!mulrA. do 3 apply: dvdp_mull. exact: dvdp_mulr. }
    have Sx : size (mapf (Poly (x.1 : seq R))) != 1%N. { rewrite size_mapf //. have Sx : (1 < size (Poly (x.1 : seq R) : {poly R}))%N by have [y [Hy _]] := F2_in W Hx. by move: Sx; case: (size _) => [|[|]]. }
    have := separable_nosquare (p := Poly f) (u := mapf (Poly (x.1 : seq R))) (k := N.to_nat x.2) Cf Hk2 Sx. by rewrite Hd. }
  elim: (f_factors r) K1 {W E H5 H3 E1} => [|x l IH] K1; first by rewrite big_nil. rewrite big_cons K1 ?expr0 ?mul1r; [|by left]. apply: IH => y Hy. apply: K1. by right.
Qed.
End S.
