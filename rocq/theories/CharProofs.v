(* Characteristic and minimal polynomials through the Smith form of A - xI. *)
From Coq Require Import List Arith NArith ZArith.
From mathcomp Require Import all_ssreflect all_algebra.
From Coq Require Import Lia.
From Verif Require Import RingSpec RingModel PermModel MatModel MatSpec MatInst MatViewSpec MatProofs MatProofs2 MatProofs7 MatProofs9 LatProofs3 CharModel.
Close Scope rs_scope.
Set Implicit Arguments.
Unset Strict Implicit.
Unset Printing Implicit Defensive.
Import GRing.Theory.
Local Open Scope ring_scope.

(* ------------------------------------------------------------------ K[x] is a Euclidean domain in the sense of the contracts *)
Section PolyInst.
Variable F : fieldType.
Notation X := [idomainType of {poly F}].
Notation O := (mc_ops X).
Definition Pdiv : div_op O := fun a b => if (b : {poly F}) == 0 then DivideByZero else if (b : {poly F}) %| a then DivOk ((a : {poly F}) %/ b) else NotDivisible.
Definition Pffa : ffa_op O := fun a => if (a : {poly F}) == 0 then (1 : {poly F}, 0 : {poly F}) else ((lead_coef a)%:P, (lead_coef a)^-1 *: (a : {poly F})).
Definition Pnorm (a : {poly F}) : option N := if a == 0 then None else Some (N.of_nat (size a).-1).
Definition Pquorem (a b : {poly F}) : option ({poly F} * {poly F}) := if b == 0 then None else Some (a %/ b, a %% b).
Definition Pxgcd : {poly F} -> {poly F} -> {poly F} * {poly F} * {poly F} := @exgcd [comRingType of {poly F}] Pdiv Pffa Pnorm Pquorem.
Lemma Pidom : idom_laws O Pdiv.
Proof.
  split.
  - split; rewrite /=; try by move=> *; repeat match goal with H : is_true (_ == _) |- _ => move/eqP: H => H | H : (_ == _) = true |- _ => move/eqP: H => H end; apply/eqP; subst.
    all: try by move=> *; apply/eqP.
    all: try by (move=> *; apply/eqP; rewrite ?add0r ?mul1r ?addrA ?mulrA ?mulrDl ?subrr).
    all: try by (move=> a b; apply/eqP; rewrite ?[a + b]addrC ?[a * b]mulrC).
  - exact/negbTE/oner_neq0.
  - move=> a b H. have : (a : {poly F}) * b == 0 by exact: H. rewrite mulf_eq0. by case/orP=> H'; [left|right]; exact: H'.
  - move=> a b. rewrite /Pdiv /=. case: eqP => //. by case: ifP.
  - move=> a b q. rewrite /Pdiv /=. case: eqP => // /eqP Hb. case: ifP => // H [<-]. apply/eqP. by rewrite divpK.
  - move=> a b. rewrite /Pdiv. case: eqP => // _. case: ifP => // /negP H _ [c /eqP E]. apply: H. apply/dvdpP. exists c. by rewrite E /= mulrC.
Qed.
Lemma Prunit (a : {poly F}) : @runit O a <-> size a = 1%N.
Proof.
  split.
  - move=> [b /eqP /= E]. apply/eqP. rewrite -dvdp1 -E. exact: dvdp_mulr.
  - move/eqP/size_poly1P => [c c0 ->]. exists c^-1%:P. apply/eqP. by rewrite /= -polyCM divff.
Qed.
Lemma Pffa_ok : ffa_laws O Pffa.
Proof.
  have L (a : {poly F}) : a != 0 -> lead_coef a != 0 by rewrite lead_coef_eq0.
  split; rewrite /Pffa /=.
  - move=> a. apply/eqP. case: (@eqP _ (a : {poly F}) 0) => [->|/eqP Ha] /=; first by rewrite mulr0. by rewrite mul_polyC scalerA divff ?scale1r ?L.
  - move=> a. apply/Prunit. case: (@eqP _ (a : {poly F}) 0) => [_|/eqP Ha] /=; first by rewrite size_poly1. by rewrite size_polyC L.
  - move=> a b [u [/Prunit /eqP /size_poly1P [c c0 ->] /eqP ->]] /=. rewrite mul_polyC scaler_eq0 (negbTE c0) /=.
    case Hb: ((b : {poly F}) == 0) => /=; apply/eqP => //. rewrite lead_coefZ scalerA invfM mulrAC mulVf // mul1r //.
  - move=> a -> /=. exact: eqxx.
  - move=> a /Prunit /eqP /size_poly1P [c c0 ->]. rewrite polyC_eq0 (negbTE c0) /= lead_coefC -mul_polyC -polyCM mulVf //. exact: eqxx.
Qed.
Lemma Peuclid : euclid_laws O Pnorm Pquorem.
Proof.
  split; rewrite /Pnorm /Pquorem /=.
  - move=> a. by case: eqP.
  - move=> a b. by case: eqP.
  - move=> a b q r. case: eqP => // /eqP Hb [<- <-]. apply/eqP. exact: divp_eq.
  - move=> a b q r n k. case: eqP => // /eqP Hb [_ <-] [<-]. case: eqP => // /eqP R0 [<-]. have := ltn_modp a b. rewrite Hb => H. 
    have := size_poly_gt0 (a %% b). rewrite R0. move/ltP: H. case: (size (a %% b)) => // s; case: (size b) => [|t] H _ /=; lia.
Qed.
Lemma Pmono : norm_mono O Pnorm.
Proof.
  move=> a b c n k /eqP -> /=. rewrite /Pnorm. case: eqP => // /eqP A0 [<-]. case: eqP => // /eqP AB0 [<-]. have B0 : b != 0 by apply: contraNneq AB0 => ->; rewrite mulr0.
  rewrite size_mul //. have := size_poly_gt0 a. have := size_poly_gt0 b. rewrite A0 B0. case: (size a) => // s; case: (size b) => // t. move=> _ _. rewrite addnS addSn /= -plusE. lia.
Qed.
Lemma Pbezout : @bezout_laws X Pdiv Pffa Pxgcd.
Proof. exact: (@exgcd_bezout X _ _ _ _ Pidom Pffa_ok Peuclid). Qed.
Lemma Pmonic (a : {poly F}) : a != 0 -> snd (Pffa a) \is monic.
Proof. move=> a0. rewrite /Pffa (negbTE a0) /= monicE lead_coefZ mulVf // lead_coef_eq0. exact: a0. Qed.
End PolyInst.

(* ------------------------------------------------------------------ invariant factors *)
Section Inv.
Variable F : fieldType.
Variable n' : nat.
Notation n := n'.+1.
Variable A : 'M[F]_n.
Lemma horner_mx_factor (p : {poly F}) : horner_mx A p = 0 <-> exists N : 'M[{poly F}]_n, N *m char_poly_mx A = p%:M.
Proof.
  have [phi [phiB phiZ phiC phiE]] := mx_poly_ring_isom [comRingType of F] n'.
  have E : phi (char_poly_mx A) = 'X - A%:P by rewrite rmorphB phiC phiZ map_polyX.
  have R : root (map_poly scalar_mx p : {poly 'M[F]_n}) A <-> horner_mx A p = 0 by split=> /rootP.
  rewrite -R. split.
  - move/factor_theorem => [q Hq]. have [psi K1 K2] := phiB. exists (psi q). apply: (bij_inj phiB). by rewrite rmorphM E K2 phiZ -Hq.
  - move=> [N HN]. apply/factor_theorem. exists (phi N). by rewrite -E -rmorphM -phiZ -HN.
Qed.
Lemma minpoly_last (S U V : 'M[{poly F}]_n) e : S = U *m (char_poly_mx A) *m V -> U \in unitmx -> V \in unitmx -> 
  (forall i j : 'I_n, i != j -> S i j = 0) -> (forall i : 'I_n, S i i %| e) -> S ord_max ord_max = e -> e \is monic -> e = mxminpoly A.
Proof.
  move=> ES HU HV D C Ee Me. apply/eqP. rewrite -eqp_monic ?mxminpoly_monic //. 
  have key p : horner_mx A p = 0 <-> e %| p.
  { rewrite horner_mx_factor. split.
    - move=> [N HN]. have H : (invmx V *m N *m invmx U) *m S = p%:M.
      { rewrite ES !mulmxA mulmxKV // -(mulmxA (invmx V)) HN mul_mx_scalar -scalemxAl mulVmx // scalemx1 //. }
      move/matrixP/(_ ord_max ord_max): H. rewrite !mxE eqxx mulr1n => <-. rewrite (bigD1 ord_max) //= big1 ?addr0; last by move=> i Hi; rewrite D // mulr0.
      rewrite Ee. exact: dvdp_mull.
    - move=> /dvdpP [c Ep]. pose G : 'M[{poly F}]_n := \matrix_(i, j) (if i == j then p %/ S i i else 0).
      have HG : G *m S = p%:M.
      { apply/matrixP => i j. rewrite !mxE (bigD1 i) //= big1 ?addr0; last by move=> k Hk; rewrite mxE eq_sym (negbTE Hk) mul0r.
        rewrite mxE eqxx. case: (i =P j) => [<-|/eqP Hij]; last by rewrite (D _ _ Hij) mulr0.
        rewrite divpK // Ep. exact: dvdp_mull. }
      exists (V *m G *m U). have -> : char_poly_mx A = invmx U *m S *m invmx V by rewrite ES !mulmxA mulVmx // mul1mx mulmxK.
      by rewrite !mulmxA mulmxK // -(mulmxA V) HG mul_mx_scalar -scalemxAl mulmxV // scalemx1. }
  apply/andP; split; first by apply/(key _).1; exact: mx_root_minpoly. apply: mxminpoly_min. exact/(key _).2.
Qed.
Lemma charpoly_prod (S U V : 'M[{poly F}]_n) : S = U *m char_poly_mx A *m V -> U \in unitmx -> V \in unitmx -> 
  (forall i j : 'I_n, i != j -> S i j = 0) -> (forall i : 'I_n, S i i \is monic) -> \prod_i S i i = char_poly A.
Proof.
  move=> ES HU HV D M. apply/eqP. rewrite -eqp_monic ?char_poly_monic ?monic_prod //.
  have -> : \prod_i S i i = \det S by rewrite det_trig //; apply/is_trig_mxP => i j Hij; apply: D; rewrite neq_ltn Hij.
  rewrite ES !det_mulmx mulrAC. move: HU HV. rewrite !unitmxE => HU HV.
  have : \det U * \det V \is a GRing.unit by rewrite unitrM HU HV. rewrite poly_unitE => /andP [/eqP /eqP /size_poly1P [c c0 ->] _].
  by rewrite mul_polyC eqp_scale.
Qed.
End Inv.
