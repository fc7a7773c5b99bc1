(* The d-1 test never rules out a true factor. *)
From Coq Require Import List NArith ZArith QArith Qabs Qround Bool.
From mathcomp Require Import all_ssreflect all_algebra.
From mathcomp Require Import zify.
From mathcomp Require algC.
From Coq Require Import Lia.
From Verif Require Import RingSpec RingModel RingProofs2 PermModel MatModel MatSpec ZRing MatInst PolyModel PolySpec PolyProofs PolyProps PolyProps3 HenselSpec HenselProofs BoundModel BoundProofs BoundProofs2 BoundProps RatModel BzModel BzProofs1 BzProofs2 BzProofs3.
Close Scope rs_scope. Close Scope Q_scope.
Set Implicit Arguments.
Unset Strict Implicit.
Unset Printing Implicit Defensive.
Import Order.TTheory GRing.Theory Num.Theory.
Local Open Scope ring_scope.
Notation algC := (algC.Algebraics.Implementation.numClosedFieldType).

(* the coefficient below the leading one *)
Section Sub.
Variable R : comRingType.
Implicit Types (A B : {poly R}).
Lemma sub_mul A B a b : A \is monic -> B \is monic -> size A = a.+1 -> size B = b.+1 -> (A * B * 'X)`_(a + b) = (A * 'X)`_a + (B * 'X)`_b.
Proof.
  move=> MA MB SA SB. have red (C : {poly R}) c : C \is monic -> size C = c.+1 -> exists C', C = 'X^c + C' /\ (size C' <= c)%N.
  { move=> MC SC. exists (C - 'X^c). split; first by rewrite addrC subrK. apply/leq_sizeP => j Hj. rewrite coefB coefXn. case: eqP => [->|/eqP N]; first by rewrite -[c]/(c.+1.-1) -SC -lead_coefE (monicP MC) subrr.
    rewrite nth_default ?subr0 // SC ltn_neqAle eq_sym N. exact: Hj. }
  have [A' [EA SA']] := red A a MA SA. have [B' [EB SB']] := red B b MB SB.
  have X0 c : ('X^c * 'X : {poly R})`_c = 0 by rewrite -exprSr coefXn ltn_eqF.
  rewrite {1}EA mulrDl mulrDl coefD. have -> : ('X^a * B * 'X)`_(a + b) = (B * 'X)`_b by rewrite -mulrA coefXnM ltnNge leq_addr addnC addnK.
  rewrite [RHS]addrC. congr (_ + _). rewrite EB mulrDr mulrDl coefD. have -> : (A' * 'X^b * 'X)`_(a + b) = (A' * 'X)`_a by rewrite [A' * _]mulrC -mulrA coefXnM addnC ltnNge leq_addr addnC addnK.
  rewrite EA mulrDl coefD X0 add0r [X in _ + X]nth_default ?addr0 //. case: (@eqP _ (A' * B') 0) => [->|/eqP N0]; first by rewrite mul0r size_poly0.
  rewrite size_mulX //. have := size_mul_leq A' B'. move: SA' SB'. have : A' != 0 by apply: contraNneq N0 => ->; rewrite mul0r. have : B' != 0 by apply: contraNneq N0 => ->; rewrite mulr0.
  rewrite -!size_poly_gt0. set x := size A'. set y := size B'. set z := size _. lia.
Qed.
Lemma sub_prod (g : nat -> {poly R}) s : {in s, forall i, g i \is monic} ->
  size (\prod_(i <- s) g i) = (\sum_(i <- s) (size (g i)).-1).+1 /\ ((\prod_(i <- s) g i) * 'X)`_(\sum_(i <- s) (size (g i)).-1) = \sum_(i <- s) (g i * 'X)`_(size (g i)).-1.
Proof.
  elim: s => [|i s IH] Hs; first by rewrite !big_nil size_poly1 mul1r coefX. have [|IH1 IH2] := IH; first by move=> j Hj; apply: Hs; rewrite inE Hj orbT.
  have Mi := Hs i (mem_head _ _). have Ms : \prod_(j <- s) g j \is monic. { rewrite big_seq. apply: monic_prod => j Hj. apply: Hs. by rewrite inE Hj orbT. }
  have Si : size (g i) = (size (g i)).-1.+1 by rewrite prednK // size_poly_gt0 monic_neq0.
  rewrite !big_cons. split; first by rewrite size_monicM // ?monic_neq0 // IH1 {1}Si addnS addSn. by rewrite (sub_mul Mi Ms Si IH1) IH2.
Qed.
End Sub.

(* the arithmetic of the test *)
Lemma decide_arith (M w k d b r A C y q : Z) : Z.lt Z0 M -> Z.lt Z0 w -> Z.le Z0 k -> Z.lt k w -> Z.le (Z.mul A M) (Z.mul C w) -> Z.lt (Z.mul C w) (Z.mul (Z.add A k) M) ->
  C = Z.add y (Z.mul q M) -> Z.le (Z.mul (Z.abs y) w) (Z.mul b M) -> r = Z.modulo A w ->
  Z.lt b r -> Z.le r (Z.modulo (Z.add r k) w) -> Z.lt (Z.modulo (Z.add r k) w) (Z.sub w b) -> False.
Proof.
  move=> M0 w0 k0 kw H1 H2 EC Hb Er Hbr Hrt Htop. have Rr := Z.mod_pos_bound A w w0. rewrite -Er in Rr. have EA := Z.div_mod A w. rewrite -Er in EA. have {}EA := EA ltac:(lia). set e := Z.sub (Z.div A w) q.
  have Et : Z.modulo (Z.add r k) w = Z.add r k. { case: (Z.ltb_spec (Z.add r k) w) => Hk; first by apply: Z.mod_small; lia. exfalso. have E : Z.modulo (Z.add r k) w = Z.sub (Z.add r k) w by symmetry; apply: (Z.mod_unique _ _ 1); lia. rewrite E in Hrt. lia. }
  rewrite Et in Htop. have EAe : A = Z.add (Z.add r (Z.mul e w)) (Z.mul q w) by rewrite /e; nia.
  have K1 : Z.le (Z.mul (Z.add r (Z.mul e w)) M) (Z.mul y w) by rewrite EAe EC in H1; nia.
  have K2 : Z.lt (Z.mul y w) (Z.mul (Z.add (Z.add r (Z.mul e w)) k) M) by rewrite EAe EC in H2; nia.
  clearbody e. clear EA EAe H1 H2 EC Et Hrt Er A C q. set x := Z.mul e w in K1 K2. have Y1 : Z.le (Z.mul y w) (Z.mul b M) by nia. have Y2 : Z.le (Z.mul (Z.opp b) M) (Z.mul y w) by nia.
  have K3 : Z.le (Z.add r x) b by apply: (Zmult_le_reg_r _ _ M); lia.
  have K4 : Z.lt (Z.opp b) (Z.add (Z.add r x) k) by apply: (Zmult_lt_reg_r _ _ M); lia.
  have e0 : Z.le e (-1) by (rewrite /x in K3; nia). have xw : Z.le x (Z.opp w) by rewrite /x; nia. lia.
Qed.
