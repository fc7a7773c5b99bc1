(* Integers: reduction modulo p, the size of the coefficients, the symmetric representatives and the candidate factors. *)
From Coq Require Import List NArith ZArith QArith Qabs Bool.
From mathcomp Require Import all_ssreflect all_algebra.
From mathcomp Require Import zify.
From mathcomp Require algC.
From Coq Require Import Lia.
From Verif Require Import RingSpec RingModel RingProofs2 PermModel MatModel MatSpec ZRing MatInst PolyModel PolySpec PolyProofs PolyProofs2 PolyProofs3 PolyProofs11 PolyProofs12 PolyProps PolyProps3 FacProofs5 HenselSpec HenselModel HenselProofs HenselProofs2 HenselProps BoundModel BoundProofs BoundProofs2 BoundProps NatSpec BzModel BzProofs1.
From Verif Require NatProps.
Close Scope rs_scope. Close Scope Q_scope.
Set Implicit Arguments.
Unset Strict Implicit.
Unset Printing Implicit Defensive.
Import Order.TTheory GRing.Theory Num.Theory.
Local Open Scope ring_scope.
Notation ZR := Z_idomainType.
Notation algC := (algC.Algebraics.Implementation.numClosedFieldType).

Lemma zin_Fp (p : nat) : prime p -> forall x : Z, zin [ringType of 'F_p] x = 0 <-> exists c, x = Z.mul (Z.of_nat p) c.
Proof.
  move=> Hp. have H n : (n%:R == 0 :> 'F_p) = (p %| n)%N by rewrite -(dvdn_charf (char_Fp Hp)). have H2 (n : nat) : (n%:R == 0 :> 'F_p) <-> exists c, Z.of_nat n = Z.mul (Z.of_nat p) c.
  { rewrite H. split; first by case/dvdnP=> c ->; exists (Z.of_nat c); lia. case=> c E. apply/dvdnP. exists (Z.to_nat c). have := prime_gt0 Hp. nia. }
  case=> [|x|x].
  - split=> // _. exists Z0. lia.
  - rewrite /zin -(positive_nat_Z x) -H2. by split=> /eqP.
  - have K : (- (Pos.to_nat x)%:R = 0 :> 'F_p) <-> ((Pos.to_nat x)%:R == 0 :> 'F_p) by rewrite -[X in _ <-> is_true X]oppr_eq0; split=> /eqP.
    rewrite /zin K H2 positive_nat_Z. split=> -[c Hc]; exists (Z.opp c); lia.
Qed.
Lemma zin_Fp_surj (p : nat) (y : 'F_p) : exists x, zin [ringType of 'F_p] x = y.
Proof. exists (Z.of_nat y). by rewrite zin_nat natr_Zp. Qed.

(* Mignotte's bound, strictly, for multiples of proper factors *)
Lemma binS2 n : (0 < n)%N -> forall j m, (m < n.+1)%N -> ('C(m, j) < 'C(n.+1, n.+1 %/ 2))%N.
Proof.
  move=> n0 j m Hm. apply: (@leq_ltn_trans 'C(n, j)); first by apply: leq_bin2l. 
  apply: (@leq_ltn_trans 'C(n, n.+1 %/ 2)).
  - apply: leq_trans (bin_half n j) _. have [Ev|Od] := boolP (odd n).
    + have -> : (n %/ 2 = n - n.+1 %/ 2)%N by rewrite !divn2 /=; move: (odd_double_half n); rewrite Ev uphalf_half Ev; lia. rewrite bin_sub // divn2. have := odd_double_half n.+1. lia.
    + rewrite !divn2 /= uphalf_half (negPf Od) add0n. by [].
  - have : (0 < n.+1 %/ 2)%N by rewrite divn2; case: n n0 {Hm} => // k _. case E: (n.+1 %/ 2)%N => [|k] // _. rewrite binS -[X in (X < _)%N]addn0 ltn_add2l bin_gt0. have : (n.+1 %/ 2 <= n.+1)%N by exact: leq_div. lia.
Qed.
Lemma pred_lt k : (0 < k)%N -> (k.-1 < k)%N. Proof. by case: k. Qed.
Lemma mignotte_strict (f : list Z) b : mignotte_factor_coefficient_bound f = Some (Some b) -> forall F H : {poly ZR}, F * H = ZP f -> (1 < size H)%N -> (1 < size F)%N ->
  forall j, Z.lt (Z.abs (Z.mul (lead_coef H) F`_j)) (Z.of_N b).
Proof.
  rewrite /mignotte_factor_coefficient_bound -[@p_degree Z_ops f]/(@p_degree (mc_ops Z_idomainType) f) p_degreeE. case Es: (size (ZP f)) => [|n] //.
  have -> : Nat.div n 2 = (n %/ 2)%N by symmetry; apply: (Nat.div_unique n 2 _ (n %% 2)%N); [apply/ssrnat.ltP; exact: ltn_pmod|rewrite {1}(divn_eq n 2); lia]. rewrite NatProps.C07_choose_usize binE. set b1 := List.fold_left _ _ _. case=> <- F H E HH HF j.
  have F0 : F != 0 by rewrite -size_poly_gt0; exact: ltn_trans HF. have H0 : H != 0 by rewrite -size_poly_gt0; exact: ltn_trans HH.
  have Hf0 : ZP f != 0 by rewrite -size_poly_eq0 Es.
  pose mp := map_poly (zin algC). have inj (P : {poly ZR}) : P != 0 -> size (mp P) = size P.
  { move=> HP. apply: size_map_poly_id0. apply/eqP => /zin_inj /eqP. by rewrite lead_coef_eq0 (negPf HP). }
  have nz (P : {poly ZR}) : P != 0 -> mp P != 0 by move=> HP; rewrite -size_poly_eq0 inj // size_poly_eq0.
  have lH : lead_coef (mp H) = zin algC (lead_coef H) by rewrite lead_coefE inj // coef_map /= -lead_coefE.
  have l0 : zin algC (lead_coef H) != 0 by rewrite -lH lead_coef_eq0 nz.
  set l := zin algC (lead_coef H) in l0 lH. have Hf : (l *: mp F) * (l^-1 *: mp H) = over algC f by rewrite -scalerAl -scalerAr scalerA divff // scale1r /mp -rmorphM /over -E.
  have lv : l^-1 != 0 by rewrite invr_eq0. have A1 : l^-1 *: mp H != 0 by rewrite -size_poly_eq0 size_scale // size_poly_eq0 nz. have A2 : l *: mp F != 0 by rewrite -size_poly_eq0 size_scale // size_poly_eq0 nz.
  have := @mignotte algC (l *: mp F) (l^-1 *: mp H) j A1 A2.
  rewrite lead_coefZ lH mulVf // normr1 => /(_ (lexx _)). rewrite Hf l1_poly coefZ size_scale // inj // coef_map /= -zin_mul -zin_norm => K.
  have Hs : (size F <= n)%N. { have := size_mul F0 H0. rewrite E Es. move: HF HH. set x := size F. set y := size H. lia. }
  have K2 : (('C((size F).-1, j) : nat) < 'C(n, n %/ 2))%N. { case: n Es Hs => [|n'] Es Hs; first by move: HF Hs; case: (size F). case: n' Es Hs => [|n'] Es Hs; first by move: HF Hs; case: (size F) => [|[|]]. apply: binS2 => //. move: HF Hs. case: (size F) => //. }
  have b0 : Z.lt Z0 (Z.of_N b1). { have L1 : zin algC (Z.of_N b1) = \sum_(i < size (over algC f)) `|(over algC f)`_i| by rewrite /b1 l1_fold add0r l1_poly. suff : b1 <> 0%num by lia. move=> Zb. move: L1. rewrite Zb => /esym /eqP. rewrite -[zin _ _]/0 psumr_eq0; last by move=> i _; exact: normr_ge0. move/allP => Z. exfalso. have S0 : (0 < size (over algC f))%N by rewrite size_poly_gt0 /over -E rmorphM mulf_neq0 ?nz.
    have := Z (Ordinal (pred_lt S0 : ((size (over algC f)).-1 < size (over algC f))%N)) (mem_index_enum _). rewrite /= normr_eq0. move/eqP => Z1. have : lead_coef (over algC f) == 0 by rewrite lead_coefE Z1. rewrite lead_coef_eq0 -size_poly_eq0. by case: (size _) S0. }
  have K3 : Z.le (Z.abs (Z.mul (lead_coef H) F`_j)) (Z.mul (Z.of_nat 'C((size F).-1, j)) (Z.of_N b1)).
  { apply: (@zin_leV algC). apply: le_trans K _. by rewrite zin_mul zin_nat l1_fold add0r. }
  rewrite N2Z.inj_mul. move: K2 K3. set x := Z.abs _. set c := 'C(_, j). set d := 'C(n, _). rewrite nat_N_Z. clearbody x c d b1. clear -b0. move=> K2 K3. nia.
Qed.
