(* C52: Cauchy's root bound; C63: Mignotte's bound for the coefficients of factors (rings/src/number/integer/polynomial.rs). *)
From Coq Require Import List NArith ZArith QArith Qabs Bool.
From mathcomp Require Import all_ssreflect all_algebra.
From mathcomp Require Import zify.
From mathcomp Require algC.
From Coq Require Import Lia.
From Verif Require Import RingSpec RingModel MatSpec ZRing PolyModel PolySpec PolyProofs BoundModel BoundProofs BoundProofs2 NatSpec.
From Verif Require NatProps.
Close Scope rs_scope. Close Scope Q_scope.
Set Implicit Arguments.
Unset Strict Implicit.
Unset Printing Implicit Defensive.
Import Order.TTheory GRing.Theory Num.Theory.
Local Open Scope ring_scope.

(* f as a polynomial over the integers, and with its coefficients read in a ring *)
Notation ZP := (fun f : list Z => Poly (f : seq Z_idomainType)).
Definition over (F : ringType) (f : list Z) : {poly F} := map_poly (zin F) (ZP f).

Lemma mapM_all A B (f : A -> option B) (g : A -> B) l : (forall x, List.In x l -> f x = Some (g x)) -> mapM f l = Some (List.map g l).
Proof. elim: l => [|x l IH] //= H. rewrite H; last by left. rewrite IH // => y Hy. apply: H. by right. Qed.
Lemma iter_max_ok l m : iter_max l = Some m -> forall x, List.In x l -> Qle x m.
Proof.
  case: l => [|a l] //= [<-]. have K : forall l a, Qle a (List.fold_left Qmax2 l a) /\ forall x, List.In x l -> Qle x (List.fold_left Qmax2 l a).
  { elim=> [|b s IH] c /=; first by split=> //; exact: Qle_refl. have [H1 H2] := IH (Qmax2 c b). have [Hc Hb] : Qle c (Qmax2 c b) /\ Qle b (Qmax2 c b).
    { rewrite /Qmax2. case E: (Qle_bool c b); first by split; [exact/Qle_bool_iff|exact: Qle_refl]. split; first exact: Qle_refl. have : ~ Qle c b by move/Qle_bool_iff; rewrite E. move/Qnot_le_lt. exact: Qlt_le_weak. }
    split; first exact: Qle_trans H1. move=> x [<-|/H2] //. exact: Qle_trans H1. }
  have [H1 H2] := K l a. by move=> x [<-|/H2].
Qed.
Lemma Qabs_div a b : b <> Z0 -> Qeq (Qmult (Qabs (Qdiv (inject_Z a) (inject_Z b))) (inject_Z (Z.abs b))) (inject_Z (Z.abs a)).
Proof.
  move=> Hb. have -> : inject_Z (Z.abs b) = Qabs (inject_Z b) by []. rewrite -Qabs_Qmult. have -> : inject_Z (Z.abs a) = Qabs (inject_Z a) by []. apply: Qabs_wd.
  rewrite Qmult_comm. apply: Qmult_div_r. move=> H. apply: Hb. by have := proj1 (inject_Z_injective b Z0) H.
Qed.
Section Cauchy.
Variable F : numFieldType.
Theorem C52_cauchy (f : list Z) : exists o, cauchys_root_bound f = Some o /\
  match o with
  | None => (size (ZP f) <= 1)%N
  | Some q => (1 < size (ZP f))%N /\ forall z : F, root (over F f) z -> `|z| < qin F q
  end.
Proof.
  rewrite /cauchys_root_bound. have Ed := @p_degreeE Z_idomainType f. rewrite -[@p_degree Z_ops f]/(@p_degree (mc_ops Z_idomainType) f) Ed. case Es: (size (ZP f)) => [|[|d]]; [by exists None|by exists None|].
  have Hc i : @p_coeff Z_ops f i = (ZP f)`_i := @p_coeffE Z_idomainType f i. cbn [Nat.eqb].
  have Hlc : (ZP f)`_d.+1 <> Z0. { move=> H. have := lead_coef_eq0 (ZP f). rewrite lead_coefE Es /= H eqxx => /esym /eqP H0. by move: Es; rewrite H0 size_poly0. }
  rewrite (mapM_all (g := fun i => Qabs (Qdiv (inject_Z ((ZP f)`_i)) (inject_Z ((ZP f)`_d.+1))))); last first.
  { move=> i _. rewrite !Hc /from_integers. by case: (Z.eqb_spec ((ZP f)`_d.+1) Z0). }
  set l := List.map _ _. have [m Em] : exists m, iter_max l = Some m by rewrite /l; eexists. rewrite Em. exists (Some (Qplus (Qmake 1 1) m)). split=> //. split=> // z Hz.
  have Sz : size (over F f) = d.+2. { rewrite /over size_map_poly_id0 ?Es // lead_coefE Es /=. apply/eqP => /zin_inj. exact: Hlc. }
  have Hm i : (i < d.+1)%N -> `|(over F f)`_i| <= qin F m * `|(over F f)`_d.+1|.
  { move=> Hi. rewrite !coef_map /= -!zin_norm -!qin_Z -qin_mul. apply: qin_le. rewrite -(Qabs_div _ Hlc). apply: Qmult_le_compat_r; last by rewrite /Qle /=; lia. apply: (iter_max_ok Em). apply/List.in_map_iff. exists i. split=> //. apply/List.in_seq. lia. }
  have M0 : 0 <= qin F m. { apply: le_trans (_ : qin F (Qabs (Qdiv (inject_Z ((ZP f)`_0)) (inject_Z ((ZP f)`_d.+1)))) <= _); last by apply: qin_le; apply: (iter_max_ok Em); left. rewrite /qin. apply: divr_ge0; last exact: ler0n. apply: zin_ge0. case: (Qdiv _ _) => u v. cbn [Qabs Qnum]. lia. }
  have K := cauchy Sz (ltn0Sn _) M0 Hm (eqP Hz). rewrite qin_add. have -> : qin F (Qmake 1 1) = 1 by rewrite /qin /= divr1. rewrite real_ltNge ?normr_real ?realD ?real1 ?ger0_real //. apply/negP. exact: K.
Qed.
End Cauchy.
Print Assumptions C52_cauchy.
(* in particular every complex (algebraic) root *)
Definition C52_complex := C52_cauchy algC.Algebraics.Implementation.numClosedFieldType.
Example C52_ex : cauchys_root_bound [:: Zneg 6; Zpos 1; Zpos 2] = Some (Some (Qmake 8 2)) /\ cauchys_root_bound [:: Zpos 3] = Some None.
Proof. by vm_compute. Qed.

Lemma binE n k : binom_spec n k = N.of_nat 'C(n, k).
Proof. elim: n k => [|n IH] [|k] //=; rewrite !IH ?binS. lia. Qed.
Notation algC := (algC.Algebraics.Implementation.numClosedFieldType).
Lemma zin_leV (F : numFieldType) x y : zin F x <= zin F y -> Z.le x y.
Proof.
  move=> H. case: (Z.leb_spec x y) => // Hlt. exfalso. have H1 : zin F y <= zin F x by apply: zin_le; lia. have E : zin F x = zin F y by apply: le_anti; rewrite H H1.
  have := @zin_inj F (Z.sub x y). rewrite /Z.sub zin_add zin_opp E subrr => /(_ erefl). lia.
Qed.
Lemma l1_fold (F : numFieldType) (f : list Z) acc : zin F (Z.of_N (List.fold_left (fun a c => (a + Z.abs_N c)%num) f acc)) = zin F (Z.of_N acc) + \sum_(x <- f) `|zin F x|.
Proof. elim: f acc => [|x f IH] acc; first by rewrite big_nil addr0. cbn [List.fold_left]. by rewrite IH big_cons addrA N2Z.inj_add zin_add N2Z.inj_abs_N zin_norm. Qed.
Lemma l1_poly (F : numFieldType) (f : list Z) : \sum_(i < size (over F f)) `|(over F f)`_i| = \sum_(x <- f) `|zin F x|.
Proof.
  have Hs : (size (over F f) <= size f)%N by apply: leq_trans (size_poly _ _) _; exact: size_Poly.
  rewrite (big_ord_widen _ (fun i => `|(over F f)`_i|) Hs) (big_nth Z0) big_mkord [RHS](bigID (fun i : 'I_(size f) => (i < size (over F f))%N)) /= [X in _ = _ + X]big1 ?addr0.
  - by apply: eq_bigr => i _; rewrite coef_map coef_Poly.
  - move=> i. rewrite -leqNgt => Hi. have := nth_default 0 Hi. by rewrite coef_map coef_Poly => ->; rewrite normr0.
Qed.
Theorem C63_mignotte (f : list Z) : exists o, mignotte_factor_coefficient_bound f = Some o /\
  match o with
  | None => ZP f = 0
  | Some b => ZP f != 0 /\ forall g h : {poly Z_idomainType}, ZP f = g * h -> forall j, Z.le (Z.abs g`_j) (Z.of_N b)
  end.
Proof.
  rewrite /mignotte_factor_coefficient_bound -[@p_degree Z_ops f]/(@p_degree (mc_ops Z_idomainType) f) p_degreeE. case Es: (size (ZP f)) => [|n]; first by exists None; split=> //; apply/eqP; rewrite -size_poly_eq0 Es.
  have -> : Nat.div n 2 = (n %/ 2)%N by symmetry; apply: (Nat.div_unique n 2 _ (n %% 2)%N); [apply/ssrnat.ltP; exact: ltn_pmod|rewrite {1}(divn_eq n 2); lia]. rewrite NatProps.C07_choose_usize binE. set b1 := List.fold_left _ _ _. exists (Some (N.mul b1 (N.of_nat 'C(n, n %/ 2)))). split=> //. have Hf0 : ZP f != 0 by rewrite -size_poly_eq0 Es. split=> // g h E j.
  have Hg0 : g != 0 by apply/eqP => Z; move: Hf0; rewrite E Z mul0r eqxx. have Hh0 : h != 0 by apply/eqP => Z; move: Hf0; rewrite E Z mulr0 eqxx.
  apply: (@zin_leV algC). pose mp := map_poly (zin algC). have inj (p : {poly Z_idomainType}) : p != 0 -> size (mp p) = size p.
  { move=> Hp. apply: size_map_poly_id0. apply/eqP => /zin_inj /eqP. by rewrite lead_coef_eq0 (negPf Hp). }
  have nz (p : {poly Z_idomainType}) : p != 0 -> mp p != 0 by move=> Hp; rewrite -size_poly_eq0 inj // size_poly_eq0.
  have Hl : 1 <= `|lead_coef (mp h)|.
  { rewrite lead_coefE inj // coef_map /= -zin_norm -[1]/(zin algC (Zpos 1)). apply: zin_le. have : lead_coef h <> Z0 by move/eqP; rewrite lead_coef_eq0 (negPf Hh0). rewrite lead_coefE. set c : Z := h`_(size h).-1. change (c <> Z0 -> Z.le 1 (Z.abs c)). lia. }
  have Efh : mp g * mp h = over algC f by rewrite /mp -rmorphM /over E.
  have := mignotte j (nz _ Hh0) (nz _ Hg0) Hl. rewrite Efh l1_poly coef_map /= -zin_norm inj // => H. apply: le_trans H _.
  rewrite N2Z.inj_mul zin_mul l1_fold add0r mulrC. apply: ler_wpmul2l; first by apply: sumr_ge0. rewrite nat_N_Z zin_nat ler_nat.
  apply: leq_trans (bin_half n j). apply: leq_bin2l. have := size_mul Hg0 Hh0. rewrite -E Es. move: Hh0. rewrite -size_poly_eq0. set x := size g. set y := size h. lia.
Qed.
Print Assumptions C63_mignotte.
Print Assumptions C52_complex.
Example C63_ex : mignotte_factor_coefficient_bound [:: Zneg 6; Zpos 1; Zpos 2; Z0] = Some (Some 18%num).
Proof. by vm_compute. Qed.
