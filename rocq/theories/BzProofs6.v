(* The d-1 test, connected to the model. *)
From Coq Require Import List NArith ZArith QArith Qabs Qround Bool.
From mathcomp Require Import all_ssreflect all_algebra.
From mathcomp Require Import zify.
From mathcomp Require algC.
From Coq Require Import Lia.
From Verif Require HenselProofs5.
From Verif Require Import RingSpec RingModel RingProofs2 PermModel MatModel MatSpec ZRing MatInst PolyModel PolySpec PolyProofs PolyProps PolyProps3 HenselSpec HenselProofs BoundModel BoundProofs BoundProofs2 BoundProps RatModel BzModel BzProofs1 BzProofs2 BzProofs3 BzProofs4 BzProofs5.
Close Scope rs_scope. Close Scope Q_scope.
Set Implicit Arguments.
Unset Strict Implicit.
Unset Printing Implicit Defensive.
Import Order.TTheory GRing.Theory Num.Theory.
Local Open Scope ring_scope.
Notation algC := (algC.Algebraics.Implementation.numClosedFieldType).
Notation w := (Z.of_N W).
Lemma w0 : Z.lt Z0 w. Proof. by []. Qed.
Lemma wN : W <> 0%num. Proof. by []. Qed.
Local Opaque W.

Lemma conv_ok M : Z.lt Z0 M -> from_integers w M = Some (Qdiv (inject_Z w) (inject_Z M)).
Proof. move=> H. rewrite /from_integers. case: (Z.eqb_spec M Z0) => // Z. lia. Qed.
Lemma floor_ok M c : Z.lt Z0 M -> rat_floor (Qmult (inject_Z c) (Qdiv (inject_Z w) (inject_Z M))) = Z.div (Z.mul c w) M.
Proof.
  move=> H. rewrite /rat_floor Zdiv_Qdiv. apply: Qfloor_comp. rewrite inject_Z_mult /Qdiv. by rewrite Qmult_assoc.
Qed.
Definition dmv (M L : Z) (g : list Z) : dm_elem :=
  (Z.to_N (Z.div (Z.mul (Z.modulo (Z.mul L (ZP g)`_(size (ZP g)).-2) M) w) M), N.of_nat (size (ZP g)).-1).
Lemma dmv_range M c : Z.lt Z0 M -> Z.le Z0 (Z.div (Z.mul (Z.modulo c M) w) M) /\ Z.lt (Z.div (Z.mul (Z.modulo c M) w) M) w.
Proof.
  move=> H. have := Z.mod_pos_bound c M H. have := w0. set x := Z.modulo c M. move: w => v Hv Hx. split; first by apply: Z.div_pos; nia. apply: Z.div_lt_upper_bound; nia.
Qed.
Lemma dm_value_ok M L g : Z.lt Z0 M -> (1 < size (ZP g))%N -> dm_value M L (Qdiv (inject_Z w) (inject_Z M)) g = Some (dmv M L g).
Proof.
  move=> M0 Hs. rewrite /dm_value (@p_degreeE ZR g) /dmv. case Es: (size (ZP g)) Hs => [|[|e]] // _. cbn [obind]. have -> : @p_coeff ZO g (e.+1 - 1) = (ZP g)`_e by rewrite (@p_coeffE ZR) subn1.
  rewrite floor_ok //. set x := Z.mul L _. have [R1 R2] := dmv_range x M0. set y := Z.div _ _ in R1 R2 *. have -> : Z.abs_N y = Z.to_N y by lia. have Hy : N.lt (Z.to_N y) W by lia. rewrite N.mod_small // /nat_to_usize. have -> : N.ltb (Z.to_N y) W by apply/N.ltb_lt. by [].
Qed.
Lemma dm_values M L gs : Z.lt Z0 M -> {in gs, forall g, (1 < size (ZP g))%N} -> MatModel.mapM (dm_value M L (Qdiv (inject_Z w) (inject_Z M))) gs = Some (map (dmv M L) gs).
Proof.
  move=> M0. elim: gs => [|g gs IH] H //=. rewrite dm_value_ok //; last by apply: H; rewrite mem_head. cbn [obind]. rewrite IH //. move=> g' Hg. apply: H. by rewrite inE Hg orbT.
Qed.
(* what the composite value is *)
Lemma wrap_ok a b : Z.of_N (wrapping_add a b) = Z.modulo (Z.add (Z.of_N a) (Z.of_N b)) w.
Proof. by rewrite /wrapping_add N2Z.inj_mod // N2Z.inj_add. Qed.
Lemma dm_fold (vals : list dm_elem) d s : forall acc : dm_elem, (forall i, List.In i s -> (i < size vals)%N) ->
  let r := List.fold_left (fun a j => dm_compose a (List.nth j vals d)) s acc in
  Z.of_N (fst r) = (if s is [::] then Z.of_N (fst acc) else Z.modulo (Z.add (Z.of_N (fst acc)) (\sum_(j <- s) (Z.of_N (fst (List.nth j vals d)) : ZR))) w) /\
  Z.of_N (snd r) = (if s is [::] then Z.of_N (snd acc) else Z.modulo (Z.add (Z.of_N (snd acc)) (\sum_(j <- s) (Z.of_N (snd (List.nth j vals d)) : ZR))) w).
Proof.
  elim: s => [|i s IH] acc Hs //. cbn [List.fold_left]. have [|H1 H2] := IH (dm_compose acc (List.nth i vals d)); first by move=> j Hj; apply: Hs; right. 
  case: s {IH} Hs H1 H2 => [|j s] Hs H1 H2.
  - rewrite H1 H2 !big_seq1 /dm_compose. cbn [fst snd]. by rewrite !wrap_ok.
  - move: H1 H2. rewrite /dm_compose. cbn [fst snd]. rewrite !wrap_ok => -> ->. rewrite !Zplus_mod_idemp_l -!Z.add_assoc. split; rewrite [in RHS]big_cons; by [].
Qed.
Lemma dm_prod (vals : list dm_elem) d s : s <> [::] -> (forall i, List.In i s -> (i < size vals)%N) -> (forall i, (i < size vals)%N -> Z.lt (Z.of_N (fst (List.nth i vals d))) w /\ Z.lt (Z.of_N (snd (List.nth i vals d))) w) ->
  let r := prod_in dm_compose vals d s in
  Z.of_N (fst r) = Z.modulo (\sum_(j <- s) (Z.of_N (fst (List.nth j vals d)) : ZR)) w /\ Z.of_N (snd r) = Z.modulo (\sum_(j <- s) (Z.of_N (snd (List.nth j vals d)) : ZR)) w.
Proof.
  case: s => [|i s] // _ Hs Hv. rewrite /prod_in. have [|H1 H2] := @dm_fold vals d s (List.nth i vals d); first by move=> j Hj; apply: Hs; right.
  rewrite !big_cons. have [V1 V2] := Hv i (Hs i (or_introl erefl)). case: s {Hs} H1 H2 => [|j s] H1 H2; last by rewrite H1 H2.
  rewrite H1 H2 !big_nil !addr0. split; symmetry; apply: Z.mod_small; split=> //; lia.
Qed.
(* sums of integers *)
Lemma sum_floor (a c : nat -> Z) M s : {in s, forall i, Z.le (Z.mul (a i) M) (Z.mul (c i) w) /\ Z.lt (Z.mul (c i) w) (Z.mul (Z.add (a i) 1) M)} ->
  let A := (\sum_(i <- s) (a i : ZR) : ZR) in let C := (\sum_(i <- s) (c i : ZR) : ZR) in
  Z.le (Z.mul A M) (Z.mul C w) /\ Z.le (Z.add (Z.mul C w) (Z.of_nat (size s))) (Z.mul (Z.add A (Z.of_nat (size s))) M).
Proof.
  elim: s => [|i s IH] H; first by rewrite !big_nil. have [H1 H2] := H i (mem_head _ _). have [|H3 H4] := IH; first by move=> j Hj; apply: H; rewrite inE Hj orbT.
  rewrite !big_cons. move: H1 H2 H3 H4. set A : Z := \sum_(_ <- _) _. set C : Z := \sum_(_ <- _) _. cbn [size]. rewrite Nat2Z.inj_succ -[a i + A]/(Z.add (a i) A) -[c i + C]/(Z.add (c i) C). move: (Z.of_nat (size s)) w => k v. clearbody A C. cbn zeta. move=> *. split; nia.
Qed.
Lemma sum_mod (x : nat -> Z) M s : exists q : Z, (\sum_(i <- s) (Z.modulo (x i) M : ZR) : ZR) = Z.add (\sum_(i <- s) (x i : ZR) : ZR) (Z.mul q M).
Proof.
  elim: s => [|i s [q IH]]; first by exists Z0; rewrite !big_nil. exists (Z.sub q (Z.div (x i) M)). rewrite !big_cons IH. set X : Z := \sum_(_ <- _) _. rewrite -[x i + X]/(Z.add (x i) X) -[_ + _]/(Z.add (Z.modulo (x i) M) (Z.add X (Z.mul q M))).
  have [->|N] := Z.eq_dec M Z0; first by rewrite Zmod_0_r; lia. have := Z.div_mod (x i) M N. lia.
Qed.
Lemma sum_nat (x : nat -> nat) s : (\sum_(i <- s) (Z.of_nat (x i) : ZR) : ZR) = Z.of_nat (\sum_(i <- s) x i)%N.
Proof. elim: s => [|i s IH]; first by rewrite !big_nil. rewrite !big_cons IH -[_ + _]/(Z.add (Z.of_nat (x i)) (Z.of_nat (\sum_(j <- s) x j)%N)). lia. Qed.
Lemma ceil_ge x : Qle x (inject_Z (rat_ceil x)).
Proof. rewrite /rat_ceil /rat_floor. exact: Qle_ceiling. Qed.

Lemma sub_roots (C : comRingType) (rs : seq C) : (\prod_(z <- rs) ('X - z%:P) * 'X)`_(size rs) = - \sum_(z <- rs) z.
Proof.
  elim: rs => [|z rs IH]; first by rewrite !big_nil mul1r coefX oppr0. rewrite !big_cons -[size (z :: rs)]/(1 + size rs)%N.
  rewrite (sub_mul (monicXsubC z) (monic_prod_XsubC _ _ _) (size_XsubC z)) ?size_prod_XsubC //. by rewrite IH coefMX /= coefB coefX coefC /= sub0r opprD.
Qed.
(* the coefficient of a true factor *)
Lemma true_coef (f : list Z) beta (F H : {poly ZR}) : cauchys_root_bound f = Some (Some beta) -> F * H = ZP f -> (1 < size F)%N ->
  zin algC (Z.abs (Z.mul (lead_coef H) F`_(size F).-2)) <= zin algC (Z.abs (lead_coef (ZP f))) * qin algC beta * ((size F).-1)%:R.
Proof.
  move=> Eb E HF. have [o [Eo]] := C52_cauchy algC f. rewrite Eb in Eo. case: Eo => <- [Sf Hr]. have f0 : ZP f != 0 by rewrite -size_poly_gt0; exact: ltn_trans Sf.
  have F0 : F != 0 by rewrite -size_poly_gt0; exact: ltn_trans HF. pose mp := map_poly (zin algC).
  have inj (P : {poly ZR}) : P != 0 -> size (mp P) = size P. { move=> HP. apply: size_map_poly_id0. apply/eqP => /zin_inj /eqP. by rewrite lead_coef_eq0 (negPf HP). }
  have lF : lead_coef (mp F) = zin algC (lead_coef F) by rewrite lead_coefE inj // coef_map /= -lead_coefE.
  have [rs ER] := closed_field_poly_normal (mp F). rewrite lF in ER. have l0 : zin algC (lead_coef F) != 0 by rewrite -lF lead_coef_eq0 -size_poly_eq0 inj // size_poly_eq0.
  have Srs : size F = (size rs).+1. { have := inj F F0. by rewrite ER size_scale // size_prod_XsubC => <-. }
  have Hrs : {in rs, forall z, `|z| < qin algC beta}.
  { move=> z Hz. apply: Hr. rewrite /over -E rmorphM rootM. apply/orP. left. change (root (mp F) z). by rewrite ER rootZ // root_prod_XsubC. }
  have Ec : zin algC F`_(size F).-2 = - (zin algC (lead_coef F) * \sum_(z <- rs) z).
  { have -> : zin algC F`_(size F).-2 = (mp F)`_(size F).-2 by rewrite coef_map. rewrite ER coefZ Srs -mulrN -sub_roots coefMX. move: HF. rewrite Srs. by case: (size rs). }
  rewrite zin_norm zin_mul Ec normrM normrN normrM mulrA -normrM -zin_mul. have -> : Z.mul (lead_coef H) (lead_coef F) = lead_coef (ZP f) by rewrite -E lead_coefM mulrC. rewrite -zin_norm -mulrA. apply: ler_wpmul2l; first by apply: zin_ge0; lia.
  rewrite Srs /=. apply: le_trans (ler_norm_sum _ _ _) _.
  elim: rs Hrs {ER Srs Ec} => [|z rs IH] Hrs; first by rewrite big_nil mulr0. rewrite big_cons [size _]/= mulrSr mulrDr mulr1 addrC. apply: ler_add; last by apply: ltW; apply: Hrs; rewrite mem_head.
  apply: IH => z' Hz. apply: Hrs. by rewrite inE Hz orbT.
Qed.
Definition dm_bound (M L : Z) (beta : Q) : N :=
  match nat_to_usize (Z.abs_N (rat_ceil (Qmult (Qmult (inject_Z (Z.abs L)) beta) (Qdiv (inject_Z w) (inject_Z M))))) with Some b => b | None => N.sub W 1 end.
Lemma dm_new_ok M f gs : Z.lt Z0 M -> (1 < size (ZP f))%N -> {in gs, forall g, (1 < size (ZP g))%N} ->
  exists beta, cauchys_root_bound f = Some (Some beta) /\ dm_new M f gs = Some (dm_bound M (lead_coef (ZP f)) beta, map (dmv M (lead_coef (ZP f))) gs).
Proof.
  move=> M0 Sf Hg. have [o [Eo]] := C52_cauchy algC f. case: o Eo => [beta|] Eo; last by rewrite leqNgt Sf. move=> _. exists beta. split=> //.
  rewrite /dm_new conv_ok //. cbn [obind]. have f0 : (ZP f == 0) = false by apply/negbTE; rewrite -size_poly_gt0; exact: ltn_trans Sf.
  have -> : z_lead f = Some (lead_coef (ZP f)) by rewrite /z_lead (@p_leading_coeffE ZR) f0. cbn [obind]. rewrite Eo. cbn [obind]. rewrite dm_values //.
Qed.
Lemma usize_sat n : let b := match nat_to_usize n with Some b => b | None => N.sub W 1 end in b = n \/ (b = N.sub W 1 /\ N.lt b n).
Proof. have := wN. rewrite /nat_to_usize. case: N.ltb_spec => H HW; [by left|right; lia]. Qed.
Lemma bound_ok M L beta b : Z.lt Z0 M -> b = dm_bound M L beta -> N.lt b (N.sub W 1) -> zin algC (Z.abs L) * qin algC beta * zin algC w <= zin algC (Z.mul (Z.of_N b) M).
Proof.
  move=> M0 ->. rewrite /dm_bound. have := usize_sat (Z.abs_N (rat_ceil (Qmult (Qmult (inject_Z (Z.abs L)) beta) (Qdiv (inject_Z w) (inject_Z M))))). set x := Qmult _ _. set b' := match _ with Some _ => _ | None => _ end. case=> [->|[-> _]]; last by move=> H; lia.
  move=> _. have Hc := @ceil_ge x. have Hc2 : Qle x (inject_Z (Z.of_N (Z.abs_N (rat_ceil x)))). { apply: Qle_trans Hc _. rewrite -Zle_Qle. lia. }
  have := @qin_le algC _ _ Hc2. rewrite qin_Z /x qin_mul [qin _ (Qmult (inject_Z _) beta)]qin_mul [qin _ (inject_Z (Z.abs _))]qin_Z => H.
  have M1 : 0 < zin algC M. { rewrite lt_neqAle zin_ge0 ?andbT; last lia. apply/eqP => /esym /zin_inj Z. lia. }
  have EV : qin algC (Qdiv (inject_Z w) (inject_Z M)) = zin algC w / zin algC M.
  { apply: (mulIf (x := zin algC M)); first by rewrite gt_eqF. rewrite mulfVK ?gt_eqF // -(qin_Z algC M) -qin_mul. have -> : zin algC w = qin algC (inject_Z w) by rewrite qin_Z. apply: le_anti. have Q0 : ~ Qeq (inject_Z M) (Qmake Z0 1) by rewrite /Qeq /=; lia.
    apply/andP; split; apply: qin_le; rewrite /Qdiv -Qmult_assoc [Qmult (Qinv _) _]Qmult_comm Qmult_inv_r // Qmult_1_r; exact: Qle_refl. }
  rewrite EV mulrA ler_pdivr_mulr // in H. apply: le_trans H _. by rewrite zin_mul.
Qed.
Lemma map_nthE (A B : Type) (h : A -> B) (l : list A) x y i : (i < size l)%N -> List.nth i (map h l) y = h (nth x l i).
Proof. by elim: l i => [|a l IH] [|i] //= Hi; apply: IH. Qed.
Section Sound.
Variables (f : list Z) (gs : list (list Z)) (M : Z) (beta : Q) (F H : {poly ZR}) (s : list nat).
Notation L := (lead_coef (ZP f)).
Notation g := (fun i => ZP (nth [::] gs i)).
Hypothesis M0 : Z.lt Z0 M.
Hypothesis Eb : cauchys_root_bound f = Some (Some beta).
Hypothesis E : F * H = ZP f.
Hypothesis Hs : forall i, List.In i s -> (i < size gs)%N.
Hypothesis s0 : s <> [::].
Hypothesis Mon : forall i, i \in s -> g i \is monic /\ (1 < size (g i))%N.
Hypothesis C : @cong ZR M (lead_coef H *: F) (L *: \prod_(i <- s) g i).
Hypothesis SF : size F = (\sum_(i <- s) (size (g i)).-1).+1.
Hypothesis Hd : forall i, (i < size gs)%N -> Z.lt (Z.of_nat (size (g i)).-1) w.
Hypothesis Hw : Z.lt (Z.of_nat (size s)) w /\ Z.lt (Z.of_nat (size F)) w.
Lemma dm_sound : dm_decide (dm_bound M L beta) (prod_in dm_compose (map (dmv M L) gs) (0%num, 0%num) s) (size s) = false.
Proof.
  set vals := map _ _. set b := dm_bound _ _ _. set v := prod_in _ _ _ _. apply/negbTE/negP => T.
  have Hs' i : List.In i s -> (i < size vals)%N by rewrite size_map; exact: Hs.
  have nthv i : (i < size gs)%N -> List.nth i vals (0%num, 0%num) = dmv M L (nth [::] gs i) by exact: map_nthE.
  have [|V1 V2] := @dm_prod vals (0%num, 0%num) s s0 Hs'. { move=> i. rewrite size_map => Hi. rewrite nthv // /dmv. cbn [fst snd]. have [R1 R2] := dmv_range (Z.mul L (g i)`_(size (g i)).-2) M0. split; first by rewrite Z2N.id. rewrite nat_N_Z. exact: Hd. }
  pose x i : Z := Z.mul L (g i)`_(size (g i)).-2. pose a i : Z := Z.div (Z.mul (Z.modulo (x i) M) w) M.
  have Ea : (\sum_(j <- s) (Z.of_N (fst (List.nth j vals (0%num, 0%num))) : ZR) : ZR) = \sum_(j <- s) (a j : ZR).
  { rewrite big_seq [RHS]big_seq. apply: eq_bigr => j /HenselProofs5.In_mem Hj. rewrite nthv; last exact: Hs. rewrite /dmv. cbn [fst]. rewrite Z2N.id //. by have [] := dmv_range (x j) M0. }
  have Ed : (\sum_(j <- s) (Z.of_N (snd (List.nth j vals (0%num, 0%num))) : ZR) : ZR) = Z.of_nat (size F).-1.
  { rewrite SF -sum_nat. rewrite big_seq [RHS]big_seq. apply: eq_bigr => j /HenselProofs5.In_mem Hj. rewrite nthv; last exact: Hs. rewrite /dmv. cbn [snd]. by rewrite nat_N_Z. }
  rewrite Ea in V1. rewrite Ed in V2. rewrite Z.mod_small in V2; last by have := Hw; lia.
  have HF : (1 < size F)%N. { rewrite SF ltnS. case: s s0 Mon => [|i t] // _ Mn. rewrite big_cons. have [_] := Mn i (mem_head _ _). case: (size (g i)) => [|[|k]] //. }
  pose y : Z := Z.mul (lead_coef H) F`_(size F).-2.
  have [q Eq] : exists q, (\sum_(i <- s) (Z.modulo (x i) M : ZR) : ZR) = Z.add y (Z.mul q M).
  { have [q Eq] := sum_mod x M s. have [P1 P2] := sub_prod (fun i Hi => proj1 (Mon Hi)). have Sp : (\sum_(i <- s) (size (g i)).-1)%N = (size F).-2.+1. { rewrite -[LHS]/((_).+1.-1) -SF. by case: (size F) HF => [|[|k]]. }
    have {P2}P2 : (\prod_(i <- s) g i)`_(size F).-2 = \sum_(i <- s) (g i)`_(size (g i)).-2.
    { move: P2. rewrite Sp coefMX /= => ->. rewrite big_seq [RHS]big_seq. apply: eq_bigr => i Hi. rewrite coefMX. have [_] := Mon Hi. by case: (size (g i)) => [|[|k]]. }
    have Ex : (\sum_(i <- s) (x i : ZR) : ZR) = Z.mul L (\prod_(i <- s) g i)`_(size F).-2 by rewrite P2; rewrite -[RHS]/(L * \sum_(i <- s) (g i)`_(size (g i)).-2) mulr_sumr.
    have [c Ec] := C (size F).-2. rewrite !coefZ in Ec. have {}Ec : Z.sub y (Z.mul L (\prod_(i <- s) g i)`_(size F).-2) = Z.mul M c := Ec. exists (Z.sub q c). rewrite Eq Ex. clear -Ec. move: Ec. set z := Z.mul L _. clearbody z y. lia. }
  have Fl : {in s, forall i, Z.le (Z.mul (a i) M) (Z.mul (Z.modulo (x i) M) w) /\ Z.lt (Z.mul (Z.modulo (x i) M) w) (Z.mul (Z.add (a i) 1) M)}.
  { move=> i _. rewrite /a. set z := Z.mul _ w. have := Z.mul_div_le z M M0. have := Z.mul_succ_div_gt z M M0. lia. }
  have [K1 K2] := sum_floor Fl. set A : Z := \sum_(i <- s) (a i : ZR) in K1 K2 V1. set CC : Z := \sum_(i <- s) _ in K1 K2 Eq.
  move: T. rewrite /dm_decide. have Et : Z.of_N (wrapping_add (fst v) (N.of_nat (size s))) = Z.modulo (Z.add (Z.of_N (fst v)) (Z.of_nat (size s))) w by rewrite wrap_ok nat_N_Z.
  set top := wrapping_add _ _ in Et *. have := usize_sat (N.mul b (snd v)). set b1 := match nat_to_usize (N.mul b (snd v)) with Some _ => _ | None => _ end. move=> Sat T.
  have rw : Z.lt (Z.of_N (fst v)) w by rewrite V1; have := Z.mod_pos_bound A w w0; lia.
  have sz : Z.le 1 (Z.of_nat (size s)) by case: s s0 => [|i t] // _; rewrite /=; lia.
  have tw : Z.lt (Z.of_N top) w by rewrite Et; have := Z.mod_pos_bound (Z.add (Z.of_N (fst v)) (Z.of_nat (size s))) w w0; lia.
  have T1 : N.lt b1 (fst v) /\ N.le (fst v) top /\ Z.lt (Z.of_N top) (Z.sub w (Z.of_N b1)).
  { have [Z0'|N1] := N.eq_dec b1 0%num.
    { rewrite Z0' N.eqb_refl in T. have [/N.ltb_lt H1 /N.leb_le H2] := andP T. rewrite Z0'. refine (conj H1 (conj H2 _)). lia. }
    have E0 : N.eqb b1 0 = false by apply/N.eqb_neq. rewrite E0 in T. have [HA HB] := andP T. have [HC HD] := andP HA. move: HB HC HD => /N.ltb_lt H3 /N.ltb_lt H1 /N.leb_le H2. refine (conj H1 (conj H2 _)). have := wN. lia. }
  case: T1 => T1 [T2 T3].
  have Nb : b1 = N.mul b (snd v) by case: Sat => // -[Z _]; have := wN; lia.
  have d1 : N.le 1 (snd v). { have : Z.le 1 (Z.of_N (snd v)) by rewrite V2; case: (size F) HF => [|[|k]] // _; rewrite /=; lia. lia. }
  have Hb : N.lt b (N.sub W 1) by have := wN; nia.
  have Hy : Z.le (Z.mul (Z.abs y) w) (Z.mul (Z.of_N b1) M).
  { apply: (@zin_leV algC). rewrite zin_mul. have B := bound_ok M0 erefl Hb. have Tc := true_coef Eb E HF. apply: le_trans (ler_wpmul2r (zin_ge0 _ (Z.lt_le_incl _ _ w0)) Tc) _.
    rewrite mulrAC. have -> : zin algC (Z.mul (Z.of_N b1) M) = zin algC (Z.mul (Z.of_N b) M) * ((size F).-1)%:R.
    { rewrite -zin_nat -zin_mul -V2 Nb. congr zin. rewrite N2Z.inj_mul -/v. ring. }
    apply: ler_wpmul2r; first exact: ler0n. exact: B. }
  apply: (@decide_arith M w (Z.of_nat (size s)) Z0 (Z.of_N b1) (Z.of_N (fst v)) A CC y q) => //.
  - lia. - by case: Hw. - apply: Z.lt_le_trans K2. apply: Z.lt_add_pos_r. exact: (proj1 (Z.le_succ_l Z0 _) sz). - clear -T1. lia. - rewrite -Et. clear -T2. lia. - by rewrite -Et.
Qed.
End Sound.
