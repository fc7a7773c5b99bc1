(* Packing of coefficient vectors into integers (aks_primality_test) *)
From Coq Require Import NArith List Bool Lia Arith.
From Verif Require Import RingModel NatModel AksModel.
Import ListNotations.
Local Open Scope N_scope.
Section Enc.
Variable cs : N.
Notation B := (2 ^ cs).
Fixpoint enc (l : list N) : N := match l with [] => 0 | c :: l' => c + B * enc l' end.
Lemma B_pos : 0 < B. Proof. apply N.neq_0_lt_0, N.pow_nonzero. lia. Qed.
Lemma Bk k : 2 ^ (N.of_nat k * cs) = B ^ N.of_nat k. Proof. rewrite N.mul_comm, N.pow_mul_r. reflexivity. Qed.
Lemma p2b_aux p : forall k acc, fold_left (fun acc ic => acc + N.shiftl (snd ic) (N.of_nat (fst ic) * cs)) (combine (seq k (length p)) p) acc = acc + B ^ N.of_nat k * enc p.
Proof.
  induction p as [|c p IH]; intros k acc; cbn [length seq combine fold_left enc]; [lia|]. rewrite IH. cbn [fst snd]. rewrite N.shiftl_mul_pow2, Bk. rewrite Nat2N.inj_succ, N.pow_succ_r'. lia.
Qed.
Lemma p2b p : poly_to_bigint cs p = enc p. Proof. unfold poly_to_bigint. rewrite p2b_aux. change (N.of_nat 0) with 0. rewrite N.pow_0_r. lia. Qed.
Lemma shl1 k : N.shiftl 1 k = 2 ^ k. Proof. rewrite N.shiftl_mul_pow2. lia. Qed.
Lemma digitsE n l : (forall x, In x l -> x < B) -> bigint_digits n cs (length l) (enc l) = map (fun c => c mod n) l.
Proof.
  pose proof B_pos. induction l as [|c l IH]; intros H1; cbn [length bigint_digits map enc]; auto. rewrite shl1. specialize (H1 c (or_introl eq_refl)) as Hc.
  rewrite (N.mul_comm B), N.mod_add, (N.mod_small c B) by lia. rewrite N.div_add, N.div_small by lia. rewrite N.add_0_l. rewrite IH; auto. intros x Hx. apply H1. right. auto.
Qed.
Lemma enc_lt l : (forall x, In x l -> x < B) -> enc l < B ^ N.of_nat (length l).
Proof.
  pose proof B_pos. induction l as [|c l IH]; intros H1; cbn [length enc]; [cbn; lia|]. rewrite Nat2N.inj_succ, N.pow_succ_r'. specialize (H1 c (or_introl eq_refl)) as Hc.
  assert (enc l < B ^ N.of_nat (length l)) by (apply IH; intros; apply H1; right; auto). nia.
Qed.
(* all digits < B - 1 and at least one digit: not the all-ones number *)
Lemma enc_lt1 l : l <> [] -> (forall x, In x l -> x + 1 < B) -> enc l + 1 < B ^ N.of_nat (length l).
Proof.
  pose proof B_pos. destruct l as [|c l]; intros H0 H1; [congruence|]. cbn [length enc]. rewrite Nat2N.inj_succ, N.pow_succ_r'. specialize (H1 c (or_introl eq_refl)) as Hc.
  assert (enc l < B ^ N.of_nat (length l)) by (apply enc_lt; intros x Hx; specialize (H1 x (or_intror Hx)); lia). nia.
Qed.
Lemma lor_add b c k : b < 2 ^ k -> N.lor b (N.shiftl c k) = b + c * 2 ^ k.
Proof.
  intros H. assert (E : N.land b (N.shiftl c k) = 0).
  { apply N.bits_inj. intros j. rewrite N.land_spec, N.bits_0. destruct (N.lt_ge_cases j k); [rewrite N.shiftl_spec_low by auto; apply andb_false_r|].
    rewrite <- (N.mod_small b (2 ^ k)) by auto. rewrite N.mod_pow2_bits_high by auto. reflexivity. }
  rewrite <- N.lxor_lor, <- N.add_nocarry_lxor by auto. rewrite N.shiftl_mul_pow2. reflexivity.
Qed.
Lemma digit_at a k : N.shiftr (N.land a (N.shiftl (coeff_mask cs) k)) k = (a / 2 ^ k) mod B.
Proof.
  unfold coeff_mask. rewrite N.shiftr_land, N.shiftr_shiftl_l by lia. rewrite N.sub_diag, N.shiftl_0_r. replace (N.shiftl 1 cs - 1) with (N.ones cs) by (unfold N.ones; rewrite N.sub_1_r; reflexivity).
  rewrite N.land_ones, N.shiftr_div_pow2. reflexivity.
Qed.
Lemma reduce_aux n a : n <= B -> 0 < n -> forall m k b l, length l = m -> (forall x, In x l -> x < B) -> a / B ^ N.of_nat k = enc l -> b < B ^ N.of_nat k ->
  fold_left (fun b i => let k := N.of_nat i * cs in N.lor b (N.shiftl (N.shiftr (N.land a (N.shiftl (coeff_mask cs) k)) k mod n) (cs * N.of_nat i))) (seq k m) b
  = b + B ^ N.of_nat k * enc (map (fun c => c mod n) l).
Proof.
  intros Hn Hn0. pose proof B_pos. induction m as [|m IH]; intros k b l Hl Hlt Ha Hb.
  - destruct l; [|discriminate]. cbn [seq fold_left map enc]. lia.
  - destruct l as [|c l]; [discriminate|]. cbn [seq fold_left map enc]. cbv zeta. rewrite digit_at, Bk, Ha. cbn [enc]. specialize (Hlt c (or_introl eq_refl)) as Hc.
    assert (E : (c + B * enc l) mod B = c) by (rewrite (N.mul_comm B), N.mod_add, N.mod_small; lia). rewrite E.
    rewrite (N.mul_comm cs). rewrite lor_add by (rewrite Bk; auto). rewrite Bk.
    assert (Hm : c mod n < n) by (apply N.mod_lt; lia).
    rewrite (IH (S k) _ l).
    + rewrite Nat2N.inj_succ, N.pow_succ_r'. ring.
    + injection Hl; auto.
    + intros x Hx. apply Hlt. right. auto.
    + rewrite Nat2N.inj_succ, N.pow_succ_r', N.mul_comm, <- N.div_div by (try apply N.pow_nonzero; lia). rewrite Ha. cbn [enc]. rewrite (N.mul_comm B), N.div_add, N.div_small by lia. lia.
    + rewrite Nat2N.inj_succ, N.pow_succ_r'. nia.
Qed.
Lemma reduceE n r l : n <= B -> 0 < n -> length l = r -> (forall x, In x l -> x < B) -> reduce_coeffs n r cs (enc l) = enc (map (fun c => c mod n) l).
Proof.
  intros H1 H2 H3 H4. unfold reduce_coeffs. etransitivity; [apply (reduce_aux n (enc l) H1 H2 r 0 0 l H3 H4)|]; change (N.of_nat 0) with 0; rewrite N.pow_0_r.
  - apply N.div_1_r.
  - lia.
  - lia.
Qed.
Lemma enc_inj : forall l m, length l = length m -> (forall x, In x l -> x < B) -> (forall x, In x m -> x < B) -> enc l = enc m -> l = m.
Proof.
  pose proof B_pos. induction l as [|c l IH]; intros [|e m] Hl H1 H2 E; try discriminate; auto. cbn [enc] in E. injection Hl as Hl.
  pose proof (H1 c (or_introl eq_refl)). pose proof (H2 e (or_introl eq_refl)).
  assert (c = e) by (apply (f_equal (fun x => x mod B)) in E; rewrite !(N.mul_comm B), !N.mod_add, !N.mod_small in E; lia). subst e. f_equal. apply IH; auto.
  - intros x Hx. apply H1. right; auto.
  - intros x Hx. apply H2. right; auto.
  - nia.
Qed.
End Enc.

(* the naive product as a list of updates *)
Fixpoint upd_add (l : list N) (i : nat) (x : N) : list N :=
  match l, i with [], _ => [] | y :: l', O => y + x :: l' | y :: l', S i' => y :: upd_add l' i' x end.
Definition ups (r : nat) (a b : list N) (i : nat) : list (nat * N) := map (fun j => (Nat.modulo (i + j) r, nth i a 0 * nth j b 0)) (seq 0 r).
Definition conv (r : nat) (a b : list N) : list N :=
  fold_left (fun s i => fold_left (fun s u => upd_add s (fst u) (snd u)) (ups r a b i) s) (seq 0 r) (zero_poly r).
Lemma fold_map {A C S} (f : S -> C -> S) (g : A -> C) l : forall s, fold_left f (map g l) s = fold_left (fun s a => f s (g a)) l s.
Proof. induction l; intros s; cbn; auto. Qed.
Lemma length_upd_add l : forall i x, length (upd_add l i x) = length l. Proof. induction l; intros [|i] x; cbn; auto. Qed.
Lemma length_upd_mod n l : forall i x, length (upd_mod n l i x) = length l. Proof. induction l; intros [|i] x; cbn; auto. Qed.
Lemma length_ups_fold U : forall s, length (fold_left (fun s u => upd_add s (fst u) (snd u)) U s) = length s.
Proof. induction U as [|u U IH]; intros s; cbn; auto. rewrite IH, length_upd_add. auto. Qed.
Lemma length_conv r a b : length (conv r a b) = r.
Proof.
  unfold conv. assert (G : forall l s, length (fold_left (fun s i => fold_left (fun s u => upd_add s (fst u) (snd u)) (ups r a b i) s) l s) = length s).
  { induction l as [|i l IH]; intros s; cbn; auto. rewrite IH. apply length_ups_fold. }
  rewrite G. unfold zero_poly. apply repeat_length.
Qed.
Lemma upd_mod_map n l : 0 < n -> forall i x, map (fun c => c mod n) (upd_add l i x) = upd_mod n (map (fun c => c mod n) l) i x.
Proof.
  intros Hn. induction l as [|y l IH]; intros [|i] x; cbn; auto; [|rewrite IH; auto]. rewrite N.add_mod_idemp_l by lia. auto.
Qed.
Lemma naiveE n r a b : 0 < n -> mul_polys_naive n r a b = map (fun c => c mod n) (conv r a b).
Proof.
  intros Hn. unfold mul_polys_naive, conv.
  assert (Z : zero_poly r = map (fun c => c mod n) (zero_poly r)) by (unfold zero_poly; clear a b; induction r as [|r' IH]; [auto|]; cbn [repeat map]; rewrite <- IH, N.mod_0_l by lia; auto). rewrite Z at 1.
  assert (G : forall l s, fold_left (fun s i => fold_left (fun s j => upd_mod n s (Nat.modulo (i + j) r) (nth i a 0 * nth j b 0)) (seq 0 r) s) l (map (fun c => c mod n) s)
      = map (fun c => c mod n) (fold_left (fun s i => fold_left (fun s u => upd_add s (fst u) (snd u)) (ups r a b i) s) l s)).
  { induction l as [|i l IH]; intros s; cbn [fold_left]; auto.
    rewrite <- IH. f_equal. unfold ups. rewrite fold_map. cbn [fst snd]. generalize s. generalize (seq 0 r). induction l0 as [|j l0 IH2]; intros s0; cbn [fold_left]; auto.
    rewrite <- upd_mod_map by auto. apply IH2. }
  apply G.
Qed.
Lemma length_naive n r a b : 0 < n -> length (mul_polys_naive n r a b) = r.
Proof. intros. rewrite naiveE, map_length, length_conv; auto. Qed.
Lemma naive_lt n r a b x : 0 < n -> In x (mul_polys_naive n r a b) -> x < n.
Proof. intros Hn. rewrite naiveE by auto. intros H. apply in_map_iff in H as (c & <- & _). apply N.mod_lt. lia. Qed.
(* bounds on the coefficients of the convolution *)
Lemma nth_upd_add l : forall i x k, nth k (upd_add l i x) 0 = nth k l 0 + (if (Nat.eqb k i && Nat.ltb k (length l))%bool then x else 0).
Proof.
  induction l as [|y l IH]; intros i x k.
  - destruct i, k; cbn [upd_add nth length]; rewrite andb_false_r; lia.
  - destruct i as [|i], k as [|k]; cbn [upd_add nth length].
    + cbn. lia.
    + cbn. lia.
    + cbn. lia.
    + rewrite IH. change (Nat.eqb (S k) (S i)) with (Nat.eqb k i). change (Nat.ltb (S k) (S (length l))) with (Nat.ltb k (length l)). auto.
Qed.
Lemma ups_bound M U : NoDup (map fst U) -> (forall u, In u U -> snd u <= M) -> forall s k, nth k (fold_left (fun s u => upd_add s (fst u) (snd u)) U s) 0 <= nth k s 0 + M /\
  (~ In k (map fst U) -> nth k (fold_left (fun s u => upd_add s (fst u) (snd u)) U s) 0 = nth k s 0).
Proof.
  induction U as [|u U IH]; intros ND H s k; cbn [fold_left map] in *; [split; [lia|auto]|]. inversion ND as [|? ? Hn ND']; subst.
  destruct (IH ND' (fun v Hv => H v (or_intror Hv)) (upd_add s (fst u) (snd u)) k) as [I1 I2]. rewrite nth_upd_add in *. specialize (H u (or_introl eq_refl)).
  destruct (Nat.eqb_spec k (fst u)) as [->|Hk]; cbn [andb] in *.
  - split; [|intros C; elim C; left; auto]. rewrite I2 by auto. destruct (Nat.ltb _ _); lia.
  - split; [lia|]. intros C. rewrite I2; [lia|]. intros C2. apply C. right. auto.
Qed.
Lemma ups_nodup r a b i : (0 < r)%nat -> NoDup (map fst (ups r a b i)).
Proof.
  intros Hr. unfold ups. rewrite map_map. cbn [fst]. assert (G : forall l, (forall x, In x l -> (x < r)%nat) -> NoDup l -> NoDup (map (fun j => Nat.modulo (i + j) r) l)).
  { induction l as [|x l IH]; intros H ND; cbn; constructor; inversion ND; subst; [|apply IH; auto; intros; apply H; right; auto].
    intros C. apply in_map_iff in C as (y & E & Hy). assert (y = x); [|subst; auto]. pose proof (H x (or_introl eq_refl)). pose proof (H y (or_intror Hy)).
    pose proof (Nat.div_mod (i + y) r ltac:(lia)). pose proof (Nat.div_mod (i + x) r ltac:(lia)). rewrite E in *. set (q1 := Nat.div (i + y) r) in *. set (q2 := Nat.div (i + x) r) in *.
    assert (q1 = q2) by nia. nia. }
  apply G; [intros x Hx; apply in_seq in Hx; lia|apply seq_NoDup].
Qed.
Lemma conv_bound n r a b x : (0 < r)%nat -> 0 < n -> (forall i, nth i a 0 < n) -> (forall i, nth i b 0 < n) -> In x (conv r a b) -> x <= N.of_nat r * ((n - 1) * (n - 1)).
Proof.
  intros Hr Hn Ha Hb Hx. apply In_nth with (d := 0) in Hx as (k & Hk & <-). unfold conv.
  assert (G : forall l s, nth k (fold_left (fun s i => fold_left (fun s u => upd_add s (fst u) (snd u)) (ups r a b i) s) l s) 0 <= nth k s 0 + N.of_nat (length l) * ((n - 1) * (n - 1))).
  { induction l as [|i l IH]; intros s; cbn [fold_left length]; [lia|]. specialize (IH (fold_left (fun s u => upd_add s (fst u) (snd u)) (ups r a b i) s)).
    destruct (ups_bound ((n - 1) * (n - 1)) (ups r a b i) (ups_nodup r a b i Hr)) with (s := s) (k := k) as [I1 _].
    - intros u Hu. apply in_map_iff in Hu as (j & <- & _). cbn [snd]. specialize (Ha i). specialize (Hb j). apply N.mul_le_mono; lia.
    - lia. }
  specialize (G (seq 0 r) (zero_poly r)). rewrite seq_length in G. unfold zero_poly in *. rewrite nth_repeat in G. lia.
Qed.
