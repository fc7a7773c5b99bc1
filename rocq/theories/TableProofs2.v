(* Proofs about composition tables: constructions, order, subgroups, partitions, cosets, quotients *)
From Coq Require Import List Arith Bool Lia Sorted Permutation.
From Verif Require Import GroupSpec GroupModel GroupProofs GroupProofs2 TableModel TableProofs.
Import ListNotations.

Lemma vt_transfer {A} (d : A) es V e inv op t : is_group V e inv op -> NoDup es -> (forall x, In x es -> V x) -> tn t = length es ->
  length (tinv t) = length es -> length (tmuls t) = length es -> (forall r, In r (tmuls t) -> length r = length es) ->
  tident t < length es -> nth (tident t) es d = e ->
  (forall i, i < length es -> invT t i < length es /\ nth (invT t i) es d = inv (nth i es d)) ->
  (forall i j, i < length es -> j < length es -> mulT t i j < length es /\ nth (mulT t i j) es d = op (nth i es d) (nth j es d)) -> vt t.
Proof.
  intros G Hn HV E1 E2 E3 E4 E5 E6 Hi Hm. split; [lia|]. split; [lia|]. split; [intros; rewrite E1; auto|]. rewrite E1.
  change (tab_inv (tinv t)) with (invT t). change (tab_mul (tmuls t)) with (mulT t).
  assert (Hinj : forall i j, i < length es -> j < length es -> nth i es d = nth j es d -> i = j) by (intros i j Ha Hb; apply (proj1 (NoDup_nth es d) Hn); auto).
  assert (HV' : forall i, i < length es -> V (nth i es d)) by (intros; apply HV, nth_In; auto).
  assert (M1 : forall i j, i < length es -> j < length es -> mulT t i j < length es) by (intros; apply Hm; auto).
  assert (M2 : forall i j, i < length es -> j < length es -> nth (mulT t i j) es d = op (nth i es d) (nth j es d)) by (intros; apply Hm; auto).
  assert (I1 : forall i, i < length es -> invT t i < length es) by (intros; apply Hi; auto).
  assert (I2 : forall i, i < length es -> nth (invT t i) es d = inv (nth i es d)) by (intros; apply Hi; auto).
  constructor; auto.
  - intros x y z Hx Hy Hz. apply Hinj; auto. rewrite !M2 by auto. apply (ig_assoc _ _ _ _ G); auto.
  - intros x Hx. apply Hinj; auto. rewrite M2, E6 by auto. apply (ig_idl _ _ _ _ G); auto.
  - intros x Hx. apply Hinj; auto. rewrite M2, E6 by auto. apply (ig_idr _ _ _ _ G); auto.
  - intros x Hx. apply Hinj; auto. rewrite M2, I2, E6 by auto. apply (ig_invl _ _ _ _ G); auto.
  - intros x Hx. apply Hinj; auto. rewrite M2, I2, E6 by auto. apply (ig_invr _ _ _ _ G); auto.
Qed.
(* ---------- from_raw_model *)
Lemma idx_build_spec {A} (eqb : A -> A -> bool) (Heq : forall x y, eqb x y = true <-> x = y) es : NoDup es -> forall i m x,
  (forall k, nth_error es k = Some x -> lookup eqb x (idx_build i es m) = Some (i + k)) /\ (~ In x es -> lookup eqb x (idx_build i es m) = lookup eqb x m).
Proof.
  induction es as [|a es IH]; intros Hn i m x; cbn [idx_build].
  - split; [intros k; destruct k; discriminate|auto].
  - inversion Hn; subst. destruct (IH H2 (S i) ((a, i) :: m) x) as [I1 I2]. split.
    + intros [|k] E; cbn in E.
      * inversion E; subst. rewrite I2 by auto. cbn. assert (eqb x x = true) as -> by (apply Heq; auto). f_equal. lia.
      * rewrite (I1 k E). f_equal. lia.
    + intros Hx. rewrite I2 by (intros H; apply Hx; right; auto). cbn. destruct (eqb x a) eqn:E; [|auto]. apply Heq in E. exfalso. apply Hx. left; auto.
Qed.
Lemma idx_spec {A} (eqb : A -> A -> bool) (Heq : forall x y, eqb x y = true <-> x = y) es x : NoDup es ->
  (forall k, lookup eqb x (idx_build 0 es []) = Some k <-> nth_error es k = Some x).
Proof.
  intros Hn k. destruct (idx_build_spec eqb Heq es Hn 0 [] x) as [H1 H2]. split; [|apply H1].
  intros E. destruct (in_dec_eqb eqb Heq x es) as [H|H].
  - apply In_nth_error in H as (j & Hj). rewrite (H1 j Hj) in E. inversion E; subst. auto.
  - rewrite H2 in E by auto. discriminate.
Qed.
(* a table whose entries are looked up by an index function that finds every element of es *)
Section Lookup.
Context {A : Type} (d : A) (es : list A) (ix : A -> option nat) (V : A -> Prop) (e : A) (inv : A -> A) (op : A -> A -> A).
Hypothesis Hix : forall x k, ix x = Some k <-> nth_error es k = Some x.
Hypothesis G : is_group V e inv op.
Hypothesis Hn : NoDup es.
Hypothesis HV : forall x, In x es -> V x.
Hypothesis He : In e es.
Hypothesis Hi : forall x, In x es -> In (inv x) es.
Hypothesis Hm : forall x y, In x es -> In y es -> In (op x y) es.
Lemma ix_some x : In x es -> exists k, ix x = Some k /\ nth_error es k = Some x /\ k < length es /\ nth k es d = x.
Proof.
  intros H. apply In_nth_error in H as (k & Hk). exists k. split; [apply Hix; auto|]. split; [auto|]. split; [apply nth_error_Some; congruence|apply nth_error_nth; auto].
Qed.
Lemma collect_ix (f : A -> A) : (forall x, In x es -> In (f x) es) -> exists l, collect (map (fun x => ix (f x)) es) = Some l /\ length l = length es /\
  forall i, i < length es -> nth i l 0 < length es /\ nth (nth i l 0) es d = f (nth i es d).
Proof.
  intros Hf. destruct (collect_spec (map (fun x => ix (f x)) es)) as (l & E & L & N).
  - intros o Ho. apply in_map_iff in Ho as (x & <- & Hx). destruct (ix_some (f x) (Hf x Hx)) as (k & -> & _). discriminate.
  - exists l. rewrite map_length in L, N. split; [auto|]. split; [auto|]. intros i Hii. specialize (N i 0 Hii).
    rewrite (nth_indep _ None ((fun x => ix (f x)) d)) in N by (rewrite map_length; auto). rewrite (map_nth (fun x => ix (f x))) in N.
    destruct (ix_some (f (nth i es d))) as (k & Ek & _ & H1 & H2); [apply Hf, nth_In; auto|]. rewrite N in Ek. inversion Ek; subst. auto.
Qed.
Lemma build_table : exists e0 iv m, ix e = Some e0 /\ collect (map (fun x => ix (inv x)) es) = Some iv /\
  collect (map (fun x => collect (map (fun y => ix (op x y)) es)) es) = Some m /\
  let t := mkTable (length es) e0 iv m in vt t /\ nth (tident t) es d = e /\
    (forall i, i < length es -> nth (invT t i) es d = inv (nth i es d)) /\
    (forall i j, i < length es -> j < length es -> nth (mulT t i j) es d = op (nth i es d) (nth j es d)).
Proof.
  destruct (ix_some e He) as (e0 & E0 & _ & L0 & N0). destruct (collect_ix inv Hi) as (iv & Eiv & L1 & N1).
  assert (Hrow : forall x, In x es -> exists r, collect (map (fun y => ix (op x y)) es) = Some r /\ length r = length es /\
    forall j, j < length es -> nth j r 0 < length es /\ nth (nth j r 0) es d = op x (nth j es d)).
  { intros x Hx. apply (collect_ix (op x)). auto. }
  destruct (collect_spec (map (fun x => collect (map (fun y => ix (op x y)) es)) es)) as (m & Em & L2 & N2).
  { intros o Ho. apply in_map_iff in Ho as (x & <- & Hx). destruct (Hrow x Hx) as (r & -> & _). discriminate. }
  rewrite map_length in L2, N2.
  assert (Hm' : forall i, i < length es -> length (nth i m []) = length es /\ forall j, j < length es -> nth j (nth i m []) 0 < length es /\ nth (nth j (nth i m []) 0) es d = op (nth i es d) (nth j es d)).
  { intros i Hii. specialize (N2 i [] Hii). rewrite (nth_indep _ None ((fun x => collect (map (fun y => ix (op x y)) es)) d)) in N2 by (rewrite map_length; auto).
    rewrite (map_nth (fun x => collect (map (fun y => ix (op x y)) es))) in N2. destruct (Hrow (nth i es d)) as (r & Er & Lr & Nr); [apply nth_In; auto|].
    rewrite N2 in Er. inversion Er; subst. auto. }
  exists e0, iv, m. split; [auto|]. split; [auto|]. split; [auto|]. cbn zeta. split.
  - apply (vt_transfer d es V e inv op); cbn [tn tident tinv tmuls]; auto.
    + intros r Hr. apply (In_nth _ _ []) in Hr as (i & Hii & <-). apply Hm'. lia.
    + intros i j Hii Hj. apply Hm'; auto.
  - split; [auto|]. split; [intros i Hii; apply N1; auto|]. intros i j Hii Hj. apply Hm'; auto.
Qed.
End Lookup.
Lemma from_raw_spec {A} (d : A) (eqb : A -> A -> bool) es V e inv op : (forall x y, eqb x y = true <-> x = y) -> is_group V e inv op -> NoDup es ->
  (forall x, In x es -> V x) -> In e es -> (forall x, In x es -> In (inv x) es) -> (forall x y, In x es -> In y es -> In (op x y) es) ->
  exists t, from_raw_model_unchecked eqb es e inv op = Some t /\ from_raw_model eqb es e inv op = Some (Some t) /\ vt t /\ tn t = length es /\ nth (tident t) es d = e /\
    (forall i, i < length es -> nth (invT t i) es d = inv (nth i es d)) /\
    (forall i j, i < length es -> j < length es -> nth (mulT t i j) es d = op (nth i es d) (nth j es d)).
Proof.
  intros Heq G Hn HV He Hi Hm.
  destruct (build_table d es (fun x => lookup eqb x (idx_build 0 es [])) V e inv op) as (e0 & iv & m & E0 & E1 & E2 & H1 & H2 & H3 & H4); auto.
  { intros x k. apply idx_spec; auto. }
  exists (mkTable (length es) e0 iv m). assert (E : from_raw_model_unchecked eqb es e inv op = Some (mkTable (length es) e0 iv m)).
  { unfold from_raw_model_unchecked. rewrite E0, E1, E2. reflexivity. }
  split; [exact E|]. split; [|split; [auto|split; [reflexivity|split; [auto|split; auto]]]].
  unfold from_raw_model. rewrite E. destruct (check_state_spec (mkTable (length es) e0 iv m)) as (b & -> & Hb). rewrite (proj2 Hb H1). reflexivity.
Qed.
(* ---------- cyclic groups *)
Lemma cyclic_is_group n : 0 < n -> is_group (fun x => x < n) 0 (fun x => (n - x) mod n) (fun x y => (x + y) mod n).
Proof.
  intros Hn. assert (Hlt : forall a, a mod n < n) by (intros; apply Nat.mod_upper_bound; lia).
  constructor; auto.
  - intros x y z _ _ _. rewrite Nat.add_mod_idemp_l, Nat.add_mod_idemp_r by lia. f_equal. lia.
  - intros x Hx. apply Nat.mod_small; auto.
  - intros x Hx. rewrite Nat.add_0_r. apply Nat.mod_small; auto.
  - intros x Hx. rewrite Nat.add_mod_idemp_l by lia. replace (n - x + x) with n by lia. apply Nat.mod_same. lia.
  - intros x Hx. rewrite Nat.add_mod_idemp_r by lia. replace (x + (n - x)) with n by lia. apply Nat.mod_same. lia.
Qed.
Lemma cyclic_spec n : (0 < n -> exists t, cyclic_group n = Some t /\ vt t /\ tn t = n /\ tident t = 0 /\
    (forall x, x < n -> invT t x = (n - x) mod n) /\ (forall x y, x < n -> y < n -> mulT t x y = (x + y) mod n)) /\ cyclic_group 0 = None.
Proof.
  split; [|reflexivity]. intros Hn.
  assert (Hlt : forall a, a mod n < n) by (intros; apply Nat.mod_upper_bound; lia).
  destruct (from_raw_spec 0 Nat.eqb (seq 0 n) (fun x => x < n) 0 (fun x => (n - x) mod n) (fun x y => (x + y) mod n)) as (t & E & _ & H1 & H2 & H3 & H4 & H5).
  - apply Nat.eqb_eq.
  - apply cyclic_is_group; auto.
  - apply seq_NoDup.
  - intros x Hx. apply in_seq in Hx. lia.
  - apply in_seq. lia.
  - intros x _. apply in_seq. specialize (Hlt (n - x)). lia.
  - intros x y _ _. apply in_seq. specialize (Hlt (x + y)). lia.
  - rewrite seq_length in *. pose proof (vt_group t H1) as G. rewrite H2 in G. exists t. split; [auto|]. split; [auto|]. split; [auto|].
    assert (Hs : forall k, k < n -> nth k (seq 0 n) 0 = k) by (intros; rewrite seq_nth; auto).
    split; [rewrite Hs in H3; auto; apply G|]. split.
    + intros x Hx. specialize (H4 x Hx). rewrite Hs in H4 by (apply G; auto). rewrite Hs in H4; auto.
    + intros x y Hx Hy. specialize (H5 x y Hx Hy). rewrite Hs in H5 by (apply G; auto). rewrite !Hs in H5; auto.
Qed.
(* ---------- direct product *)
Lemma pair_group (a b : table) : vt a -> vt b -> is_group (fun p : nat * nat => fst p < tn a /\ snd p < tn b) (tident a, tident b)
  (fun p => (invT a (fst p), invT b (snd p))) (fun p q => (mulT a (fst p) (fst q), mulT b (snd p) (snd q))).
Proof.
  intros Ha Hb. apply vt_group in Ha as Ga, Hb as Gb. constructor; cbn [fst snd].
  - split; [apply Ga|apply Gb].
  - intros x [H1 H2]. split; [apply Ga|apply Gb]; auto.
  - intros x y [H1 H2] [H3 H4]. split; [apply Ga|apply Gb]; auto.
  - intros x y z [H1 H2] [H3 H4] [H5 H6]. f_equal; [apply (ig_assoc _ _ _ _ Ga)|apply (ig_assoc _ _ _ _ Gb)]; auto.
  - intros [x y] [H1 H2]. f_equal; [apply (ig_idl _ _ _ _ Ga)|apply (ig_idl _ _ _ _ Gb)]; auto.
  - intros [x y] [H1 H2]. f_equal; [apply (ig_idr _ _ _ _ Ga)|apply (ig_idr _ _ _ _ Gb)]; auto.
  - intros [x y] [H1 H2]. f_equal; [apply (ig_invl _ _ _ _ Ga)|apply (ig_invl _ _ _ _ Gb)]; auto.
  - intros [x y] [H1 H2]. f_equal; [apply (ig_invr _ _ _ _ Ga)|apply (ig_invr _ _ _ _ Gb)]; auto.
Qed.
Lemma nth_map_seq {B} (f : nat -> B) n i d : i < n -> nth i (map f (seq 0 n)) d = f i.
Proof. intros H. rewrite (nth_indep _ d (f 0)) by (rewrite map_length, seq_length; auto). rewrite map_nth, seq_nth; auto. Qed.
Lemma divmod_pair m i j : i < m -> (i + j * m) mod m = i /\ (i + j * m) / m = j.
Proof. intros H. rewrite Nat.mod_add, Nat.div_add, Nat.mod_small, Nat.div_small by lia. lia. Qed.
Lemma direct_product_spec a b : vt a -> vt b -> let p := direct_product a b in vt p /\ tn p = tn a * tn b /\
  (forall x, x < tn p -> x mod tn a < tn a /\ x / tn a < tn b) /\
  (forall x y, x < tn p -> y < tn p -> mulT p x y mod tn a = mulT a (x mod tn a) (y mod tn a) /\ mulT p x y / tn a = mulT b (x / tn a) (y / tn a)).
Proof.
  intros Ha Hb. cbn zeta. set (p := direct_product a b). apply vt_group in Ha as Ga, Hb as Gb. pose proof (pair_group a b Ha Hb) as GP.
  assert (Hma : 0 < tn a) by (pose proof (ig_e _ _ _ _ Ga) as Hq; cbn beta in Hq; lia). assert (Hnb : 0 < tn b) by (pose proof (ig_e _ _ _ _ Gb) as Hq; cbn beta in Hq; lia).
  set (m := tn a) in *. set (n := tn b) in *.
  assert (Hpr : forall x, x < m * n -> x mod m < m /\ x / m < n). { intros x Hx. split; [apply Nat.mod_upper_bound; lia|apply Nat.div_lt_upper_bound; lia]. }
  assert (Hsing : forall i j, i < m -> j < n -> i + j * m < m * n) by (intros; nia).
  set (es := map (fun x => (x mod m, x / m)) (seq 0 (m * n))).
  assert (Hel : length es = m * n) by (unfold es; rewrite map_length, seq_length; auto).
  assert (Hnth : forall i, i < m * n -> nth i es (0, 0) = (i mod m, i / m)).
  { intros i Hi. unfold es. rewrite (nth_map_seq (fun x => (x mod m, x / m))); auto. }
  assert (Pinv : forall i, i < m * n -> invT p i = invT a (i mod m) + invT b (i / m) * m).
  { intros i Hi. unfold invT at 1, p, direct_product. cbn [tinv]. fold m n. rewrite nth_map_seq; auto. }
  assert (Pmul : forall i j, i < m * n -> j < m * n -> mulT p i j = mulT a (i mod m) (j mod m) + mulT b (i / m) (j / m) * m).
  { intros i j Hi Hj. unfold mulT at 1, p, direct_product. cbn [tmuls]. fold m n. rewrite nth_map_seq by auto. rewrite nth_map_seq; auto. }
  split; [|split; [reflexivity|split; [exact Hpr|]]].
  - apply (vt_transfer (0, 0) es (fun q => fst q < m /\ snd q < n) (tident a, tident b)
      (fun q => (invT a (fst q), invT b (snd q))) (fun q r => (mulT a (fst q) (fst r), mulT b (snd q) (snd r)))); auto.
    + unfold es. assert (Gn : forall l, NoDup l -> NoDup (map (fun x => (x mod m, x / m)) l)).
      { induction l as [|x l IH]; intros Hl; cbn; [constructor|]. inversion Hl; subst. constructor; auto. intros Hin. apply in_map_iff in Hin as (y & E & Hy).
        injection E as E1 E2. apply H1. pose proof (Nat.div_mod x m ltac:(lia)) as D1. pose proof (Nat.div_mod y m ltac:(lia)) as D2. rewrite E1, E2 in D2. rewrite <- D1 in D2. subst y. auto. }
      apply Gn, seq_NoDup.
    + intros q Hq. unfold es in Hq. apply in_map_iff in Hq as (x & <- & Hx). apply in_seq in Hx. cbn. apply Hpr. lia.
    + unfold p, direct_product. cbn [tinv]. rewrite map_length, seq_length. auto.
    + unfold p, direct_product. cbn [tmuls]. rewrite map_length, seq_length. auto.
    + unfold p, direct_product. cbn [tmuls]. intros r Hr. apply in_map_iff in Hr as (x & <- & _). rewrite map_length, seq_length. auto.
    + unfold p, direct_product. cbn [tident]. rewrite Hel. apply Hsing; [apply Ga|apply Gb].
    + unfold p, direct_product. cbn [tident]. fold m. rewrite Hnth by (apply Hsing; [apply Ga|apply Gb]).
      destruct (divmod_pair m (tident a) (tident b) (ig_e _ _ _ _ Ga)) as [-> ->]. reflexivity.
    + intros i Hi. rewrite Hel in *. destruct (Hpr i Hi) as [P1 P2]. rewrite Pinv by auto.
      assert (Q1 : invT a (i mod m) < m) by (apply Ga; auto). assert (Q2 : invT b (i / m) < n) by (apply Gb; auto).
      split; [apply Hsing; auto|]. rewrite !Hnth by auto. destruct (divmod_pair m (invT a (i mod m)) (invT b (i / m)) Q1) as [-> ->]. reflexivity.
    + intros i j Hi Hj. rewrite Hel in *. destruct (Hpr i Hi) as [P1 P2]. destruct (Hpr j Hj) as [P3 P4]. rewrite Pmul by auto.
      assert (Q1 : mulT a (i mod m) (j mod m) < m) by (apply Ga; auto). assert (Q2 : mulT b (i / m) (j / m) < n) by (apply Gb; auto).
      split; [apply Hsing; auto|]. rewrite !Hnth by auto. destruct (divmod_pair m _ (mulT b (i / m) (j / m)) Q1) as [-> ->]. reflexivity.
  - intros x y Hx Hy. change (tn p) with (m * n) in Hx, Hy. rewrite Pmul by auto. apply divmod_pair. apply Ga; apply Hpr; auto.
Qed.
(* ---------- mul_many, order, abelian *)
Section T.
Variable t : table.
Hypothesis Ht : vt t.
Let G : tgroup t := vt_group t Ht.
Notation n := (tn t).
Notation pw := (gpow (tident t) (mulT t)).
Lemma mul_many_spec l : (forall x, In x l -> x < n) -> mul_many t l = fold_right (mulT t) (tident t) l.
Proof.
  intros H. rewrite <- (compose_list_spec _ _ _ _ G) by (apply Forall_forall; auto). unfold mul_many, compose_list. destruct l as [|x l]; [reflexivity|].
  cbn [fold_left]. rewrite (ig_idl _ _ _ _ G); auto. apply H. left; auto.
Qed.
Lemma order_exists x : x < n -> exists k, 1 <= k <= n /\ pw x k = tident t.
Proof.
  intros Hx.
  assert (Hd : (exists k, 1 <= k <= n /\ pw x k = tident t) \/ (forall k, 1 <= k <= n -> pw x k <> tident t)).
  { assert (Gn : forall b, (exists k, 1 <= k <= b /\ pw x k = tident t) \/ (forall k, 1 <= k <= b -> pw x k <> tident t)).
    { induction b as [|b [(k & H1 & H2)|IH]]; [right; lia|left; exists k; split; [lia|auto]|].
      destruct (Nat.eq_dec (pw x (S b)) (tident t)) as [E|E]; [left; exists (S b); split; [lia|auto]|right]. intros k Hk.
      destruct (Nat.eq_dec k (S b)) as [->|]; [auto|apply IH; lia]. }
    apply Gn. }
  destruct Hd as [H|H]; auto. exfalso.
  assert (Hnd : NoDup (map (pw x) (seq 0 (S n)))).
  { assert (Gn : forall m s, s + m <= S n -> NoDup (map (pw x) (seq s m))).
    { induction m as [|m IH]; intros s Hs; cbn; [constructor|]. constructor; [|apply IH; lia]. intros Hin. apply in_map_iff in Hin as (j & E & Hj). apply in_seq in Hj.
      apply (H (j - s)); [lia|]. apply (cancel_r _ _ _ _ G (pw x (j - s)) (tident t) (pw x s)); try apply (gpow_V _ _ _ _ G); auto; try apply G.
      rewrite <- (gpow_add _ _ _ _ G) by auto. replace (j - s + s) with j by lia. rewrite E. symmetry. apply (ig_idl _ _ _ _ G). apply (gpow_V _ _ _ _ G); auto. }
    apply Gn. lia. }
  assert (Hl : length (map (pw x) (seq 0 (S n))) <= length (seq 0 n)).
  { apply NoDup_incl_length; auto. intros y Hy. apply in_map_iff in Hy as (k & <- & _). apply in_seq. pose proof (gpow_V _ _ _ _ G x k Hx). cbn in *. lia. }
  rewrite map_length, !seq_length in Hl. lia.
Qed.
Lemma order_loop_spec x : x < n -> forall fuel k, 1 <= k -> n < fuel + k -> (forall j, 1 <= j < k -> pw x j <> tident t) -> k <= n ->
  exists r, order_loop fuel t x (pw x k) k = Some r /\ 1 <= r <= n /\ pw x r = tident t /\ forall j, 1 <= j < r -> pw x j <> tident t.
Proof.
  intros Hx. induction fuel as [|fuel IH]; intros k Hk Hf Hj Hkn; [lia|]. cbn [order_loop].
  destruct (Nat.eqb_spec (pw x k) (tident t)) as [E|E]; [exists k; split; [auto|]; split; [lia|]; split; auto|].
  change (mulT t x (pw x k)) with (pw x (S k)). replace (k + 1) with (S k) by lia.
  assert (Hkn' : S k <= n).
  { destruct (order_exists x Hx) as (r & Hr & Er). destruct (Nat.lt_ge_cases k r); [lia|]. exfalso. destruct (Nat.eq_dec r k); [subst; auto|]. apply (Hj r); [lia|auto]. }
  apply IH; auto; try lia. intros j Hj'. destruct (Nat.eq_dec j k) as [->|]; [auto|apply Hj; lia].
Qed.
Lemma order_spec x fuel : x < n -> n <= fuel -> exists r, order fuel t x = Some (Some r) /\ 1 <= r <= n /\ pw x r = tident t /\ forall j, 1 <= j < r -> pw x j <> tident t.
Proof.
  intros Hx Hf. unfold order. destruct (Nat.ltb_spec x n); [|lia]. cbn [negb].
  destruct (order_loop_spec x Hx fuel 1) as (r & E & H1); try lia.
  cbn [gpow] in E. rewrite (ig_idr _ _ _ _ G) in E by auto. rewrite E. exists r. split; [reflexivity|]. exact H1.
Qed.
Lemma abelian_spec : compute_is_abelian t = true <-> forall x y, x < n -> y < n -> mulT t x y = mulT t y x.
Proof.
  unfold compute_is_abelian. rewrite forallb_forall. split.
  - intros H. assert (Gn : forall x y, x < n -> y < x -> mulT t x y = mulT t y x).
    { intros x y Hx Hy. specialize (H x (proj2 (in_seq _ _ _) (conj (Nat.le_0_l _) Hx))). rewrite forallb_forall in H. apply Nat.eqb_eq. apply H. apply in_seq. lia. }
    intros x y Hx Hy. destruct (Nat.lt_trichotomy x y) as [H1|[->|H1]]; auto. symmetry; auto.
  - intros H x Hx. apply in_seq in Hx. apply forallb_forall. intros y Hy. apply in_seq in Hy. apply Nat.eqb_eq. apply H; lia.
Qed.
End T.
