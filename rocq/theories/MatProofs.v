(* Views and loops: what the raw matrix operations do to the function (r, c) |-> entry. *)
From Coq Require Import List Arith NArith Bool Lia.
From Verif Require Import RingSpec RingModel PermModel MatModel.
Import ListNotations.
Close Scope rs_scope.
Open Scope nat_scope.

(* ------------------------------------------------------------------ loops *)
Lemma forM_inv {X} (body : nat -> X -> option X) (P : nat -> X -> Prop) n : forall a s,
  P a s -> (forall i s, a <= i < a + n -> P i s -> exists s', body i s = Some s' /\ P (i + 1) s') ->
  exists s', forM (seq a n) body s = Some s' /\ P (a + n) s'.
Proof.
  induction n as [|n IH]; intros a s H0 Hs; cbn.
  - exists s. split; auto. now rewrite Nat.add_0_r.
  - destruct (Hs a s ltac:(lia) H0) as (s1 & E & H1). rewrite E. cbn.
    destruct (IH (S a) s1) as (s2 & E2 & H2).
    + now rewrite <- Nat.add_1_r.
    + intros i s' Hi Hp. apply Hs; auto; lia.
    + exists s2. split; auto. replace (a + S n) with (S a + n) by lia. auto.
Qed.
Lemma forM_range {S} (body : nat -> S -> option S) (P : nat -> S -> Prop) a b s : a <= b ->
  P a s -> (forall i s, a <= i < b -> P i s -> exists s', body i s = Some s' /\ P (i + 1) s') ->
  exists s', forM (range a b) body s = Some s' /\ P b s'.
Proof.
  intros Hab H0 Hs. unfold range. destruct (forM_inv body P (b - a) a s H0) as (s' & E & H).
  - intros i s0 Hi. apply Hs. lia.
  - exists s'. split; auto. now replace (a + (b - a)) with b in H by lia.
Qed.
(* partial correctness: an invariant holds of whatever the loop returns *)
Lemma forM_part {S} (body : nat -> S -> option S) (P : S -> Prop) l : forall s s',
  P s -> (forall i s s', In i l -> P s -> body i s = Some s' -> P s') -> forM l body s = Some s' -> P s'.
Proof.
  induction l as [|i l IH]; cbn; intros s s' H0 Hs E; [now inversion E; subst|].
  destruct (body i s) as [s1|] eqn:E1; cbn in E; [|discriminate].
  apply (IH s1 s'); auto. apply (Hs i s s1); auto. intros. apply (Hs i0 s0 s'0); auto.
Qed.
Lemma forM_ext {S} l (f g : nat -> S -> option S) : (forall i s, In i l -> f i s = g i s) -> forall s, forM l f s = forM l g s.
Proof.
  induction l as [|i l IH]; cbn; intros H s; auto. rewrite H by auto. destruct (g i s); cbn; auto.
Qed.
Lemma mapM_some {A B} (f : A -> option B) g l : (forall a, In a l -> f a = Some (g a)) -> mapM f l = Some (map g l).
Proof.
  induction l as [|a l IH]; cbn; intros H; auto. rewrite H by auto. cbn. rewrite IH by auto. reflexivity.
Qed.
Lemma allM_spec l p (b : nat -> bool) : (forall i, In i l -> p i = Some (b i)) -> allM l p = Some (forallb b l).
Proof.
  induction l as [|i l IH]; cbn; intros H; auto. rewrite H by auto. cbn. destruct (b i); auto.
Qed.
Lemma ltb_add1 k c : (k <? c + 1) = (k <? c) || (k =? c).
Proof. destruct (Nat.ltb_spec k (c + 1)), (Nat.ltb_spec k c), (Nat.eqb_spec k c); cbn; auto; lia. Qed.
Lemma in_range a b i : In i (range a b) <-> a <= i < b.
Proof. unfold range. rewrite in_seq. lia. Qed.
Lemma range_length a b : length (range a b) = b - a.
Proof. apply seq_length. Qed.

(* ------------------------------------------------------------------ indices *)
Section V.
Context {A : Type}.
Implicit Types (m : matrix A).

Lemma rows_transpose m : rows (transpose m) = cols m. Proof. unfold rows, cols. cbn. destruct (tr m); auto. Qed.
Lemma cols_transpose m : cols (transpose m) = rows m. Proof. unfold rows, cols. cbn. destruct (tr m); auto. Qed.
Lemma transpose_transpose m : transpose (transpose m) = m.
Proof. destruct m. unfold transpose. cbn. now rewrite negb_involutive. Qed.
Lemma get_at m r c a : get m r c = Some a <-> at_ m r c = Some (Ok a).
Proof.
  unfold get. destruct (at_ m r c) as [[x|e]|]; cbn; split; intros H; inversion H; auto.
Qed.
Lemma at_oob m r c : rows m <= r \/ cols m <= c -> at_ m r c = Some (Err InvalidIndex).
Proof.
  intros H. unfold at_. destruct (Nat.leb_spec (rows m) r); auto. destruct (Nat.leb_spec (cols m) c); auto. lia.
Qed.
Lemma get_in m r c a : get m r c = Some a -> r < rows m /\ c < cols m.
Proof.
  unfold get, at_. destruct (Nat.leb_spec (rows m) r); cbn; [discriminate|].
  destruct (Nat.leb_spec (cols m) c); cbn; [discriminate|]. auto.
Qed.
Lemma get_transpose m r c : get (transpose m) r c = get m c r.
Proof.
  unfold get, at_. rewrite rows_transpose, cols_transpose.
  destruct (Nat.leb_spec (cols m) r), (Nat.leb_spec (rows m) c); auto.
  unfold rc_to_idx. rewrite rows_transpose, cols_transpose. cbn. destruct (tr m); cbn; auto.
Qed.

Lemma idx_inj d a b a' b' : a < d -> a' < d -> a + b * d = a' + b' * d -> a = a' /\ b = b'.
Proof.
  intros H H' E. assert (b = b') as ->.
  { destruct (lt_eq_lt_dec b b') as [[L|L]|L]; auto; nia. }
  split; auto. lia.
Qed.
Lemma rc_to_idx_inj m r c r' c' : r < rows m -> c < cols m -> r' < rows m -> c' < cols m ->
  rc_to_idx m r c = rc_to_idx m r' c' -> r = r' /\ c = c'.
Proof.
  unfold rc_to_idx, rows, cols. intros Hr Hc Hr' Hc' E. destruct (tr m); apply idx_inj in E; destruct (fr m), (fc m); lia.
Qed.
Lemma rc_to_idx_lt m r c : r < rows m -> c < cols m -> rc_to_idx m r c < dim1 m * dim2 m.
Proof.
  unfold rc_to_idx, rows, cols. intros Hr Hc. destruct (tr m), (fr m), (fc m); nia.
Qed.

Lemma vset_spec (l : list A) : forall i v, i < length l -> exists l', vset l i v = Some l' /\ length l' = length l /\
  forall j, nth_error l' j = if j =? i then Some v else nth_error l j.
Proof.
  induction l as [|x l IH]; cbn; intros i v Hi; [lia|]. destruct i as [|i].
  - eexists. split; [reflexivity|]. split; auto. intros [|j]; auto.
  - destruct (IH i v ltac:(lia)) as (l' & E & L & H). rewrite E. eexists. split; [reflexivity|]. cbn. split; [lia|].
    intros [|j]; cbn; auto.
Qed.

(* the entries of m, seen as a function; nothing is said about out-of-range indices *)
Definition shape (p q : nat) m (f : nat -> nat -> A) : Prop :=
  rows m = p /\ cols m = q /\ forall r c, r < p -> c < q -> get m r c = Some (f r c).

Lemma shape_ext p q m f g : shape p q m f -> (forall r c, r < p -> c < q -> f r c = g r c) -> shape p q m g.
Proof. intros (H1 & H2 & H3) E. repeat split; auto. intros. rewrite H3, E; auto. Qed.
Lemma shape_inj p q m f g : shape p q m f -> shape p q m g -> forall r c, r < p -> c < q -> f r c = g r c.
Proof. intros (_ & _ & H) (_ & _ & H') r c Hr Hc. specialize (H r c Hr Hc). rewrite H' in H by auto. congruence. Qed.
Lemma shape_tr p q m f : shape p q m f -> shape q p (transpose m) (fun r c => f c r).
Proof.
  intros (H1 & H2 & H3). repeat split; [now rewrite rows_transpose|now rewrite cols_transpose|].
  intros. rewrite get_transpose. auto.
Qed.

Lemma put_spec m r c v a : get m r c = Some a ->
  exists m', put m r c v = Some m' /\ rows m' = rows m /\ cols m' = cols m /\
    (forall r' c', r' < rows m -> c' < cols m -> get m' r' c' = if (r' =? r) && (c' =? c) then Some v else get m r' c').
Proof.
  intros G. pose proof (get_in _ _ _ _ G) as [Hr Hc]. unfold put, set_.
  destruct (Nat.leb_spec (rows m) r); [lia|]. destruct (Nat.leb_spec (cols m) c); [lia|].
  unfold get, at_ in G. destruct (Nat.leb_spec (rows m) r); [lia|]. destruct (Nat.leb_spec (cols m) c); [lia|].
  destruct (nth_error (elems m) (rc_to_idx m r c)) as [x|] eqn:E; [|discriminate].
  assert (Hl : rc_to_idx m r c < length (elems m)) by (apply nth_error_Some; congruence).
  destruct (vset_spec (elems m) _ v Hl) as (es & E1 & L & Hes). rewrite E1. cbn.
  eexists. split; [reflexivity|]. split; [reflexivity|]. split; [reflexivity|].
  intros r' c' Hr' Hc'. unfold get, at_. change (rows _) with (rows m). change (cols _) with (cols m).
  destruct (Nat.leb_spec (rows m) r'); [lia|]. destruct (Nat.leb_spec (cols m) c'); [lia|]. cbn.
  change (rc_to_idx (Mat _ _ _ _ _ es) r' c') with (rc_to_idx m r' c'). rewrite Hes.
  destruct (Nat.eqb_spec (rc_to_idx m r' c') (rc_to_idx m r c)) as [Ei|Ni].
  - apply rc_to_idx_inj in Ei as [-> ->]; auto. rewrite !Nat.eqb_refl. reflexivity.
  - destruct (Nat.eqb_spec r' r), (Nat.eqb_spec c' c); cbn; auto. subst. now destruct Ni.
Qed.
Lemma put_shape p q m f r c v : shape p q m f -> r < p -> c < q ->
  exists m', put m r c v = Some m' /\ shape p q m' (fun i j => if (i =? r) && (j =? c) then v else f i j).
Proof.
  intros (H1 & H2 & H3) Hr Hc. destruct (put_spec m r c v (f r c) (H3 r c Hr Hc)) as (m' & E & E1 & E2 & H).
  exists m'. split; auto. split; [lia|]. split; [lia|]. intros i j Hi Hj. rewrite H by lia. destruct (_ && _); auto.
Qed.

Lemma flat_idx p q idx : idx < p * q -> idx / q < p /\ idx mod q < q.
Proof.
  intros H. assert (q <> 0) by (intros ->; lia). split; [|apply Nat.mod_upper_bound; auto].
  apply Nat.div_lt_upper_bound; auto. lia.
Qed.
Lemma shape_flat p q (es : list A) f : length es = p * q -> (forall r c, r < p -> c < q -> nth_error es (c + r * q) = Some (f r c)) ->
  shape p q (Mat p q false false false es) f.
Proof.
  intros L H. repeat split. intros r c Hr Hc. unfold get, at_, rows, cols. cbn.
  destruct (Nat.leb_spec p r); [lia|]. destruct (Nat.leb_spec q c); [lia|]. unfold rc_to_idx. cbn. rewrite H by auto. reflexivity.
Qed.
Lemma construct_shape p q mk f : (forall r c, r < p -> c < q -> mk r c = Some (f r c)) ->
  exists m, construct p q mk = Some m /\ shape p q m f /\ length (elems m) = dim1 m * dim2 m.
Proof.
  intros H. unfold construct. rewrite (mapM_some _ (fun idx => f (idx / q) (idx mod q))).
  2:{ intros idx Hi. apply in_seq in Hi. destruct (flat_idx p q idx ltac:(lia)). auto. }
  cbn. eexists. split; [reflexivity|]. split.
  - apply shape_flat.
    + now rewrite map_length, seq_length.
    + intros r c Hr Hc. rewrite nth_error_map. rewrite nth_error_nth' with (d := 0) by (rewrite seq_length; nia).
      cbn. rewrite seq_nth by nia. cbn. rewrite Nat.div_add by lia. rewrite Nat.mod_add by lia.
      rewrite Nat.div_small, Nat.mod_small by lia. reflexivity.
  - cbn. now rewrite map_length, seq_length.
Qed.
Lemma full_shape p q a : shape p q (full p q a) (fun _ _ => a).
Proof.
  apply shape_flat; [apply repeat_length|]. intros. apply nth_error_repeat. nia.
Qed.

Lemma concat_nth {X} (q : nat) (ls : list (list X)) : Forall (fun l => length l = q) ls -> forall r c, c < q ->
  nth_error (concat ls) (c + r * q) = match nth_error ls r with Some l => nth_error l c | None => None end.
Proof.
  induction 1 as [|l ls Hl _ IH]; intros r c Hc; cbn.
  - destruct r; cbn; destruct (c + _); auto.
  - destruct r as [|r]; cbn.
    + rewrite Nat.add_0_r. apply nth_error_app1. lia.
    + rewrite nth_error_app2 by lia. replace (c + (q + r * q) - length l) with (c + r * q) by lia. auto.
Qed.
Lemma concat_len {X} (q : nat) (ls : list (list X)) : Forall (fun l => length l = q) ls -> length (concat ls) = length ls * q.
Proof. induction 1; cbn; auto. rewrite app_length, IHForall. lia. Qed.

Lemma submatrix_shape p q m f rs cs : shape p q m f -> (forall r, In r rs -> r < p) -> (forall c, In c cs -> c < q) ->
  exists m', submatrix m rs cs = Some m' /\ shape (length rs) (length cs) m' (fun i j => f (nth i rs 0) (nth j cs 0)) /\
             length (elems m') = dim1 m' * dim2 m'.
Proof.
  intros (H1 & H2 & H3) Hr Hc. unfold submatrix.
  rewrite (mapM_some _ (fun r => map (fun c => f r c) cs)).
  2:{ intros r Ir. apply mapM_some. intros c Ic. apply H3; auto. }
  cbn. eexists. split; [reflexivity|].
  assert (F : Forall (fun l => length l = length cs) (map (fun r => map (fun c => f r c) cs) rs)).
  { apply Forall_forall. intros l Hl. apply in_map_iff in Hl as (r & <- & _). apply map_length. }
  assert (L : length (concat (map (fun r => map (fun c => f r c) cs) rs)) = length rs * length cs).
  { rewrite (concat_len (length cs)) by auto. now rewrite map_length. }
  split; auto. apply shape_flat; auto. intros r c Lr Lc. rewrite (concat_nth (length cs)) by auto.
  rewrite nth_error_map, (nth_error_nth' rs 0) by auto. cbn. rewrite nth_error_map, (nth_error_nth' cs 0) by auto. reflexivity.
Qed.
Lemma nth_range a b i : i < b - a -> nth i (range a b) 0 = a + i.
Proof. intros. unfold range. rewrite seq_nth; auto. Qed.

Lemma join_entry_shape q mats : forall off r c,
  Forall (fun m => cols m = q /\ forall i j, i < rows m -> j < q -> get m i j <> None) mats -> c < q ->
  off <= r < off + list_sum (map rows mats) ->
  exists k i m, nth_error mats k = Some m /\ i < rows m /\ r = off + list_sum (map rows (firstn k mats)) + i /\
     join_entry mats off q r c = get m i c.
Proof.
  induction mats as [|m mats IH]; intros off r c HF Hc Hr; cbn in *; [lia|].
  inversion HF as [|? ? [Hm Hg] HF']; subst.
  destruct (find _ _) as [mr|] eqn:E.
  - apply find_some in E as [I E]. apply in_range in I. apply andb_true_iff in E as [E _]. apply Nat.eqb_eq in E.
    exists 0, mr, m. cbn. repeat split; auto; lia.
  - destruct (lt_dec r (off + rows m)) as [L|L].
    + exfalso. assert (E' := find_none _ _ E (r - off) ltac:(apply in_range; lia)). cbv beta in E'.
      apply andb_false_iff in E' as [E'|E'].
      * apply Nat.eqb_neq in E'. lia.
      * assert (existsb (Nat.eqb c) (range 0 (cols m)) = true); [|congruence].
        apply existsb_exists. exists c. split; [apply in_range; lia|apply Nat.eqb_refl].
    + unfold list_sum in *. destruct (IH (off + rows m) r c) as (k & i & m0 & E1 & E2 & E3 & E4); auto; [lia|].
      exists (S k), i, m0. cbn. repeat split; auto. lia.
Qed.
End V.


(* construct, without naming the entry function *)
Section C.
Context {A : Type}.
Lemma mapM_total {X Y} (f : X -> option Y) l : (forall x, In x l -> f x <> None) -> exists ys, mapM f l = Some ys /\ length ys = length l /\
  forall i x, nth_error l i = Some x -> nth_error ys i = f x.
Proof.
  induction l as [|x l IH]; intros H; cbn.
  - exists []. repeat split. intros [|i] x; discriminate.
  - destruct (f x) as [y|] eqn:E; [|now destruct (H x (or_introl eq_refl))]. destruct IH as (ys & E1 & L & Hn); [intros; apply H; now right|].
    cbn. rewrite E1. cbn. exists (y :: ys). split; auto. split; [cbn; lia|]. intros [|i] x' Hx; cbn in *; [congruence|auto].
Qed.
Lemma construct_total p q (mk : nat -> nat -> option A) : (forall r c, r < p -> c < q -> mk r c <> None) ->
  exists m, construct p q mk = Some m /\ rows m = p /\ cols m = q /\ forall r c, r < p -> c < q -> get m r c = mk r c.
Proof.
  intros H. unfold construct. destruct (mapM_total (fun idx => mk (idx / q) (idx mod q)) (seq 0 (p * q))) as (es & E & L & Hn).
  - intros idx Hi. apply in_seq in Hi. destruct (flat_idx p q idx ltac:(lia)). auto.
  - rewrite E. cbn. eexists. split; [reflexivity|]. split; auto. split; auto. intros r c Hr Hc.
    unfold get, at_, rows, cols. cbn. destruct (Nat.leb_spec p r); [lia|]. destruct (Nat.leb_spec q c); [lia|]. unfold rc_to_idx. cbn.
    rewrite (Hn (c + r * q) (c + r * q)).
    + rewrite Nat.div_add, Nat.mod_add, Nat.div_small, Nat.mod_small by lia. cbn.
      destruct (mk r c) eqn:E'; auto.
    + rewrite nth_error_nth' with (d := 0) by (rewrite seq_length; nia). rewrite seq_nth by nia. reflexivity.
Qed.
Lemma fold_rows (mats : list (matrix A)) : forall a, fold_left (fun n m => n + rows m) mats a = a + list_sum (map rows mats).
Proof. unfold list_sum. induction mats as [|m mats IH]; intros a; cbn; [lia|]. rewrite IH. lia. Qed.
Lemma firstn_sum (mats : list (matrix A)) : forall k k' i i' m m', nth_error mats k = Some m -> nth_error mats k' = Some m' -> i < rows m -> i' < rows m' ->
  list_sum (map rows (firstn k mats)) + i = list_sum (map rows (firstn k' mats)) + i' -> k = k' /\ i = i'.
Proof.
  unfold list_sum. induction mats as [|m0 mats IH]; intros k k' i i' m m' E E' Hi Hi' H; [destruct k; discriminate|].
  destruct k as [|k], k' as [|k']; cbn in *.
  - auto.
  - inversion E; subst. lia.
  - inversion E'; subst. lia.
  - destruct (IH k k' i i' m m' E E' Hi Hi' ltac:(lia)) as [-> ->]. auto.
Qed.
Lemma sum_lt (mats : list (matrix A)) : forall k i m, nth_error mats k = Some m -> i < rows m ->
  list_sum (map rows (firstn k mats)) + i < list_sum (map rows mats).
Proof.
  unfold list_sum. induction mats as [|m0 mats IH]; intros k i m E Hi; [destruct k; discriminate|].
  destruct k as [|k]; cbn in *; [inversion E; subst; lia|]. specialize (IH k i m E Hi). lia.
Qed.
Definition full_view (m : matrix A) : Prop := forall i j, i < rows m -> j < cols m -> get m i j <> None.
Lemma join_rows_spec q (mats : list (matrix A)) : Forall (fun m => cols m = q /\ full_view m) mats ->
  exists j, join_rows q mats = Some j /\ rows j = list_sum (map rows mats) /\ cols j = q /\ full_view j /\
    forall k i m c, nth_error mats k = Some m -> i < rows m -> c < q -> get j (list_sum (map rows (firstn k mats)) + i) c = get m i c.
Proof.
  intros HF. assert (HF' : Forall (fun m => cols m = q /\ forall i j, i < rows m -> j < q -> get m i j <> None) mats).
  { apply Forall_forall. intros m Hm. rewrite Forall_forall in HF. destruct (HF m Hm) as [<- Hg]. split; auto. }
  unfold join_rows.
  replace (forallb _ mats) with true.
  2:{ symmetry. apply forallb_forall. intros m Hm. rewrite Forall_forall in HF. destruct (HF m Hm) as [-> _]. apply Nat.eqb_refl. }
  rewrite fold_rows. cbn [plus]. destruct (construct_total (list_sum (map rows mats)) q (join_entry mats 0 q)) as (j & E & H1 & H2 & H3).
  - intros r c Hr Hc. destruct (join_entry_shape q mats 0 r c HF' Hc ltac:(lia)) as (k & i & m & Em & Hi & _ & ->).
    rewrite Forall_forall in HF'. apply HF'; auto. eapply nth_error_In; eauto.
  - exists j. split; auto. split; auto. split; auto. split.
    + intros r c Hr Hc. rewrite H3 by lia. destruct (join_entry_shape q mats 0 r c HF' ltac:(lia) ltac:(lia)) as (k & i & m & Em & Hi & _ & ->).
      rewrite Forall_forall in HF'. apply HF'; auto; [eapply nth_error_In; eauto|lia].
    + intros k i m c Em Hi Hc. pose proof (sum_lt mats k i m Em Hi) as L. rewrite H3 by lia.
      destruct (join_entry_shape q mats 0 _ c HF' Hc (conj (Nat.le_0_l _) L)) as (k' & i' & m' & Em' & Hi' & E' & ->).
      cbn in E'. destruct (firstn_sum mats k k' i i' m m' Em Em' Hi Hi' E') as [<- <-]. congruence.
Qed.
End C.

(* ------------------------------------------------------------------ histories of views and writes *)
Section Map.
Context {A B : Type}.
Lemma apply_map_shape p q (m : matrix A) f (g : A -> B) : shape p q m f -> shape p q (apply_map g m) (fun r c => g (f r c)).
Proof.
  intros (H1 & H2 & H3). repeat split; auto. intros r c Hr Hc. specialize (H3 r c Hr Hc).
  unfold get, at_ in *. change (rows (apply_map g m)) with (rows m). change (cols (apply_map g m)) with (cols m).
  destruct (rows m <=? r); [discriminate|]. destruct (cols m <=? c); [discriminate|].
  change (rc_to_idx (apply_map g m) r c) with (rc_to_idx m r c). cbn. rewrite nth_error_map.
  destruct (nth_error (elems m) (rc_to_idx m r c)); cbn in *; congruence.
Qed.
End Map.

(* a double loop that rewrites every entry (r, c) from its old value: rows outside, columns inside *)
Section Loops.
Context {A : Type}.
Lemma loop_rc p q (m : matrix A) f g (body : nat -> nat -> matrix A -> option (matrix A)) :
  shape p q m f ->
  (forall r c m' h, r < p -> c < q -> shape p q m' h -> h r c = f r c ->
     exists m'', body r c m' = Some m'' /\ shape p q m'' (fun i j => if (i =? r) && (j =? c) then g r c else h i j)) ->
  exists m', forM (range 0 p) (fun r a => forM (range 0 q) (fun c a => body r c a) a) m = Some m' /\ shape p q m' g.
Proof.
  intros Hm Hb.
  destruct (forM_range (fun r a => forM (range 0 q) (fun c a => body r c a) a)
     (fun k m' => shape p q m' (fun i j => if i <? k then g i j else f i j)) 0 p m ltac:(lia)) as (m' & E & H).
  - auto.
  - intros r m1 Hr H1.
    destruct (forM_range (fun c a => body r c a)
       (fun k m' => shape p q m' (fun i j => if (i <? r) || ((i =? r) && (j <? k)) then g i j else f i j)) 0 q m1 ltac:(lia)) as (m2 & E2 & H2).
    + eapply shape_ext; [exact H1|]. cbv beta. intros i j _ _. change (j <? 0) with false. change (i <? 0) with false. rewrite andb_false_r, orb_false_r. reflexivity.
    + intros c m3 Hc H3. destruct (Hb r c m3 _ ltac:(lia) ltac:(lia) H3) as (m4 & E4 & H4).
      { cbv beta. rewrite !Nat.ltb_irrefl, Nat.eqb_refl. reflexivity. }
      exists m4. split; auto. eapply shape_ext; [exact H4|]. cbv beta. intros i j _ _.
      destruct (Nat.eqb_spec i r), (Nat.eqb_spec j c), (Nat.ltb_spec i r), (Nat.ltb_spec j c), (Nat.ltb_spec j (c + 1)); cbn; subst; auto; lia.
    + exists m2. split; auto. eapply shape_ext; [exact H2|]. cbv beta. intros i j _ Hj.
      destruct (Nat.ltb_spec i (r + 1)), (Nat.ltb_spec i r), (Nat.eqb_spec i r), (Nat.ltb_spec j q); cbn; auto; lia.
  - exists m'. split; auto. eapply shape_ext; [exact H|]. cbv beta. intros i j Hi _. destruct (Nat.ltb_spec i p); auto; lia.
Qed.
(* columns outside, rows inside *)
Lemma loop_cr p q (m : matrix A) f g (body : nat -> nat -> matrix A -> option (matrix A)) :
  shape p q m f ->
  (forall r c m' h, r < p -> c < q -> shape p q m' h -> h r c = f r c ->
     exists m'', body r c m' = Some m'' /\ shape p q m'' (fun i j => if (i =? r) && (j =? c) then g r c else h i j)) ->
  exists m', forM (range 0 q) (fun c a => forM (range 0 p) (fun r a => body r c a) a) m = Some m' /\ shape p q m' g.
Proof.
  intros Hm Hb.
  destruct (forM_range (fun c a => forM (range 0 p) (fun r a => body r c a) a)
     (fun k m' => shape p q m' (fun i j => if j <? k then g i j else f i j)) 0 q m ltac:(lia)) as (m' & E & H).
  - auto.
  - intros c m1 Hc H1.
    destruct (forM_range (fun r a => body r c a)
       (fun k m' => shape p q m' (fun i j => if (j <? c) || ((j =? c) && (i <? k)) then g i j else f i j)) 0 p m1 ltac:(lia)) as (m2 & E2 & H2).
    + eapply shape_ext; [exact H1|]. cbv beta. intros i j _ _. change (j <? 0) with false. change (i <? 0) with false. rewrite andb_false_r, orb_false_r. reflexivity.
    + intros r m3 Hr H3. destruct (Hb r c m3 _ ltac:(lia) ltac:(lia) H3) as (m4 & E4 & H4).
      { cbv beta. rewrite !Nat.ltb_irrefl, Nat.eqb_refl. reflexivity. }
      exists m4. split; auto. eapply shape_ext; [exact H4|]. cbv beta. intros i j _ _.
      destruct (Nat.eqb_spec i r), (Nat.eqb_spec j c), (Nat.ltb_spec j c), (Nat.ltb_spec i r), (Nat.ltb_spec i (r + 1)); cbn; subst; auto; lia.
    + exists m2. split; auto. eapply shape_ext; [exact H2|]. cbv beta. intros i j Hi _.
      destruct (Nat.ltb_spec j (c + 1)), (Nat.ltb_spec j c), (Nat.eqb_spec j c), (Nat.ltb_spec i p); cbn; auto; lia.
  - exists m'. split; auto. eapply shape_ext; [exact H|]. cbv beta. intros i j _ Hj. destruct (Nat.ltb_spec j q); auto; lia.
Qed.
End Loops.
