(* Histories of views and writes; block matrices *)
From Coq Require Import List Arith Lia Bool.
From Verif Require Import RingSpec RingModel PermModel MatModel MatViewSpec MatProofs.
Import ListNotations.
Close Scope rs_scope.
Open Scope nat_scope.

(* the program run on a history; a write out of range is an Err and leaves the matrix as it was *)
Definition vstep {A} (m : matrix A) (o : vop A) : option (matrix A * bool) :=
  match o with
  | VTranspose => Some (transpose m, true)
  | VFlipRows => Some (flip_rows m, true)
  | VFlipCols => Some (flip_cols m, true)
  | VWrite r c v => match set_ m r c v with Some (Ok m') => Some (m', true) | Some (Err _) => Some (m, false) | None => None end
  end.
Fixpoint vrun {A} (m : matrix A) (os : list (vop A)) : option (matrix A * list bool) :=
  match os with
  | [] => Some (m, [])
  | o :: os' => do s <- vstep m o; do r <- vrun (fst s) os'; Some (fst r, snd s :: snd r)
  end.
(* m shows exactly the mathematical matrix s through rows(), cols(), at(r, c), and errors outside *)
Definition shows {A} (m : matrix A) (s : smat A) : Prop :=
  rows m = srows s /\ cols m = scols s /\
  forall r c, at_ m r c = if (r <? srows s) && (c <? scols s) then Some (Ok (sentry s r c)) else Some (Err InvalidIndex).

Section H.
Context {A : Type}.
Lemma shows_shape (m : matrix A) s : shows m s <-> shape (srows s) (scols s) m (sentry s).
Proof.
  split.
  - intros (H1 & H2 & H3). repeat split; auto. intros r c Hr Hc. apply get_at. rewrite H3.
    apply Nat.ltb_lt in Hr, Hc. rewrite Hr, Hc. reflexivity.
  - intros (H1 & H2 & H3). repeat split; auto. intros r c. destruct (Nat.ltb_spec r (srows s)) as [Hr|Hr]; cbn [andb].
    + destruct (Nat.ltb_spec c (scols s)) as [Hc|Hc]; [apply get_at; auto|apply at_oob; lia].
    + apply at_oob; lia.
Qed.
Lemma get_flip_rows (m : matrix A) r c : r < rows m -> get (flip_rows m) r c = get m (rows m - 1 - r) c.
Proof.
  intros Hr. unfold get, at_. change (rows (flip_rows m)) with (rows m). change (cols (flip_rows m)) with (cols m).
  destruct (Nat.leb_spec (rows m) r); [lia|]. destruct (Nat.leb_spec (rows m) (rows m - 1 - r)); [lia|].
  destruct (Nat.leb_spec (cols m) c); auto. unfold rc_to_idx. cbn [tr fr fc flip_rows dim2 elems].
  change (rows (flip_rows m)) with (rows m). change (cols (flip_rows m)) with (cols m).
  replace (rows m - r - 1) with (rows m - 1 - r) by lia. replace (rows m - (rows m - 1 - r) - 1) with r by lia.
  destruct (fr m); reflexivity.
Qed.
Lemma get_flip_cols (m : matrix A) r c : c < cols m -> get (flip_cols m) r c = get m r (cols m - 1 - c).
Proof.
  intros Hr. unfold get, at_. change (rows (flip_cols m)) with (rows m). change (cols (flip_cols m)) with (cols m).
  destruct (Nat.leb_spec (cols m) c); [lia|]. destruct (Nat.leb_spec (cols m) (cols m - 1 - c)); [lia|].
  destruct (Nat.leb_spec (rows m) r); auto. unfold rc_to_idx. cbn [tr fr fc flip_cols dim2 elems].
  change (rows (flip_cols m)) with (rows m). change (cols (flip_cols m)) with (cols m).
  replace (cols m - c - 1) with (cols m - 1 - c) by lia. replace (cols m - (cols m - 1 - c) - 1) with c by lia.
  destruct (fc m); reflexivity.
Qed.
Lemma put_set (m : matrix A) r c v m' : put m r c v = Some m' -> set_ m r c v = Some (Ok m').
Proof. unfold put. destruct (set_ m r c v) as [[x|]|]; cbn; congruence. Qed.
Lemma set_oob (m : matrix A) r c v : rows m <= r \/ cols m <= c -> set_ m r c v = Some (Err InvalidIndex).
Proof. intros H. unfold set_. destruct (Nat.leb_spec (rows m) r); auto. destruct (Nat.leb_spec (cols m) c); auto. lia. Qed.
Lemma vstep_ok (m : matrix A) s o : shows m s -> exists m', vstep m o = Some (m', snd (sstep s o)) /\ shows m' (fst (sstep s o)).
Proof.
  intros H. apply shows_shape in H. destruct o as [| | |r c v]; cbn [vstep sstep fst snd].
  - exists (transpose m). split; auto. apply shows_shape. cbn. now apply shape_tr.
  - exists (flip_rows m). split; auto. apply shows_shape. destruct H as (H1 & H2 & H3). repeat split; auto. cbn. intros. rewrite get_flip_rows, H1 by lia. apply H3; lia.
  - exists (flip_cols m). split; auto. apply shows_shape. destruct H as (H1 & H2 & H3). repeat split; auto. cbn. intros. rewrite get_flip_cols, H2 by lia. apply H3; lia.
  - destruct (Nat.ltb_spec r (srows s)) as [Hr|Hr]; [destruct (Nat.ltb_spec c (scols s)) as [Hc|Hc]|]; cbn [andb fst snd].
    + destruct (put_shape _ _ m _ r c v H Hr Hc) as (m' & E & S). apply put_set in E. rewrite E. exists m'. split; auto. apply shows_shape. exact S.
    + rewrite set_oob by (destruct H as (? & ? & _); lia). exists m. split; auto. now apply shows_shape.
    + rewrite set_oob by (destruct H as (? & ? & _); lia). exists m. split; auto. now apply shows_shape.
Qed.
Lemma vrun_ok os : forall (m : matrix A) s, shows m s -> exists m', vrun m os = Some (m', snd (srun s os)) /\ shows m' (fst (srun s os)).
Proof.
  induction os as [|o os IH]; intros m s H; cbn [vrun srun].
  - exists m. auto.
  - destruct (vstep_ok m s o H) as (m1 & E & H1). rewrite E. cbn [obind fst snd]. destruct (sstep s o) as [s1 b]. cbn [fst snd] in *.
    destruct (IH m1 s1 H1) as (m2 & E2 & H2). rewrite E2. destruct (srun s1 os) as [s2 bs]. cbn [obind fst snd] in *. eauto.
Qed.

(* construction *)
Lemma construct_shows p q mk f : (forall r c, r < p -> c < q -> mk r c = Some (f r c)) -> exists m, construct p q mk = Some m /\ shows m (SMat p q f : smat A).
Proof. intros H. destruct (construct_shape p q mk f H) as (m & E & S). exists m. split; auto. apply shows_shape. exact (proj1 S). Qed.
Lemma from_rows_shows (d : A) rs q : rs <> [] -> (forall row, In row rs -> length row = q) ->
  exists m, from_rows rs = Some m /\ shows m (SMat (length rs) q (fun r c => nth c (nth r rs []) d)).
Proof.
  intros Hne Hall. unfold from_rows. destruct rs as [|r0 rest]; [congruence|].
  replace (forallb _ rest) with true.
  2:{ symmetry. apply forallb_forall. intros row Hr. apply Nat.eqb_eq. rewrite (Hall row), (Hall r0); auto; [now left|now right]. }
  rewrite (Hall r0) by now left. apply construct_shows. intros r c Hr Hc.
  rewrite nth_error_nth' with (d := []) by auto. cbn [obind]. apply nth_error_nth'. rewrite (Hall (nth r (r0 :: rest) [])); auto. now apply nth_In.
Qed.
Lemma from_rows_bad rs row : In row rs -> length row <> length (hd [] rs) -> @from_rows A rs = None.
Proof.
  intros Hin Hne. unfold from_rows. destruct rs as [|r0 rest]; auto. cbn in Hne. destruct Hin as [->|Hin]; [congruence|].
  replace (forallb _ rest) with false; auto. symmetry. apply not_true_is_false. rewrite forallb_forall. intros H. specialize (H row Hin). apply Nat.eqb_eq in H. congruence.
Qed.

(* joins *)
Lemma join_entry_eq (d : A) q : forall mats ss off r c, Forall2 (fun m s => shape (srows s) (scols s) m (sentry s)) mats ss -> Forall (fun s => scols s = q) ss ->
  c < q -> off <= r < off + sum_rows ss -> join_entry mats off q r c = Some (stacked d ss (r - off) c).
Proof.
  unfold sum_rows, list_sum. induction mats as [|m mats IH]; intros ss off r c HF HC Hc Hr; inversion HF as [|? s ? ss' Hm HF']; subst; cbn [join_entry stacked map fold_right] in *; [lia|].
  inversion HC as [|? ? HC1 HC']; subst. destruct Hm as (H1 & H2 & H3). rewrite H1.
  destruct (find _ _) as [mr|] eqn:E.
  - apply find_some in E as [I E]. apply in_range in I. apply andb_true_iff in E as [E _]. apply Nat.eqb_eq in E. subst r.
    replace (off + mr - off) with mr by lia. destruct (Nat.ltb_spec mr (srows s)); [|lia]. apply H3; lia.
  - destruct (Nat.ltb_spec (r - off) (srows s)) as [L|L].
    + exfalso. assert (E' := find_none _ _ E (r - off) ltac:(apply in_range; lia)). cbv beta in E'.
      apply andb_false_iff in E' as [E'|E'].
      * apply Nat.eqb_neq in E'. lia.
      * assert (existsb (Nat.eqb c) (range 0 (scols s)) = true); [|congruence].
        apply existsb_exists. exists c. split; [apply in_range; lia|apply Nat.eqb_refl].
    + rewrite (IH ss' (off + srows s)); auto; [|lia]. f_equal. f_equal. lia.
Qed.
Lemma join_rows_shows (d : A) q mats ss : Forall2 shows mats ss -> Forall (fun s => scols s = q) ss ->
  exists j, join_rows q mats = Some j /\ shows j (SMat (sum_rows ss) q (stacked d ss)).
Proof.
  intros HF HC. assert (HF' : Forall2 (fun m s => shape (srows s) (scols s) m (sentry s)) mats ss).
  { clear HC. induction HF; constructor; auto. now apply shows_shape. }
  unfold join_rows. assert (E1 : forallb (fun m => q =? cols m) mats = true).
  { clear HF. induction HF' as [|m s mats ss Hm HF IH]; auto. cbn. inversion HC; subst. rewrite IH by auto. destruct Hm as (_ & -> & _). now rewrite Nat.eqb_refl. }
  rewrite E1, fold_rows. assert (E2 : list_sum (map rows mats) = sum_rows ss).
  { clear HF HC E1. unfold sum_rows, list_sum. induction HF' as [|m s mats ss Hm HF IH]; auto. cbn. destruct Hm as (-> & _). now rewrite IH. }
  rewrite E2. cbn [plus]. apply construct_shows. intros r c Hr Hc. rewrite (join_entry_eq d q mats ss 0 r c); auto; [|lia]. f_equal. f_equal. lia.
Qed.
Lemma join_rows_bad q (mats : list (matrix A)) m : In m mats -> cols m <> q -> join_rows q mats = None.
Proof.
  intros Hin Hne. unfold join_rows. replace (forallb _ mats) with false; auto. symmetry. apply not_true_is_false. rewrite forallb_forall. intros H.
  specialize (H m Hin). apply Nat.eqb_eq in H. congruence.
Qed.
Definition strans (s : smat A) : smat A := SMat (scols s) (srows s) (fun r c => sentry s c r).
Lemma beside_stacked d ss : forall r c, beside d ss r c = stacked d (map strans ss) c r.
Proof. induction ss as [|s ss IH]; intros r c; [reflexivity|]. cbn [beside map stacked strans srows sentry]. rewrite IH. reflexivity. Qed.
Lemma join_cols_shows (d : A) p mats ss : Forall2 shows mats ss -> Forall (fun s => srows s = p) ss ->
  exists j, join_cols p mats = Some j /\ shows j (SMat p (sum_cols ss) (beside d ss)).
Proof.
  intros HF HC. unfold join_cols. destruct (join_rows_shows d p (map transpose mats) (map strans ss)) as (j & E & S).
  - clear HC. induction HF as [|m s mats ss Hm HF IH]; cbn; constructor; auto. apply shows_shape in Hm. apply shows_shape. cbn. now apply shape_tr.
  - apply Forall_forall. intros s Hs. apply in_map_iff in Hs as (s' & <- & Hs'). cbn. rewrite Forall_forall in HC. auto.
  - rewrite E. cbn [obind]. exists (transpose j). split; auto. apply shows_shape. apply shows_shape in S. apply shape_tr in S. cbn in *.
    replace (sum_cols ss) with (sum_rows (map strans ss)). { apply (shape_ext _ _ _ _ _ S). intros. symmetry. apply beside_stacked. }
    unfold sum_rows, sum_cols. rewrite map_map. reflexivity.
Qed.
End H.

Section D.
Context {R : ring_ops}.
Notation T := (T R).
Notation mat := (matrix (RingSpec.T R)).
Lemma along_app (z : T) l1 : forall l2 r c, along_diag z (l1 ++ l2) r c =
  if (r <? sum_rows l1) && (c <? sum_cols l1) then along_diag z l1 r c
  else if (sum_rows l1 <=? r) && (sum_cols l1 <=? c) then along_diag z l2 (r - sum_rows l1) (c - sum_cols l1) else z.
Proof.
  unfold sum_rows, sum_cols, list_sum. induction l1 as [|s l1 IH]; intros l2 r c; cbn [app along_diag map fold_right].
  - cbn. now rewrite !Nat.sub_0_r.
  - set (p := srows s). set (q := scols s). set (P := fold_right Nat.add 0 (map srows l1)) in *. set (Q := fold_right Nat.add 0 (map scols l1)) in *.
    rewrite IH. rewrite !Nat.sub_add_distr.
    destruct (Nat.ltb_spec r p), (Nat.ltb_spec c q), (Nat.leb_spec p r), (Nat.leb_spec q c), (Nat.ltb_spec r (p + P)), (Nat.ltb_spec c (q + Q)), (Nat.leb_spec (p + P) r), (Nat.leb_spec (q + Q) c); cbn [andb]; try lia; auto;
    destruct (Nat.ltb_spec (r - p) P), (Nat.ltb_spec (c - q) Q), (Nat.leb_spec P (r - p)), (Nat.leb_spec Q (c - q)); cbn [andb]; try lia; auto.
Qed.
Lemma along_out (z : T) l : forall r c, sum_rows l <= r \/ sum_cols l <= c -> along_diag z l r c = z.
Proof.
  unfold sum_rows, sum_cols, list_sum. induction l as [|s l IH]; intros r c H; cbn [along_diag map fold_right] in *; auto.
  destruct (Nat.ltb_spec r (srows s)), (Nat.ltb_spec c (scols s)), (Nat.leb_spec (srows s) r), (Nat.leb_spec (scols s) c); cbn [andb]; try lia; auto. apply IH. lia.
Qed.
Lemma Forall2_app_split {X Y} (P : X -> Y -> Prop) l1 l2 ss : Forall2 P (l1 ++ l2) ss -> exists s1 s2, ss = s1 ++ s2 /\ Forall2 P l1 s1 /\ Forall2 P l2 s2.
Proof. intros H. apply Forall2_app_inv_l in H as (s1 & s2 & H1 & H2 & ->). eauto. Qed.
Lemma sum_rows_app {X} (a b : list (smat X)) : sum_rows (a ++ b) = sum_rows a + sum_rows b.
Proof. unfold sum_rows. rewrite map_app. apply list_sum_app. Qed.
Lemma sum_cols_app {X} (a b : list (smat X)) : sum_cols (a ++ b) = sum_cols a + sum_cols b.
Proof. unfold sum_cols. rewrite map_app. apply list_sum_app. Qed.
Lemma join_diag_shows fuel : forall (mats : list mat) ss, length mats < fuel -> Forall2 shows mats ss ->
  exists j, join_diag fuel mats = Some j /\ shows j (SMat (sum_rows ss) (sum_cols ss) (along_diag r0 ss)).
Proof.
  induction fuel as [|fuel IH]; intros mats ss Hf HF; [lia|]. cbn [join_diag].
  destruct mats as [|m1 [|m2 mats]].
  - inversion HF; subst. apply construct_shows. intros; cbn in *; lia.
  - inversion HF as [|? s ? ss' Hm HF']; subst. inversion HF'; subst. exists m1. split; auto.
    apply shows_shape in Hm. apply shows_shape. unfold sum_rows, sum_cols. cbn [srows scols sentry map list_sum fold_right along_diag]. rewrite !Nat.add_0_r.
    apply (shape_ext _ _ _ _ _ Hm). intros r c Hr Hc. apply Nat.ltb_lt in Hr, Hc. now rewrite Hr, Hc.
  - set (l := m1 :: m2 :: mats) in *. set (i := Nat.div2 (length l)).
    assert (Hi : 1 <= i < length l). { unfold i, l. cbn [length Nat.div2]. pose proof (Nat.div2_decr (length mats) (length mats) ltac:(lia)). lia. }
    rewrite <- (firstn_skipn i l) in HF. apply Forall2_app_split in HF as (s1 & s2 & -> & HF1 & HF2).
    assert (L1 : length (firstn i l) = i) by (apply firstn_length_le; lia). assert (L2 : length (skipn i l) = length l - i) by apply skipn_length.
    destruct (IH (firstn i l) s1 ltac:(lia) HF1) as (j1 & E1 & S1). destruct (IH (skipn i l) s2 ltac:(lia) HF2) as (j2 & E2 & S2).
    rewrite E1. cbn [obind]. rewrite E2. cbn [obind].
    apply shows_shape in S1 as (R1 & C1 & G1). apply shows_shape in S2 as (R2 & C2 & G2). cbn [srows scols sentry] in *.
    rewrite R1, R2, C1, C2, sum_rows_app, sum_cols_app. apply construct_shows. intros r c Hr Hc. rewrite along_app.
    destruct (Nat.ltb_spec r (sum_rows s1)), (Nat.ltb_spec c (sum_cols s1)), (Nat.leb_spec (sum_rows s1) r), (Nat.leb_spec (sum_cols s1) c); cbn [andb]; try lia; auto. apply G2; lia.
Qed.
End D.
