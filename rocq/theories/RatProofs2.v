(* intervals, boxes, the bisection generator *)
From Coq Require Import QArith Qround Qreals Reals ZArith List Bool Lia Lqa Lra Psatz Permutation.
From Verif Require Import RatModel.
Import ListNotations.

Lemma Q2R_le_iff a b : (Q2R a <= Q2R b)%R <-> a <= b. Proof. split; [apply Rle_Qle|apply Qle_Rle]. Qed.
Lemma min_list_spec l x : exists m, min_list (x :: l) = Some m /\ In m (x :: l) /\ forall y, In y (x :: l) -> m <= y.
Proof.
  unfold min_list. eexists. split; [reflexivity|]. revert x. induction l as [|y l IH]; intros x; cbn [fold_left].
  - split; [left; auto|]. intros z [<-|[]]. apply Qle_refl.
  - destruct (Qle_bool x y) eqn:E.
    + apply Qle_bool_iff in E. destruct (IH x) as [H1 H2]. split; [destruct H1; [left; auto|right; right; auto]|]. intros z [<-|[<-|Hz]]; [apply H2; left; auto| |apply H2; right; auto].
      apply (Qle_trans _ x); auto. apply H2. left; auto.
    + assert (E' : y <= x). { destruct (Qlt_le_dec x y) as [H|H]; auto. apply Qlt_le_weak in H. apply Qle_bool_iff in H. congruence. } destruct (IH y) as [H1 H2]. split; [right; auto|].
      intros z [<-|Hz]; [|apply H2; auto]. apply (Qle_trans _ y); auto. apply H2. left; auto.
Qed.
Lemma max_list_spec l x : exists m, max_list (x :: l) = Some m /\ In m (x :: l) /\ forall y, In y (x :: l) -> y <= m.
Proof.
  unfold max_list. eexists. split; [reflexivity|]. revert x. induction l as [|y l IH]; intros x; cbn [fold_left].
  - split; [left; auto|]. intros z [<-|[]]. apply Qle_refl.
  - destruct (Qle_bool x y) eqn:E.
    + apply Qle_bool_iff in E. destruct (IH y) as [H1 H2]. split; [right; auto|]. intros z [<-|Hz]; [|apply H2; auto]. apply (Qle_trans _ y); auto. apply H2. left; auto.
    + assert (E' : y <= x). { destruct (Qlt_le_dec x y) as [H|H]; auto. apply Qlt_le_weak in H. apply Qle_bool_iff in H. congruence. } destruct (IH x) as [H1 H2]. split; [destruct H1; [left; auto|right; right; auto]|].
      intros z [<-|[<-|Hz]]; [apply H2; left; auto| |apply H2; right; auto]. apply (Qle_trans _ x); auto. apply H2. left; auto.
Qed.
(* an affine function on an interval is bounded by its values at the ends *)
Lemma affine_le (u v a b x L : R) : (a <= x <= b)%R -> (L <= u + v * a)%R -> (L <= u + v * b)%R -> (L <= u + v * x)%R.
Proof. intros [H1 H2] Ha Hb. destruct (Rle_dec 0 v); nra. Qed.
Lemma affine_ge (u v a b x L : R) : (a <= x <= b)%R -> (u + v * a <= L)%R -> (u + v * b <= L)%R -> (u + v * x <= L)%R.
Proof. intros [H1 H2] Ha Hb. destruct (Rle_dec 0 v); nra. Qed.

Definition in_interval (i : interval) (x : R) : Prop := (Q2R (fst i) <= x <= Q2R (snd i))%R.
Lemma mul_intervals_spec a b : exists c, mul_intervals a b = Some c /\ (forall x y, in_interval a x -> in_interval b y -> in_interval c (x * y)%R) /\
  (exists x y, In x [fst a; snd a] /\ In y [fst b; snd b] /\ fst c == x * y) /\ (exists x y, In x [fst a; snd a] /\ In y [fst b; snd b] /\ snd c == x * y).
Proof.
  unfold mul_intervals. cbn [flat_map map app]. destruct (min_list_spec [fst a * snd b; snd a * fst b; snd a * snd b] (fst a * fst b)) as (lo & -> & I1 & L). destruct (max_list_spec [fst a * snd b; snd a * fst b; snd a * snd b] (fst a * fst b)) as (hi & -> & I2 & H).
  exists (lo, hi). split; auto. split.
  - intros x y Hx Hy. unfold in_interval in *. cbn [fst snd].
    assert (L' : forall z, In z [fst a * fst b; fst a * snd b; snd a * fst b; snd a * snd b] -> (Q2R lo <= Q2R z <= Q2R hi)%R) by (intros z Hz; split; apply Q2R_le_iff; auto). clear L H I1 I2.
    pose proof (L' (fst a * fst b) ltac:(cbn; auto)) as E1. pose proof (L' (fst a * snd b) ltac:(cbn; auto)) as E2. pose proof (L' (snd a * fst b) ltac:(cbn; auto)) as E3. pose proof (L' (snd a * snd b) ltac:(cbn; auto)) as E4.
    rewrite !Q2R_mult in *. split.
    + replace (x * y)%R with (0 + x * y)%R by ring. apply (affine_le 0 x (Q2R (fst b)) (Q2R (snd b))); auto.
      * replace (0 + x * Q2R (fst b))%R with (0 + Q2R (fst b) * x)%R by ring. apply (affine_le 0 _ (Q2R (fst a)) (Q2R (snd a))); auto; lra.
      * replace (0 + x * Q2R (snd b))%R with (0 + Q2R (snd b) * x)%R by ring. apply (affine_le 0 _ (Q2R (fst a)) (Q2R (snd a))); auto; lra.
    + replace (x * y)%R with (0 + x * y)%R by ring. apply (affine_ge 0 x (Q2R (fst b)) (Q2R (snd b))); auto.
      * replace (0 + x * Q2R (fst b))%R with (0 + Q2R (fst b) * x)%R by ring. apply (affine_ge 0 _ (Q2R (fst a)) (Q2R (snd a))); auto; lra.
      * replace (0 + x * Q2R (snd b))%R with (0 + Q2R (snd b) * x)%R by ring. apply (affine_ge 0 _ (Q2R (fst a)) (Q2R (snd a))); auto; lra.
  - assert (G : forall z, In z [fst a * fst b; fst a * snd b; snd a * fst b; snd a * snd b] -> exists x y, In x [fst a; snd a] /\ In y [fst b; snd b] /\ z == x * y).
    { intros z [<-|[<-|[<-|[<-|[]]]]]; do 2 eexists; (split; [|split; [|reflexivity]]); cbn; auto. }
    split; apply G; auto.
Qed.
(* ---------- boxes *)
Definition in_box (b : box) (x y : R) : Prop := (Q2R (b0 b) <= x <= Q2R (b1 b) /\ Q2R (b2 b) <= y <= Q2R (b3 b))%R.
(* a product of members lies between two products of endpoints *)
Lemma corner_le (a b c d x y : R) : (a <= x <= b)%R -> (c <= y <= d)%R -> exists u v, (u = a \/ u = b) /\ (v = c \/ v = d) /\ (u * v <= x * y)%R.
Proof.
  intros Hx Hy. assert (E : exists u, (u = a \/ u = b) /\ (u * y <= x * y)%R) by (destruct (Rle_dec 0 y); [exists a|exists b]; split; auto; nra). destruct E as (u & Hu & E1).
  assert (E : exists v, (v = c \/ v = d) /\ (u * v <= u * y)%R) by (destruct (Rle_dec 0 u); [exists c|exists d]; split; auto; nra). destruct E as (v & Hv & E2). exists u, v. split; auto. split; auto. lra.
Qed.
Lemma corner_ge (a b c d x y : R) : (a <= x <= b)%R -> (c <= y <= d)%R -> exists u v, (u = a \/ u = b) /\ (v = c \/ v = d) /\ (x * y <= u * v)%R.
Proof.
  intros Hx Hy. assert (E : exists u, (u = a \/ u = b) /\ (x * y <= u * y)%R) by (destruct (Rle_dec 0 y); [exists b|exists a]; split; auto; nra). destruct E as (u & Hu & E1).
  assert (E : exists v, (v = c \/ v = d) /\ (u * y <= u * v)%R) by (destruct (Rle_dec 0 u); [exists d|exists c]; split; auto; nra). destruct E as (v & Hv & E2). exists u, v. split; auto. split; auto. lra.
Qed.
Lemma in_pairs a b re1 im1 re2 im2 : In ((re1, im1), (re2, im2)) (pairs_of a b) <-> (re1 = b0 a \/ re1 = b1 a) /\ (im1 = b2 a \/ im1 = b3 a) /\ (re2 = b0 b \/ re2 = b1 b) /\ (im2 = b2 b \/ im2 = b3 b).
Proof.
  unfold pairs_of. rewrite in_flat_map. split.
  - intros (p & Hp & H). apply in_map_iff in H as (q & E & Hq). injection E as -> ->. unfold corners in *. cbn [In] in *. intuition congruence.
  - intros (H1 & H2 & H3 & H4). exists (re1, im1). split; [unfold corners; cbn [In]; destruct H1, H2; subst; auto|]. apply in_map_iff. exists (re2, im2). split; auto. unfold corners; cbn [In]; destruct H3, H4; subst; auto.
Qed.
Lemma Q2R_choice (P Q0 : Q) (u : R) : (u = Q2R P \/ u = Q2R Q0) -> exists q, (q = P \/ q = Q0) /\ u = Q2R q.
Proof. intros [->| ->]; eauto. Qed.
Lemma list_nonempty {A} (l : list A) x : In x l -> exists h t, l = h :: t. Proof. destruct l; [intros []|eauto]. Qed.
Lemma mul_boxes_spec a b : exists c, mul_boxes a b = Some c /\ (forall x1 y1 x2 y2, in_box a x1 y1 -> in_box b x2 y2 -> in_box c (x1 * x2 - y1 * y2)%R (x1 * y2 + y1 * x2)%R) /\
  forall e, In e [(b0 c, true); (b1 c, true); (b2 c, false); (b3 c, false)] ->
    exists re1 im1 re2 im2, (re1 = b0 a \/ re1 = b1 a) /\ (im1 = b2 a \/ im1 = b3 a) /\ (re2 = b0 b \/ re2 = b1 b) /\ (im2 = b2 b \/ im2 = b3 b) /\
      fst e = if snd e then re1 * re2 - im1 * im2 else re1 * im2 + im1 * re2.
Proof.
  unfold mul_boxes. set (re := map _ (pairs_of a b)). set (im := map _ (pairs_of a b)).
  assert (Hre : forall z, In z re <-> exists re1 im1 re2 im2, ((re1 = b0 a \/ re1 = b1 a) /\ (im1 = b2 a \/ im1 = b3 a) /\ (re2 = b0 b \/ re2 = b1 b) /\ (im2 = b2 b \/ im2 = b3 b)) /\ z = re1 * re2 - im1 * im2).
  { intros z. unfold re. rewrite in_map_iff. split; [intros ([[r1 i1] [r2 i2]] & E & H)|intros (r1 & i1 & r2 & i2 & H & E)]; [exists r1, i1, r2, i2; split; auto; apply in_pairs; auto|exists ((r1, i1), (r2, i2)); split; auto; apply in_pairs; auto]. }
  assert (Him : forall z, In z im <-> exists re1 im1 re2 im2, ((re1 = b0 a \/ re1 = b1 a) /\ (im1 = b2 a \/ im1 = b3 a) /\ (re2 = b0 b \/ re2 = b1 b) /\ (im2 = b2 b \/ im2 = b3 b)) /\ z = re1 * im2 + im1 * re2).
  { intros z. unfold im. rewrite in_map_iff. split; [intros ([[r1 i1] [r2 i2]] & E & H)|intros (r1 & i1 & r2 & i2 & H & E)]; [exists r1, i1, r2, i2; split; auto; apply in_pairs; auto|exists ((r1, i1), (r2, i2)); split; auto; apply in_pairs; auto]. }
  assert (R1 : exists h t, re = h :: t) by (eexists; eexists; reflexivity). destruct R1 as (h & t & R1). assert (I1 : exists h t, im = h :: t) by (eexists; eexists; reflexivity). destruct I1 as (h' & t' & I1).
  clearbody re im. destruct (min_list_spec t h) as (m0 & M0 & N0 & L0). destruct (max_list_spec t h) as (m1 & M1 & N1 & L1). destruct (min_list_spec t' h') as (m2 & M2 & N2 & L2). destruct (max_list_spec t' h') as (m3 & M3 & N3 & L3).
  rewrite <- R1 in *. rewrite <- I1 in *. rewrite M0, M1, M2, M3. exists (mkBox m0 m1 m2 m3). split; auto. cbn [b0 b1 b2 b3]. split.
  - intros x1 y1 x2 y2 [X1 Y1] [X2 Y2]. unfold in_box. cbn [b0 b1 b2 b3]. split; split.
    + destruct (corner_le _ _ _ _ x1 x2 X1 X2) as (u & v & Hu & Hv & E1). destruct (corner_ge _ _ _ _ y1 y2 Y1 Y2) as (u' & v' & Hu' & Hv' & E2).
      apply Q2R_choice in Hu as (qu & Cu & ->). apply Q2R_choice in Hv as (qv & Cv & ->). apply Q2R_choice in Hu' as (qu' & Cu' & ->). apply Q2R_choice in Hv' as (qv' & Cv' & ->).
      assert (H : m0 <= qu * qv - qu' * qv') by (apply L0, Hre; do 4 eexists; split; [|reflexivity]; auto). apply Q2R_le_iff in H. rewrite Q2R_minus, !Q2R_mult in H. lra.
    + destruct (corner_ge _ _ _ _ x1 x2 X1 X2) as (u & v & Hu & Hv & E1). destruct (corner_le _ _ _ _ y1 y2 Y1 Y2) as (u' & v' & Hu' & Hv' & E2).
      apply Q2R_choice in Hu as (qu & Cu & ->). apply Q2R_choice in Hv as (qv & Cv & ->). apply Q2R_choice in Hu' as (qu' & Cu' & ->). apply Q2R_choice in Hv' as (qv' & Cv' & ->).
      assert (H : qu * qv - qu' * qv' <= m1) by (apply L1, Hre; do 4 eexists; split; [|reflexivity]; auto). apply Q2R_le_iff in H. rewrite Q2R_minus, !Q2R_mult in H. lra.
    + destruct (corner_le _ _ _ _ x1 y2 X1 Y2) as (u & v & Hu & Hv & E1). destruct (corner_le _ _ _ _ y1 x2 Y1 X2) as (u' & v' & Hu' & Hv' & E2).
      apply Q2R_choice in Hu as (qu & Cu & ->). apply Q2R_choice in Hv as (qv & Cv & ->). apply Q2R_choice in Hu' as (qu' & Cu' & ->). apply Q2R_choice in Hv' as (qv' & Cv' & ->).
      assert (H : m2 <= qu * qv + qu' * qv') by (apply L2, Him; exists qu, qu', qv', qv; auto). apply Q2R_le_iff in H. rewrite Q2R_plus, !Q2R_mult in H. lra.
    + destruct (corner_ge _ _ _ _ x1 y2 X1 Y2) as (u & v & Hu & Hv & E1). destruct (corner_ge _ _ _ _ y1 x2 Y1 X2) as (u' & v' & Hu' & Hv' & E2).
      apply Q2R_choice in Hu as (qu & Cu & ->). apply Q2R_choice in Hv as (qv & Cv & ->). apply Q2R_choice in Hu' as (qu' & Cu' & ->). apply Q2R_choice in Hv' as (qv' & Cv' & ->).
      assert (H : qu * qv + qu' * qv' <= m3) by (apply L3, Him; exists qu, qu', qv', qv; auto). apply Q2R_le_iff in H. rewrite Q2R_plus, !Q2R_mult in H. lra.
  - intros e [<-|[<-|[<-|[<-|[]]]]]; cbn [fst snd].
    + apply Hre in N0 as (r1 & i1 & r2 & i2 & H & E). exists r1, i1, r2, i2. tauto.
    + apply Hre in N1 as (r1 & i1 & r2 & i2 & H & E). exists r1, i1, r2, i2. tauto.
    + apply Him in N2 as (r1 & i1 & r2 & i2 & H & E). exists r1, i1, r2, i2. tauto.
    + apply Him in N3 as (r1 & i1 & r2 & i2 & H & E). exists r1, i1, r2, i2. tauto.
Qed.

(* ---------- bisection generator *)
Lemma pop_spec {A} (l : list A) : match pop l with None => l = [] | Some (l', x) => l = l' ++ [x] end.
Proof. induction l as [|a l IH]; cbn [pop]; auto. destruct l as [|b l]; [reflexivity|]. destruct (pop (b :: l)) as [[l' x]|]; [rewrite IH; reflexivity|discriminate]. Qed.
(* all the regions, forgetting the keys *)
Definition flat (m : regions) : list (Q * Q) := flat_map snd m.
Lemma add_at_perm m key x : Permutation (flat (add_at m key x)) (x :: flat m).
Proof.
  induction m as [|[k v] m IH]; cbn [add_at flat flat_map snd app]; [auto|]. destruct (key ?= k); cbn [flat flat_map snd app].
  - rewrite <- app_assoc. cbn [app]. apply Permutation_sym, Permutation_middle.
  - reflexivity.
  - change (flat_map snd (add_at m key x)) with (flat (add_at m key x)). rewrite IH. apply Permutation_sym, Permutation_middle.
Qed.
(* vectors are never empty *)
Definition nonempty_entries (m : regions) : Prop := forall k v, In (k, v) m -> v <> [].
Lemma add_at_nonempty m key x : nonempty_entries m -> nonempty_entries (add_at m key x).
Proof.
  unfold nonempty_entries. induction m as [|[k v] m IH]; cbn [add_at]; intros H k' v' Hin.
  - destruct Hin as [E|[]]. injection E as <- <-. discriminate.
  - assert (H' : forall k v, In (k, v) m -> v <> []) by (intros; apply (H k0); right; auto). destruct (key ?= k); cbn [In] in Hin.
    + destruct Hin as [E|Hin]; [injection E as <- <-; destruct v; discriminate|apply (H k'); right; auto].
    + destruct Hin as [E|Hin]; [injection E as <- <-; discriminate|apply (H k'); auto].
    + destruct Hin as [E|Hin]; [injection E as <- <-; apply (H k); left; auto|apply (IH H' k'); auto].
Qed.
Lemma gen_next_spec simplest m : nonempty_entries m -> flat m <> [] ->
  exists a b rest m', gen_next simplest m = Some (simplest a b, m') /\ Permutation (flat m) ((a, b) :: rest) /\ Permutation (flat m') ((a, simplest a b) :: (simplest a b, b) :: rest) /\ nonempty_entries m'.
Proof.
  intros NE Hne. unfold gen_next. pose proof (pop_spec m) as P. destruct (pop m) as [[m' [key v]]|]; [|subst m; cbn in Hne; congruence]. subst m.
  pose proof (pop_spec v) as Pv. destruct (pop v) as [[v' [a b]]|]; [|exfalso; apply (NE key v); auto; apply in_or_app; right; left; auto]. subst v.
  assert (NE' : nonempty_entries m') by (intros k v Hin; apply (NE k); apply in_or_app; auto).
  set (m1 := match v' with [] => m' | _ => m' ++ [(key, v')] end). assert (F1 : flat m1 = flat m' ++ v'). { unfold m1, flat. destruct v'; [rewrite app_nil_r; auto|]. rewrite flat_map_app. cbn [flat_map snd]. rewrite app_nil_r. auto. }
  assert (NE1 : nonempty_entries m1). { unfold m1. destruct v' as [|x v']; auto. intros k v Hin. apply in_app_or in Hin as [Hin|[E|[]]]; [apply (NE' k); auto|]. injection E as <- <-. discriminate. }
  exists a, b, (flat m' ++ v'), (add_region (add_region m1 a (simplest a b)) (simplest a b) b). split; auto. split; [|split].
  - unfold flat. rewrite flat_map_app. cbn [flat_map snd]. rewrite app_nil_r, app_assoc. apply Permutation_sym, Permutation_cons_append.
  - unfold add_region. rewrite !add_at_perm, F1. apply perm_swap.
  - apply add_at_nonempty, add_at_nonempty. auto.
Qed.
Lemma gen_run simplest : (forall a b, a < b -> a < simplest a b < b) -> forall n m, nonempty_entries m -> flat m <> [] -> (forall a b, In (a, b) (flat m) -> a < b) ->
  exists l m', gen_take simplest n m = Some (l, m') /\ length l = n /\ flat m' <> [] /\ nonempty_entries m' /\ (forall a b, In (a, b) (flat m') -> a < b) /\
    (* every point strictly inside an old region is yielded exactly once or lies strictly inside exactly one new region; nothing else is yielded *)
    forall x, length (filter (fun r => if Qlt_le_dec (fst r) x then if Qlt_le_dec x (snd r) then true else false else false) (flat m)) =
              (length (filter (fun y => Qeq_bool x y) l) + length (filter (fun r => if Qlt_le_dec (fst r) x then if Qlt_le_dec x (snd r) then true else false else false) (flat m')))%nat.
Proof.
  intros HS. induction n as [|n IH]; intros m NE Hne Hlt; cbn [gen_take]; [exists [], m; repeat (split; auto)|].
  destruct (gen_next_spec simplest m NE Hne) as (a & b & rest & m' & E & P1 & P2 & NE'). rewrite E.
  assert (Hab : a < b) by (apply Hlt; rewrite P1; left; auto). destruct (HS a b Hab) as [S1 S2]. set (c := simplest a b) in *.
  destruct (IH m') as (l & m2 & E2 & L2 & F2 & NE2 & Lt2 & C2); auto.
  { intros F. rewrite F in P2. apply Permutation_nil in P2. discriminate. }
  { intros u v Huv. rewrite P2 in Huv. destruct Huv as [E'|[E'|Huv]]; [injection E' as <- <-; auto|injection E' as <- <-; auto|]. apply Hlt. rewrite P1. right; auto. }
  rewrite E2. exists (c :: l), m2. split; auto. split; [cbn; lia|]. split; auto. split; auto. split; auto. intros x. specialize (C2 x). set (inside := fun r : Q * Q => _) in *.
  assert (LP : forall u v, Permutation u v -> length (filter inside u) = length (filter inside v)).
  { intros u v P. apply Permutation_length. clear -P. induction P; cbn; auto; [destruct (inside x0); auto|destruct (inside y), (inside x0); auto; apply perm_swap|etransitivity; eauto]. }
  rewrite (LP _ _ P1). rewrite (LP _ _ P2) in C2. cbn [filter] in *. destruct (Qeq_bool x c) eqn:Exc.
  - apply Qeq_bool_iff in Exc. assert (I1 : inside (a, b) = true). { unfold inside. cbn [fst snd]. destruct (Qlt_le_dec a x) as [|H]; [|exfalso; rewrite Exc in H; apply (Qlt_not_le a c); auto]. destruct (Qlt_le_dec x b) as [|H']; auto. exfalso. rewrite Exc in H'. apply (Qlt_not_le c b); auto. }
    assert (I2 : inside (a, c) = false). { unfold inside. cbn [fst snd]. destruct (Qlt_le_dec a x); auto. destruct (Qlt_le_dec x c) as [H'|]; auto. exfalso. rewrite Exc in H'. apply (Qlt_irrefl c); auto. }
    assert (I3 : inside (c, b) = false). { unfold inside. cbn [fst snd]. destruct (Qlt_le_dec c x) as [H'|]; auto. exfalso. rewrite Exc in H'. apply (Qlt_irrefl c); auto. }
    rewrite I1. rewrite I2, I3 in C2. cbn [length]. lia.
  - assert (Exc' : ~ x == c) by (intros E'; apply Qeq_bool_iff in E'; congruence). destruct (inside (a, b)) eqn:I1.
    + assert (I : (inside (a, c) = true /\ inside (c, b) = false) \/ (inside (a, c) = false /\ inside (c, b) = true)).
      { unfold inside in *. cbn [fst snd] in *. destruct (Qlt_le_dec a x) as [Hax|]; [|discriminate]. destruct (Qlt_le_dec x b) as [Hxb|]; [|discriminate]. destruct (Qlt_le_dec x c) as [Hxc|Hxc].
        - left. split; auto. destruct (Qlt_le_dec c x) as [H'|]; auto. exfalso. apply (Qlt_irrefl x). apply (Qlt_trans x c x); auto.
        - right. split; auto. destruct (Qlt_le_dec c x) as [H'|H']; auto. exfalso. apply Exc'. apply Qle_antisym; auto. }
      destruct I as [[I I']|[I I']]; rewrite I, I' in C2; cbn [length] in *; lia.
    + assert (I2 : inside (a, c) = false). { unfold inside in *. cbn [fst snd] in *. destruct (Qlt_le_dec a x); auto. destruct (Qlt_le_dec x b) as [|H']; [discriminate|]. destruct (Qlt_le_dec x c) as [H2|]; auto. exfalso. apply (Qlt_not_le x b); auto. apply (Qlt_trans x c b); auto. }
      assert (I3 : inside (c, b) = false). { unfold inside in *. cbn [fst snd] in *. destruct (Qlt_le_dec x b); [|destruct (Qlt_le_dec c x); auto]. destruct (Qlt_le_dec a x) as [|H']; [discriminate|]. destruct (Qlt_le_dec c x) as [H2|]; auto. exfalso. apply (Qlt_not_le a x); auto. apply (Qlt_trans a c x); auto. }
      rewrite I2, I3 in C2. lia.
Qed.
