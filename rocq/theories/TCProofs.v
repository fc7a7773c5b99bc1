(* Invariants of the coset graph. *)
From Coq Require Import List Arith Lia Bool.
From Verif Require Import TCSpec TCModel.
Import ListNotations.

Lemma setn_length {A} (l : list A) i v : length (setn l i v) = length l.
Proof. revert i. induction l as [|x l IH]; intros [|i]; cbn; auto. Qed.
Lemma nth_setn {A} (l : list A) i v j d : nth j (setn l i v) d = if (j =? i) && (i <? length l) then v else nth j l d.
Proof.
  revert i j. induction l as [|x l IH]; intros [|i] [|j]; cbn; auto.
  - destruct (j =? i); reflexivity.
  - rewrite IH. reflexivity.
Qed.
Record wf (ng : nat) (s : sg) : Prop := {
  wf_len : length (nbs s) = length (ids s);
  wf_id : forall i, i < length (ids s) -> idOf s i <= i;
  wf_row : forall i, i < length (ids s) -> length (nth i (nbs s) []) = 2 * ng;
  wf_nb : forall i d x, nb s i d = Some x -> i < length (ids s) /\ d < 2 * ng /\ x < length (ids s);
}.
Lemma idOf_set_id s c v i : idOf (set_id s c v) i = if (i =? c) && (c <? length (ids s)) then v else idOf s i.
Proof. apply nth_setn. Qed.
Lemma nb_set_id s c v i d : nb (set_id s c v) i d = nb s i d. Proof. reflexivity. Qed.
Lemma len_set_id s c v : length (ids (set_id s c v)) = length (ids s). Proof. apply setn_length. Qed.
Lemma idOf_set_nb s c d v i : idOf (set_nb s c d v) i = idOf s i. Proof. reflexivity. Qed.
Lemma len_set_nb s c d v : length (ids (set_nb s c d v)) = length (ids s). Proof. reflexivity. Qed.
Lemma nb_set_nb ng s c d v i e : wf ng s -> c < length (ids s) -> d < 2 * ng -> nb (set_nb s c d v) i e = if (i =? c) && (e =? d) then v else nb s i e.
Proof.
  intros W Hc Hd. unfold nb, set_nb. cbn [nbs]. rewrite nth_setn. rewrite (wf_len _ _ W). destruct (Nat.ltb_spec c (length (ids s))); [|lia]. rewrite andb_true_r.
  destruct (Nat.eqb_spec i c) as [->|]; cbn [andb]; auto. rewrite nth_setn, (wf_row _ _ W) by auto. destruct (Nat.ltb_spec d (2 * ng)); [|lia]. rewrite andb_true_r. reflexivity.
Qed.
Lemma wf_set_nb ng s c d v : wf ng s -> c < length (ids s) -> d < 2 * ng -> (forall x, v = Some x -> x < length (ids s)) -> wf ng (set_nb s c d v).
Proof.
  intros W Hc Hd Hv. constructor; cbn [set_nb ids nbs].
  - rewrite setn_length. apply W.
  - apply W.
  - intros i Hi. rewrite nth_setn. destruct (_ && _) eqn:E; [|apply W; auto]. rewrite setn_length. apply W; auto.
  - intros i e x E. fold (set_nb s c d v) in E. rewrite (nb_set_nb ng) in E by auto. destruct (_ && _) eqn:Q; [|apply (wf_nb _ _ W) in E; auto].
    apply andb_true_iff in Q as [Q1 Q2]. apply Nat.eqb_eq in Q1, Q2. subst. auto.
Qed.
Lemma wf_set_id ng s c v : wf ng s -> v <= c -> wf ng (set_id s c v).
Proof.
  intros W Hv. constructor; rewrite ?len_set_id; try apply W.
  intros i Hi. rewrite idOf_set_id. destruct (_ && _) eqn:Q; [|apply W; auto]. apply andb_true_iff in Q as [Q1 Q2]. apply Nat.eqb_eq in Q1. lia.
Qed.
Lemma find_fuel_spec ng s : wf ng s -> forall f c, c < f -> c < length (ids s) -> find_fuel f s c <= c /\ idOf s (find_fuel f s c) = find_fuel f s c.
Proof.
  intros W. induction f as [|f IH]; intros c Hf Hc; [lia|]. cbn [find_fuel]. destruct (Nat.eqb_spec (idOf s c) c) as [E|E]; [auto|].
  pose proof (wf_id _ _ W c Hc). destruct (IH (idOf s c)) as [H1 H2]; [lia|lia|]. split; [lia|auto].
Qed.
Lemma find_spec ng s c : wf ng s -> c < length (ids s) -> find s c <= c /\ idOf s (find s c) = find s c.
Proof. intros W Hc. apply (find_fuel_spec ng); auto. Qed.
Lemma find_lt ng s c : wf ng s -> c < length (ids s) -> find s c < length (ids s).
Proof. intros W Hc. pose proof (find_spec ng s c W Hc). lia. Qed.
Lemma find_live s c : idOf s c = c -> find s c = c.
Proof. intros H. unfold find. cbn. rewrite H, Nat.eqb_refl. reflexivity. Qed.
(* find satisfies its loop equation *)
Lemma find_fuel_irr ng s : wf ng s -> forall f g c, c < f -> c < g -> c < length (ids s) -> find_fuel f s c = find_fuel g s c.
Proof.
  intros W. induction f as [|f IH]; intros [|g] c Hf Hg Hc; try lia. cbn [find_fuel]. destruct (Nat.eqb_spec (idOf s c) c); auto.
  pose proof (wf_id _ _ W c Hc). apply IH; lia.
Qed.
Lemma find_step ng s c : wf ng s -> c < length (ids s) -> find s c = find s (idOf s c).
Proof.
  intros W Hc. pose proof (wf_id _ _ W c Hc). unfold find at 1. cbn [find_fuel]. destruct (Nat.eqb_spec (idOf s c) c) as [E|E].
  - rewrite E. symmetry. apply find_live; auto.
  - apply (find_fuel_irr ng); auto; lia.
Qed.

(* ---------- number of live cosets *)
Definition lives (s : sg) : nat := length (live_cosets s).
Lemma filter_ext_len {A} (f g : A -> bool) l : (forall x, In x l -> f x = true -> g x = true) -> length (filter f l) <= length (filter g l).
Proof.
  induction l as [|x l IH]; intros H; cbn; auto. assert (length (filter f l) <= length (filter g l)) by (apply IH; intros; apply H; cbn; auto).
  destruct (f x) eqn:E; [rewrite (H x) by (cbn; auto)|destruct (g x)]; cbn; lia.
Qed.
Lemma filter_strict {A} (f g : A -> bool) l x : In x l -> f x = false -> g x = true -> (forall x, In x l -> f x = true -> g x = true) -> length (filter f l) < length (filter g l).
Proof.
  induction l as [|y l IH]; intros Hin Hf Hg H; [destruct Hin|]. assert (length (filter f l) <= length (filter g l)) by (apply filter_ext_len; intros; apply H; cbn; auto).
  cbn. destruct Hin as [->|Hin].
  - rewrite Hf, Hg. cbn. lia.
  - assert (length (filter f l) < length (filter g l)) by (apply IH; auto; intros; apply H; cbn; auto). destruct (f y) eqn:E; [rewrite (H y) by (cbn; auto)|destruct (g y)]; cbn; lia.
Qed.
Lemma lives_set_nb s c d v : lives (set_nb s c d v) = lives s. Proof. reflexivity. Qed.
Lemma lives_kill s b a : b < length (ids s) -> idOf s b = b -> a <> b -> lives (set_id s b a) < lives s.
Proof.
  intros Hb Hl Hab. unfold lives, live_cosets. rewrite len_set_id. apply filter_strict with b.
  - apply in_seq. lia.
  - rewrite idOf_set_id. destruct (Nat.ltb_spec b (length (ids s))); [|lia]. rewrite Nat.eqb_refl. cbn. apply Nat.eqb_neq. auto.
  - apply Nat.eqb_eq. auto.
  - intros i _. rewrite idOf_set_id. destruct ((i =? b) && _) eqn:Q; auto. apply andb_true_iff in Q as [Q _]. apply Nat.eqb_eq in Q. subst. intros E. apply Nat.eqb_eq in E. congruence.
Qed.
Lemma lives_len s : lives s <= length (ids s).
Proof. unfold lives, live_cosets. rewrite <- (seq_length (length (ids s)) 0) at 2. generalize (seq 0 (length (ids s))). induction l as [|x l IH]; cbn; auto. destruct (_ =? _); cbn; lia. Qed.

(* ---------- the semantics of cosets: a word for each *)
Section S.
Variables (ng : nat) (rels subs : list (list nat)).
Notation "u ~ v" := (coset_eq ng rels subs u v) (at level 70).
Definition Sound (phi : nat -> list nat) (s : sg) : Prop :=
  (forall i, i < length (ids s) -> phi (idOf s i) ~ phi i) /\ (forall i d x, nb s i d = Some x -> d :: phi i ~ phi x) /\ phi 0 = [] /\ 0 < length (ids s).
Lemma Sound_find phi s c : wf ng s -> Sound phi s -> c < length (ids s) -> phi (find s c) ~ phi c.
Proof.
  intros W Hs Hc. unfold find. assert (G : forall f c, c < f -> c < length (ids s) -> phi (find_fuel f s c) ~ phi c); [|apply G; lia].
  induction f as [|f IH]; intros x Hf Hx; [lia|]. cbn [find_fuel]. destruct (Nat.eqb_spec (idOf s x) x); [apply ce_refl|].
  pose proof (wf_id _ _ W x Hx). apply ce_trans with (phi (idOf s x)); [apply IH; lia|]. apply Hs; auto.
Qed.
Lemma unify_spec : forall fuel s c1 c2, wf ng s -> c1 < length (ids s) -> c2 < length (ids s) -> lives s < fuel ->
  exists s', unify_fuel fuel ng s c1 c2 = Some s' /\ wf ng s' /\ length (ids s') = length (ids s) /\ lives s' <= lives s /\
    (forall i, idOf s' i = i -> idOf s i = i) /\
    (forall i d, nb s i d <> None -> nb s' i d = nb s i d) /\
    (forall phi, Sound phi s -> phi c1 ~ phi c2 -> Sound phi s').
Proof.
  induction fuel as [|fuel IH]; intros s c1 c2 W H1 H2 Hl; [lia|]. cbn [unify_fuel].
  pose proof (find_lt _ _ _ W H1) as L1. pose proof (find_lt _ _ _ W H2) as L2.
  pose proof (proj2 (find_spec _ _ _ W H1)) as F1. pose proof (proj2 (find_spec _ _ _ W H2)) as F2.
  destruct (Nat.eqb_spec (find s c1) (find s c2)) as [E|E].
  { exists s. repeat (split; auto). }
  assert (Hab : exists a b, (if find s c2 <? find s c1 then (find s c2, find s c1) else (find s c1, find s c2)) = (a, b) /\ a < b /\ b < length (ids s) /\ idOf s b = b /\
     forall phi, Sound phi s -> phi c1 ~ phi c2 -> phi a ~ phi b).
  { assert (Hp : forall phi, Sound phi s -> phi c1 ~ phi c2 -> phi (find s c1) ~ phi (find s c2)).
    { intros phi Hs Hc. apply ce_trans with (phi c1); [apply Sound_find; auto|]. apply ce_trans with (phi c2); auto. apply ce_sym, Sound_find; auto. }
    destruct (Nat.ltb_spec (find s c2) (find s c1)); do 2 eexists; (split; [reflexivity|]); repeat split; auto; try lia. intros. apply ce_sym, Hp; auto. }
  destruct Hab as (a & b & -> & Hab & Hb & Fb & Hphi).
  set (s1 := set_id s b a). assert (W1 : wf ng s1) by (apply wf_set_id; auto; lia).
  assert (Ll : lives s1 < lives s) by (apply lives_kill; auto; lia).
  assert (S1 : forall phi, Sound phi s -> phi c1 ~ phi c2 -> Sound phi s1 /\ phi a ~ phi b).
  { intros phi Hs Hc. specialize (Hphi phi Hs Hc). split; auto. destruct Hs as (A1 & A2 & A3 & A4). unfold s1. split; [|split; [|split]]; auto; [|rewrite len_set_id; auto].
    intros i Hi. rewrite len_set_id in Hi. rewrite idOf_set_id. destruct (_ && _) eqn:Q; auto. apply andb_true_iff in Q as [Q _]. apply Nat.eqb_eq in Q. subst i. auto. }
  assert (G : forall ds t, (forall d, In d ds -> d < 2 * ng) -> wf ng t -> length (ids t) = length (ids s) -> lives t < fuel ->
    exists s', loopM (fun s d => match nb s a d with None => Some (set_nb s a d (nb s b d)) | Some n1 => match nb s b d with None => Some s | Some n2 => unify_fuel fuel ng s n1 n2 end end) ds t = Some s' /\
     wf ng s' /\ length (ids s') = length (ids t) /\ lives s' <= lives t /\ (forall i, idOf s' i = i -> idOf t i = i) /\ (forall i d, nb t i d <> None -> nb s' i d = nb t i d) /\
     (forall phi, Sound phi t -> phi a ~ phi b -> Sound phi s')).
  { induction ds as [|d ds IHd]; intros t Hds Wt Ht Hlt; cbn [loopM].
    - exists t. repeat (split; auto).
    - assert (Hd : d < 2 * ng) by (apply Hds; left; auto).
      assert (K : exists t', match nb t a d with None => Some (set_nb t a d (nb t b d)) | Some n1 => match nb t b d with None => Some t | Some n2 => unify_fuel fuel ng t n1 n2 end end = Some t' /\
        wf ng t' /\ length (ids t') = length (ids t) /\ lives t' <= lives t /\ (forall i, idOf t' i = i -> idOf t i = i) /\ (forall i d, nb t i d <> None -> nb t' i d = nb t i d) /\ (forall phi, Sound phi t -> phi a ~ phi b -> Sound phi t')).
      { destruct (nb t a d) as [n1|] eqn:E1; [destruct (nb t b d) as [n2|] eqn:E2|].
        - pose proof (wf_nb _ _ Wt _ _ _ E1). pose proof (wf_nb _ _ Wt _ _ _ E2).
          destruct (IH t n1 n2) as (s' & A1 & A2 & A3 & A4 & A5 & A6 & A7); auto; try tauto. exists s'. split; auto. split; auto. split; auto. split; auto. split; auto. split; auto.
          intros phi Hs Hc. apply A7; auto. apply ce_trans with (d :: phi a); [apply ce_sym, Hs; auto|]. apply ce_trans with (d :: phi b); [apply ce_left; auto|]. apply Hs; auto.
        - exists t. repeat (split; auto).
        - eexists. split; [reflexivity|]. split. { apply wf_set_nb; auto; [lia|]. intros x Hx. apply (wf_nb _ _ Wt _ _ _ Hx). }
          split; [reflexivity|]. split; [reflexivity|]. split; [auto|]. split.
          + intros i e He. rewrite (nb_set_nb ng) by (auto; lia). destruct (_ && _) eqn:Q; auto. apply andb_true_iff in Q as [Q1 Q2]. apply Nat.eqb_eq in Q1, Q2. subst. congruence.
          + intros phi (B1 & B2 & B3 & B4) Hc. split; [|split; [|split]]; auto.
            intros i e x. rewrite (nb_set_nb ng) by (auto; lia). destruct (_ && _) eqn:Q; auto. apply andb_true_iff in Q as [Q1 Q2]. apply Nat.eqb_eq in Q1, Q2. subst. intros Ex.
            apply ce_trans with (d :: phi b); [apply ce_left; auto|auto]. }
      destruct K as (t' & -> & B1 & B2 & B3 & B4 & B5 & B6).
      destruct (IHd t') as (s' & C1 & C2 & C3 & C4 & C5 & C6 & C7); auto; [intros; apply Hds; cbn; auto|lia|lia|]. exists s'. split; auto. split; auto. split; [lia|]. split; [lia|]. split; auto. split; auto.
      intros i e He. rewrite C6; auto. rewrite B5; auto. }
  destruct (G (seq 0 (2 * ng)) s1) as (s' & C1 & C2 & C3 & C4 & C5 & C6 & C7); auto; [intros d Hd; apply in_seq in Hd; lia|apply len_set_id|lia|].
  exists s'. split; auto. split; auto. split; [rewrite C3; apply len_set_id|]. split; [lia|]. split; [|split; auto].
  - intros i Hi. apply C5 in Hi. unfold s1 in Hi. rewrite idOf_set_id in Hi. destruct ((i =? b) && _) eqn:Q; auto. apply andb_true_iff in Q as [Q _]. apply Nat.eqb_eq in Q. subst. auto.
  - intros phi Hs Hc. destruct (S1 phi Hs Hc). apply C7; auto.
Qed.
Lemma unify_total s c1 c2 : wf ng s -> c1 < length (ids s) -> c2 < length (ids s) ->
  exists s', unify ng s c1 c2 = Some s' /\ wf ng s' /\ length (ids s') = length (ids s) /\ lives s' <= lives s /\
    (forall i, idOf s' i = i -> idOf s i = i) /\ (forall i d, nb s i d <> None -> nb s' i d = nb s i d) /\ (forall phi, Sound phi s -> phi c1 ~ phi c2 -> Sound phi s').
Proof. intros W H1 H2. apply unify_spec; auto. pose proof (lives_len s). lia. Qed.

(* ---------- follow *)
Lemma wf_new s : wf ng s -> wf ng (new_coset ng s).
Proof.
  intros W. constructor; unfold new_coset, idOf, nb; cbn [ids nbs]; rewrite ?app_length; cbn [length].
  - rewrite (wf_len _ _ W). auto.
  - intros i Hi. destruct (Nat.lt_ge_cases i (length (ids s))); [rewrite app_nth1 by auto; apply W; auto|]. rewrite app_nth2 by auto. replace (i - length (ids s)) with 0 by lia. cbn. lia.
  - intros i Hi. destruct (Nat.lt_ge_cases i (length (ids s))); [rewrite app_nth1 by (rewrite (wf_len _ _ W); auto); apply W; auto|]. rewrite app_nth2, (wf_len _ _ W) by (rewrite (wf_len _ _ W); auto).
    replace (i - length (ids s)) with 0 by lia. cbn [nth]. apply repeat_length.
  - intros i d x. destruct (Nat.lt_ge_cases i (length (ids s))).
    + rewrite app_nth1 by (rewrite (wf_len _ _ W); auto). intros E. apply (wf_nb _ _ W) in E. lia.
    + rewrite app_nth2, (wf_len _ _ W) by (rewrite (wf_len _ _ W); auto). destruct (i - length (ids s)) as [|k]; cbn [nth].
      * rewrite nth_repeat. discriminate.
      * destruct k, d; discriminate.
Qed.
Lemma idOf_new s i : i <= length (ids s) -> idOf (new_coset ng s) i = if i =? length (ids s) then i else idOf s i.
Proof.
  intros Hi. unfold idOf, new_coset. cbn [ids]. destruct (Nat.eqb_spec i (length (ids s))) as [->|]; [rewrite app_nth2, Nat.sub_diag by auto; reflexivity|]. rewrite app_nth1 by lia. reflexivity.
Qed.
Lemma nb_new s i d : wf ng s -> nb (new_coset ng s) i d = nb s i d.
Proof.
  intros W. unfold nb, new_coset. cbn [nbs]. destruct (Nat.lt_ge_cases i (length (ids s))).
  - rewrite app_nth1 by (rewrite (wf_len _ _ W); auto). reflexivity.
  - rewrite app_nth2, (nth_overflow (nbs s)) by (rewrite (wf_len _ _ W); auto). rewrite (wf_len _ _ W). destruct (i - length (ids s)) as [|k]; cbn [nth].
    + rewrite nth_repeat. destruct d; auto.
    + destruct k; auto.
Qed.
Lemma len_new s : length (ids (new_coset ng s)) = S (length (ids s)).
Proof. cbn. rewrite app_length. cbn. lia. Qed.
Definition upd_phi (phi : nat -> list nat) (k : nat) (w : list nat) : nat -> list nat := fun i => if i =? k then w else phi i.
Lemma follow_spec s c d : wf ng s -> c < length (ids s) -> d < 2 * ng ->
  let s' := fst (follow ng s c d) in let x := snd (follow ng s c d) in
  wf ng s' /\ length (ids s) <= length (ids s') /\ x < length (ids s') /\ idOf s' x = x /\ nb s' (find s c) d <> None /\
  (forall i e, nb s i e <> None -> nb s' i e = nb s i e) /\ (forall i, i < length (ids s) -> idOf s' i = idOf s i) /\
  (forall phi, Sound phi s -> exists phi', Sound phi' s' /\ (forall i, i < length (ids s) -> phi' i = phi i) /\ d :: phi c ~ phi' x).
Proof.
  intros W Hc Hd. unfold follow. pose proof (find_lt _ _ _ W Hc) as Lc. destruct (nb s (find s c) d) as [nc|] eqn:E; cbn [fst snd]; cbn zeta.
  - pose proof (wf_nb _ _ W _ _ _ E) as (_ & _ & Hn). split; auto. split; auto. split; [eapply find_lt; eauto|]. split; [eapply find_spec; eauto|]. split; [congruence|]. split; auto. split; auto.
    intros phi Hs. exists phi. split; auto. split; auto. apply ce_trans with (d :: phi (find s c)); [apply ce_left, ce_sym, Sound_find; auto|].
    apply ce_trans with (phi nc); [apply Hs; auto|]. apply ce_sym, Sound_find; auto.
  - pose proof (wf_new s W) as Wn. pose proof (len_new s) as Ln. set (k := length (ids s)) in *. set (s1 := new_coset ng s) in *.
    assert (W2 : wf ng (set_nb s1 (find s c) d (Some k))) by (apply wf_set_nb; auto; [lia|intros x [= <-]; lia]).
    split; auto. split; [rewrite len_set_nb; lia|]. split; [rewrite len_set_nb; lia|]. split. { rewrite idOf_set_nb. unfold s1. rewrite idOf_new by (fold k; lia). fold k. rewrite Nat.eqb_refl. reflexivity. }
    split. { rewrite (nb_set_nb ng) by (auto; lia). rewrite !Nat.eqb_refl. discriminate. }
    split. { intros i e He. rewrite (nb_set_nb ng) by (auto; lia). destruct (_ && _) eqn:Q; [|apply nb_new; auto]. apply andb_true_iff in Q as [Q1 Q2]. apply Nat.eqb_eq in Q1, Q2. subst. congruence. }
    split. { intros i Hi. rewrite idOf_set_nb. unfold s1. rewrite idOf_new by lia. fold k. destruct (Nat.eqb_spec i k); [lia|reflexivity]. }
    intros phi (S1 & S2 & S3 & S4). exists (upd_phi phi k (d :: phi c)). unfold upd_phi. split; [|split].
    + split; [|split; [|split]].
      * intros i Hi. rewrite len_set_nb, Ln in Hi. rewrite idOf_set_nb. unfold s1. rewrite idOf_new by (fold k; lia). fold k. destruct (Nat.eqb_spec i k) as [->|Hik]; [rewrite Nat.eqb_refl; apply ce_refl|].
        pose proof (wf_id _ _ W i ltac:(fold k; lia)). destruct (Nat.eqb_spec (idOf s i) k); [lia|]. apply S1. fold k. lia.
      * intros i e x. rewrite (nb_set_nb ng) by (auto; lia). destruct (_ && _) eqn:Q.
        -- apply andb_true_iff in Q as [Q1 Q2]. apply Nat.eqb_eq in Q1, Q2. subst. intros [= <-]. rewrite Nat.eqb_refl. destruct (Nat.eqb_spec (find s c) k); [lia|]. apply ce_left. apply Sound_find; auto. repeat split; auto.
        -- unfold s1. rewrite nb_new by auto. intros Ex. pose proof (wf_nb _ _ W _ _ _ Ex) as (P1 & P2 & P3). fold k in P1, P3. destruct (Nat.eqb_spec i k); [lia|]. destruct (Nat.eqb_spec x k); [lia|]. auto.
      * destruct (Nat.eqb_spec 0 k); [lia|auto].
      * rewrite len_set_nb. lia.
    + intros i Hi. fold k in Hi. destruct (Nat.eqb_spec i k); [lia|auto].
    + rewrite Nat.eqb_refl. apply ce_refl.
Qed.
Lemma ce_app w u v : u ~ v -> w ++ u ~ w ++ v.
Proof. intros H. induction w as [|a w IH]; [exact H|]. cbn [app]. apply ce_left. exact IH. Qed.
Lemma follow_loop_spec : forall ds s c, wf ng s -> c < length (ids s) -> (forall d, In d ds -> d < 2 * ng) ->
  let s' := fst (follow_loop ng ds s c) in let x := snd (follow_loop ng ds s c) in
  wf ng s' /\ length (ids s) <= length (ids s') /\ x < length (ids s') /\
  (forall i e, nb s i e <> None -> nb s' i e = nb s i e) /\ (forall i, i < length (ids s) -> idOf s' i = idOf s i) /\
  (forall phi, Sound phi s -> exists phi', Sound phi' s' /\ (forall i, i < length (ids s) -> phi' i = phi i) /\ rev ds ++ phi c ~ phi' x).
Proof.
  induction ds as [|d ds IH]; intros s c W Hc Hds; cbn [follow_loop].
  - cbn. split; auto. split; auto. split; auto. split; auto. split; auto. intros phi Hs. exists phi. split; auto. split; auto. apply ce_refl.
  - destruct (follow_spec s c d W Hc) as (A1 & A2 & A3 & A4 & A5 & A6 & A7 & A8); [apply Hds; left; auto|]. destruct (follow ng s c d) as [s1 x1]. cbn [fst snd] in *.
    destruct (IH s1 x1 A1 A3) as (B1 & B2 & B3 & B4 & B5 & B6); [intros; apply Hds; cbn; auto|]. destruct (follow_loop ng ds s1 x1) as [s2 x2]. cbn [fst snd] in *. cbn zeta in *.
    split; auto. split; [lia|]. split; auto. split; [|split].
    + intros i e He. rewrite B4, A6; auto. rewrite A6; auto.
    + intros i Hi. rewrite B5 by lia. auto.
    + intros phi Hs. destruct (A8 phi Hs) as (phi1 & C1 & C2 & C3). destruct (B6 phi1 C1) as (phi2 & D1 & D2 & D3). exists phi2. split; auto. split; [intros i Hi; rewrite D2, C2; auto; lia|].
      cbn [rev]. rewrite <- app_assoc. cbn [app]. apply ce_trans with (rev ds ++ phi1 x1); auto. apply ce_app. exact C3.
Qed.
Lemma find_ext s s' c : (forall i, i <= c -> idOf s' i = idOf s i) -> wf ng s -> c < length (ids s) -> find s' c = find s c.
Proof.
  intros H W Hc. unfold find. assert (G : forall f x, x <= c -> x < length (ids s) -> find_fuel f s' x = find_fuel f s x); [|apply G; auto].
  induction f as [|f IH]; intros x Hx Hl; cbn [find_fuel]; auto. rewrite H by auto. destruct (_ =? _); auto. pose proof (wf_id _ _ W x Hl). apply IH; lia.
Qed.
(* one trace: word w from c, end identified with c *)
Lemma trace_spec s c w : wf ng s -> c < length (ids s) -> word ng w ->
  exists s', trace ng c s w = Some s' /\ wf ng s' /\ length (ids s) <= length (ids s') /\
    (forall i, i < length (ids s) -> idOf s' i = i -> idOf s i = i) /\ (forall i e, nb s i e <> None -> nb s' i e = nb s i e) /\
    (forall phi, Sound phi s -> w ++ phi c ~ phi c -> exists phi', Sound phi' s' /\ forall i, i < length (ids s) -> phi' i = phi i).
Proof.
  intros W Hc Hw. unfold trace, follow_path. pose proof (find_lt _ _ _ W Hc) as Lc.
  destruct (follow_loop_spec (rev w) s (find s c) W Lc) as (B1 & B2 & B3 & B4 & B5 & B6); [intros d Hd; apply Hw; apply in_rev; auto|].
  destruct (follow_loop ng (rev w) s (find s c)) as [s1 x1]. cbn [fst snd] in *. cbn zeta in *.
  destruct (unify_total s1 x1 c B1 B3) as (s' & C1 & C2 & C3 & C4 & C5 & C6 & C7); [lia|]. exists s'. split; auto. split; auto. split; [lia|]. split; [|split].
  - intros i Hi E. rewrite <- B5 by auto. auto.
  - intros i e He. rewrite C6; rewrite B4; auto.
  - intros phi Hs Hr. destruct (B6 phi Hs) as (phi1 & D1 & D2 & D3). exists phi1. split; auto. apply C7; auto. rewrite (D2 c Hc). apply ce_sym. apply ce_trans with (w ++ phi c); [apply ce_sym; exact Hr|].
    rewrite rev_involutive in D3. apply ce_trans with (w ++ phi (find s c)); auto. apply ce_app, ce_sym, Sound_find; auto.
Qed.
Lemma traces_spec : forall ws s c, wf ng s -> c < length (ids s) -> (forall w, In w ws -> word ng w) ->
  exists s', loopM (trace ng c) ws s = Some s' /\ wf ng s' /\ length (ids s) <= length (ids s') /\
    (forall i, i < length (ids s) -> idOf s' i = i -> idOf s i = i) /\ (forall i e, nb s i e <> None -> nb s' i e = nb s i e) /\
    (forall phi, Sound phi s -> (forall w, In w ws -> w ++ phi c ~ phi c) -> exists phi', Sound phi' s' /\ forall i, i < length (ids s) -> phi' i = phi i).
Proof.
  induction ws as [|w ws IH]; intros s c W Hc Hw; cbn [loopM].
  - exists s. split; auto. split; auto. split; auto. split; auto. split; auto. intros phi Hs _. exists phi. auto.
  - destruct (trace_spec s c w W Hc) as (s1 & -> & B1 & B2 & B3 & B4 & B5); [apply Hw; left; auto|].
    destruct (IH s1 c B1) as (s2 & C1 & C2 & C3 & C4 & C5 & C6); [lia|intros; apply Hw; cbn; auto|]. exists s2. split; auto. split; auto. split; [lia|]. split; [|split].
    + intros i Hi E. apply B3; auto. apply C4; auto. lia.
    + intros i e He. rewrite C5; rewrite B4; auto.
    + intros phi Hs Hr. destruct (B5 phi Hs) as (phi1 & D1 & D2); [apply Hr; left; auto|]. destruct (C6 phi1 D1) as (phi2 & E1 & E2); [intros w' Hw'; rewrite D2 by auto; apply Hr; cbn; auto|].
      exists phi2. split; auto. intros i Hi. rewrite E2, D2; auto. lia.
Qed.
End S.
