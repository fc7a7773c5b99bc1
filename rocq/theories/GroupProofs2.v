(* Proofs about generated_finite_subgroup_table *)
From Coq Require Import List Arith NArith ZArith Bool Lia Permutation.
From Verif Require Import GroupSpec GroupModel GroupProofs.
Import ListNotations.

Definition get2 (m : list (list (option nat))) (i j : nat) : option nat := nth j (nth i m []) None.
Lemma push_pairs_spec n : forall i k st, exists L, push_pairs i n k st = L ++ st /\ length L = 2 * n /\
  (forall a b, In (a, b) L <-> (a = k /\ i <= b < i + n) \/ (b = k /\ i <= a < i + n)) /\ (i + n <= k -> NoDup L).
Proof.
  induction n as [|n IH]; intros i k st; cbn [push_pairs].
  - exists []. split; [reflexivity|]. split; [reflexivity|]. split; [|constructor]. intros a b. cbn. lia.
  - destruct (IH (S i) k ((k, i) :: (i, k) :: st)) as (L & -> & H1 & H2 & H3). exists (L ++ [(k, i); (i, k)]).
    rewrite <- app_assoc. split; [reflexivity|]. rewrite app_length. split; [cbn; lia|]. split.
    + intros a b. rewrite in_app_iff, H2. cbn. split.
      * intros [H|[H|[H|[]]]]; [lia|injection H as <- <-; lia|injection H as <- <-; lia].
      * intros [[-> Hb]|[-> Ha]].
        -- destruct (Nat.eq_dec b i) as [->|]; [right; left; auto|left; lia].
        -- destruct (Nat.eq_dec a i) as [->|]; [right; right; left; auto|left; lia].
    + intros Hk. apply NoDup_app_iff'. split; [apply H3; lia|]. split.
      * repeat constructor; cbn; [|tauto]. intros [H|[]]. injection H as H; lia.
      * intros [a b] Hin [H|[H|[]]]; apply H2 in Hin; injection H as <- <-; lia.
Qed.
Lemma upd_spec {B} (l : list B) (f : B -> option B) : forall i x y, nth_error l i = Some x -> f x = Some y ->
  exists l', upd l i f = Some l' /\ length l' = length l /\ forall j d, nth j l' d = if Nat.eqb j i then y else nth j l d.
Proof.
  induction l as [|h t IH]; intros i x y Hi Hf; [destruct i; discriminate|]. destruct i as [|i]; cbn [upd].
  - cbn in Hi. inversion Hi; subst. rewrite Hf. eexists. split; [reflexivity|]. split; [reflexivity|]. intros [|j] d; reflexivity.
  - cbn in Hi. destruct (IH i x y Hi Hf) as (t' & -> & H1 & H2). eexists. split; [reflexivity|]. split; [cbn; lia|].
    intros [|j] d; cbn; [reflexivity|apply H2].
Qed.
Lemma set2_spec m i j k n : length m = n -> (forall r, In r m -> length r = n) -> i < n -> j < n ->
  exists m', set2 m i j k = Some m' /\ length m' = n /\ (forall r, In r m' -> length r = n) /\
    forall a b, get2 m' a b = if (a =? i) && (b =? j) then Some k else get2 m a b.
Proof.
  intros Hm Hr Hi Hj. unfold set2.
  assert (Hrow : nth_error m i = Some (nth i m [])) by (apply nth_error_nth'; lia).
  assert (Hrl : length (nth i m []) = n) by (apply Hr, nth_In; lia).
  destruct (upd_spec (nth i m []) (fun _ => Some (Some k)) j (nth j (nth i m []) None) (Some k)) as (row & E1 & L1 & N1); [apply nth_error_nth'; lia|reflexivity|].
  destruct (upd_spec m (fun row => upd row j (fun _ => Some (Some k))) i (nth i m []) row Hrow E1) as (m' & E2 & L2 & N2).
  exists m'. split; [exact E2|]. split; [lia|].
  assert (Hg : forall a b, get2 m' a b = if (a =? i) && (b =? j) then Some k else get2 m a b).
  { intros a b. unfold get2. rewrite N2. destruct (Nat.eqb_spec a i) as [->|]; [|reflexivity]. rewrite N1. destruct (b =? j); reflexivity. }
  split; [|exact Hg]. intros r Hin. apply (In_nth _ _ []) in Hin as (a & Ha & <-). rewrite N2. destruct (a =? i); [lia|]. apply Hr, nth_In. lia.
Qed.
Lemma collect_spec {B} (l : list (option B)) : (forall x, In x l -> x <> None) -> exists r, collect l = Some r /\ length r = length l /\ forall i d, i < length l -> nth i l None = Some (nth i r d).
Proof.
  induction l as [|[x|] l IH]; intros H; cbn [collect].
  - exists []. split; auto. split; auto. cbn. lia.
  - destruct IH as (r & -> & H1 & H2); [intros; apply H; right; auto|]. exists (x :: r). split; auto. split; [cbn; lia|]. intros [|i] d Hi; cbn in *; [auto|apply H2; lia].
  - exfalso. apply (H None); [left; auto|auto].
Qed.

Section Tab.
Context {A : Type} (eqb : A -> A -> bool) (Heq : forall x y, eqb x y = true <-> x = y).
Context (V : A -> Prop) (e : A) (inv : A -> A) (op : A -> A -> A) (G : is_group V e inv op).
Variable gens : list A.
Hypothesis Hg : forall g, In g gens -> V g.
Notation gen := (generated e inv op (fun g => In g gens)).
Notation len s := (length (elems s)).
Record tsinv (pend : list (nat * nat)) (s : tstate) : Prop := {
  ti_nd : NoDup (elems s);
  ti_len : length (index s) = len s;
  ti_idx : forall x k, lookup eqb x (index s) = Some k <-> nth_error (elems s) k = Some x;
  ti_gen : forall x, In x (elems s) -> gen x;
  ti_ml : length (tmul s) = len s;
  ti_rl : forall r, In r (tmul s) -> length r = len s;
  ti_pnd : NoDup (pend ++ todo s);
  ti_pend : forall i j, In (i, j) (pend ++ todo s) <-> i < len s /\ j < len s /\ get2 (tmul s) i j = None;
  ti_mul : forall i j k, get2 (tmul s) i j = Some k -> exists x y, nth_error (elems s) i = Some x /\ nth_error (elems s) j = Some y /\ nth_error (elems s) k = Some (op x y);
  ti_cnt : length (pend ++ todo s) <= len s * len s }.

Lemma lookup_none_in x s pend : tsinv pend s -> lookup eqb x (index s) = None -> ~ In x (elems s).
Proof. intros I E H. apply In_nth_error in H as (k & Hk). apply (ti_idx _ _ I) in Hk. congruence. Qed.
Lemma nth_error_lt {B} (l : list B) i x : nth_error l i = Some x -> i < length l.
Proof. intros H. apply nth_error_Some. congruence. Qed.
Lemma add_elem_spec pend s x : tsinv pend s -> gen x -> let '(k, s') := add_elem eqb x s in
  tsinv pend s' /\ nth_error (elems s') k = Some x /\ (forall i y, nth_error (elems s) i = Some y -> nth_error (elems s') i = Some y) /\
  (s' = s \/ (len s' = S (len s) /\ length (todo s') = 2 * len s + 1 + length (todo s))).
Proof.
  intros I Hx. unfold add_elem. destruct (lookup eqb x (index s)) as [k|] eqn:E.
  - split; [auto|]. split; [apply (ti_idx _ _ I); auto|]. split; auto.
  - pose proof (lookup_none_in _ _ _ I E) as Hni. rewrite (ti_len _ _ I). set (k := len s) in *.
    destruct (push_pairs_spec k 0 k (todo s)) as (L & HL & L1 & L2 & L3). rewrite HL. specialize (L3 ltac:(lia)).
    assert (Hex : forall i y, nth_error (elems s) i = Some y -> nth_error (elems s ++ [x]) i = Some y).
    { intros i y Hi. rewrite nth_error_app1; [auto|eapply nth_error_lt; eauto]. }
    assert (Hk : nth_error (elems s ++ [x]) k = Some x) by (unfold k; rewrite nth_error_app2, Nat.sub_diag; auto).
    set (m' := map (fun m => m ++ [None]) (tmul s) ++ [repeat None (k + 1)]).
    assert (Hlt : forall i j, In (i, j) (pend ++ todo s) -> i < k /\ j < k).
    { intros i j H. apply (ti_pend _ _ I) in H. fold k in H. lia. }
    assert (Hget : forall i j, get2 m' i j = if (i <? k) && (j <? k) then get2 (tmul s) i j else None).
    { intros i j. unfold get2, m'. pose proof (ti_ml _ _ I) as Hml. fold k in Hml. destruct (Nat.ltb_spec i k) as [Hi|Hi]; cbn [andb].
      - rewrite app_nth1 by (rewrite map_length; lia). rewrite (nth_indep _ [] ((fun m => m ++ [None]) [])) by (rewrite map_length; lia).
        rewrite (map_nth (fun m : list (option nat) => m ++ [None])). assert (Hrl : length (nth i (tmul s) []) = k) by (apply (ti_rl _ _ I), nth_In; lia).
        destruct (Nat.ltb_spec j k).
        + rewrite app_nth1 by lia. reflexivity.
        + rewrite app_nth2 by lia. destruct (j - _) as [|[|?]]; reflexivity.
      - rewrite app_nth2 by (rewrite map_length; lia). rewrite map_length. destruct (i - _) as [|q]; cbn [nth]; [|destruct q, j; reflexivity].
        destruct (Nat.lt_ge_cases j (k + 1)); [apply nth_repeat|apply nth_overflow; rewrite repeat_length; lia]. }
    assert (Hlen' : length (elems s ++ [x]) = S k) by (rewrite app_length; cbn; fold k; lia).
    assert (Hperm : Permutation (pend ++ (k, k) :: L ++ todo s) (((k, k) :: L) ++ (pend ++ todo s))).
    { rewrite (app_comm_cons L (todo s)). rewrite !app_assoc. apply Permutation_app_tail, Permutation_app_comm. }
    split; [|split; [exact Hk|split; [exact Hex|right; cbn [elems todo]; rewrite Hlen'; cbn [length]; rewrite app_length, L1; lia]]].
    constructor; cbn [elems index tmul todo].
    + apply NoDup_app_iff'. split; [apply I|]. split; [repeat constructor; auto|]. intros y Hy [<-|[]]. auto.
    + cbn. rewrite (ti_len _ _ I). fold k. lia.
    + intros y i. cbn [lookup]. destruct (eqb y x) eqn:Ey.
      * apply Heq in Ey. subst y. split; [intros H; inversion H; subst; auto|]. intros H.
        destruct (Nat.lt_trichotomy i k) as [Hi|[->|Hi]]; auto.
        -- exfalso. rewrite nth_error_app1 in H by auto. apply nth_error_In in H. auto.
        -- apply nth_error_lt in H. lia.
      * rewrite (ti_idx _ _ I). split; [apply Hex|]. intros H. destruct (Nat.lt_ge_cases i k) as [Hi|Hi].
        -- rewrite nth_error_app1 in H; auto.
        -- pose proof (nth_error_lt _ _ _ H). replace i with k in H by lia. rewrite Hk in H. inversion H; subst.
           assert (eqb y y = true) by (apply Heq; auto). congruence.
    + intros y Hy. apply in_app_iff in Hy as [Hy|[<-|[]]]; [apply (ti_gen _ _ I); auto|auto].
    + unfold m'. rewrite app_length, map_length, (ti_ml _ _ I), Hlen'. cbn. fold k. lia.
    + unfold m'. rewrite Hlen'. intros r Hr. apply in_app_iff in Hr as [Hr|[<-|[]]].
      * apply in_map_iff in Hr as (r0 & <- & Hr0). rewrite app_length, (ti_rl _ _ I) by auto. cbn. fold k. lia.
      * rewrite repeat_length. lia.
    + eapply Permutation_NoDup; [symmetry; exact Hperm|]. apply NoDup_app_iff'. split; [constructor; auto; intros H; apply L2 in H; lia|].
      split; [apply I|]. intros [a b] Hab Hab'. apply Hlt in Hab'. destruct Hab as [H|H]; [injection H as <- <-; lia|apply L2 in H; lia].
    + intros i j. rewrite Hlen'. rewrite Hget.
      assert (Hin : In (i, j) (pend ++ (k, k) :: L ++ todo s) <-> (i, j) = (k, k) \/ In (i, j) L \/ In (i, j) (pend ++ todo s)).
      { split; intros H.
        - apply (Permutation_in _ Hperm) in H. apply in_app_iff in H as [[H|H]|H]; auto.
        - apply (Permutation_in _ (Permutation_sym Hperm)). apply in_app_iff. destruct H as [H|[H|H]]; [left; left; auto|left; right; auto|auto]. }
      rewrite Hin, L2, (ti_pend _ _ I). fold k. destruct (Nat.ltb_spec i k), (Nat.ltb_spec j k); cbn [andb].
      * split; [intros [H'|[H'|H']]; [injection H'; lia|lia|]; split; [lia|split; [lia|tauto]]|tauto].
      * split; [intros [H'|[H'|H']]; [injection H' as -> ->; repeat split; lia|repeat split; lia|repeat split; lia]|]. intros (? & ? & _). right. left. lia.
      * split; [intros [H'|[H'|H']]; [injection H' as -> ->; repeat split; lia|repeat split; lia|repeat split; lia]|]. intros (? & ? & _). right. left. lia.
      * split; [intros [H'|[H'|H']]; [injection H' as -> ->; repeat split; lia|repeat split; lia|repeat split; lia]|]. intros (? & ? & _). left. f_equal; lia.
    + intros i j q Hq. rewrite Hget in Hq. destruct ((i <? k) && (j <? k)); [|discriminate]. destruct (ti_mul _ _ I i j q Hq) as (a & b & A1 & A2 & A3).
      exists a, b. auto.
    + rewrite Hlen'. rewrite (Permutation_length Hperm). rewrite app_length. cbn [length]. rewrite L1. pose proof (ti_cnt _ _ I) as Hc. fold k in Hc. lia.
Qed.
Lemma add_gens_spec gs : forall s, tsinv [] s -> (forall g, In g gs -> In g gens) -> tsinv [] (add_gens eqb gs s) /\
  (forall g, In g gs -> In g (elems (add_gens eqb gs s))) /\ (forall i y, nth_error (elems s) i = Some y -> nth_error (elems (add_gens eqb gs s)) i = Some y).
Proof.
  induction gs as [|g gs IH]; intros s I H; cbn [add_gens].
  - split; auto. split; [intros g []|auto].
  - pose proof (add_elem_spec [] s g I (gen_in _ _ _ (fun g => In g gens) _ (H g (or_introl eq_refl)))) as Hs. destruct (add_elem eqb g s) as [k s']. destruct Hs as (I' & Hk & Hex & _). cbn [snd].
    destruct (IH s' I') as (J1 & J2 & J3); [intros; apply H; right; auto|]. split; [auto|]. split.
    + intros g' [<-|Hg']; auto. eapply nth_error_In. apply J3. exact Hk.
    + intros i y Hi. auto.
Qed.
Lemma init_spec : let s := snd (add_elem eqb e (mkT [] [] [] [])) in tsinv [] s /\ nth_error (elems s) 0 = Some e.
Proof.
  assert (I0 : tsinv [] (mkT [] [] [] [])).
  { constructor; cbn; auto; try (constructor; fail); try tauto.
    - intros x k. destruct k; split; discriminate.
    - intros i j. lia.
    - intros i j k. unfold get2. destruct i, j; discriminate. }
  pose proof (add_elem_spec [] _ e I0 (gen_e _ _ _ _)) as H. unfold add_elem in *. cbn in *. destruct H as (H1 & H2 & _). auto.
Qed.
(* one step of the loop *)
Lemma table_loop_inv fuel : forall s r, tsinv [] s -> table_loop eqb op fuel s = Some r -> tsinv [] r /\ todo r = [] /\
  (forall i y, nth_error (elems s) i = Some y -> nth_error (elems r) i = Some y).
Proof.
  induction fuel as [|fuel IH]; intros s r I E; cbn [table_loop] in E; [discriminate|].
  destruct (todo s) as [|[i j] rest] eqn:Et; [inversion E; subst; auto|].
  destruct (nth_error (elems s) i) as [x|] eqn:Ex; [|discriminate]. destruct (nth_error (elems s) j) as [y|] eqn:Ey; [|discriminate].
  set (s1 := mkT (elems s) (index s) (tmul s) rest) in *.
  assert (I1 : tsinv [(i, j)] s1). { destruct I. constructor; unfold s1; cbn [elems index tmul todo app]; auto; rewrite Et in *; auto. }
  assert (Hxy : gen (op x y)). { apply gen_op; apply (ti_gen _ _ I); eapply nth_error_In; eauto. }
  pose proof (add_elem_spec [(i, j)] s1 (op x y) I1 Hxy) as Hs. destruct (add_elem eqb (op x y) s1) as [k s'].
  destruct Hs as (I' & Hk & Hex & _). unfold s1 in Hex; cbn [elems] in Hex.
  destruct (set2_spec (tmul s') i j k (len s')) as (m & Em & M1 & M2 & M3); try apply I'.
  1: { apply Hex in Ex. eapply nth_error_lt; eauto. } 1: { apply Hex in Ey. eapply nth_error_lt; eauto. }
  rewrite Em in E. 
  assert (I2 : tsinv [] (mkT (elems s') (index s') m (todo s'))).
  { pose proof (ti_pnd _ _ I') as Hpnd. cbn [app] in Hpnd. inversion Hpnd; subst.
    constructor; cbn [elems index tmul todo app]; try apply I'; auto.
    - intros a b. rewrite M3. split.
      + intros H. assert (H' : In (a, b) ([(i, j)] ++ todo s')) by (right; auto). apply (ti_pend _ _ I') in H' as (B1 & B2 & B3).
        split; [auto|]. split; [auto|]. destruct (Nat.eqb_spec a i), (Nat.eqb_spec b j); cbn [andb]; auto. subst. contradiction.
      + destruct ((a =? i) && (b =? j)) eqn:Eb; [intros (_ & _ & H); discriminate|]. intros H. apply (ti_pend _ _ I') in H as [H|H]; auto.
        injection H as <- <-. rewrite !Nat.eqb_refl in Eb. discriminate.
    - intros a b q. rewrite M3. destruct ((a =? i) && (b =? j)) eqn:Eb; [|apply (ti_mul _ _ I')]. intros Hq. inversion Hq; subst.
      apply andb_true_iff in Eb as [E1 E2]. apply Nat.eqb_eq in E1, E2. subst. exists x, y. auto.
    - pose proof (ti_cnt _ _ I') as Hc. cbn [app length] in Hc. lia. }
  destruct (IH _ _ I2 E) as (J1 & J2 & J3). split; [auto|]. split; [auto|]. intros a z Ha. apply J3. cbn [elems]. apply Hex. auto.
Qed.
Lemma table_loop_term (L : list A) : (forall x, gen x -> In x L) -> forall fuel s, tsinv [] s ->
  length L * length L + length (todo s) < fuel + len s * len s -> exists r, table_loop eqb op fuel s = Some r.
Proof.
  intros HL. assert (Hb : forall pend s, tsinv pend s -> len s <= length L).
  { intros pend s I. apply NoDup_incl_length; [apply I|]. intros x Hx. apply HL, (ti_gen _ _ I); auto. }
  induction fuel as [|fuel IH]; intros s I Hf.
  - exfalso. pose proof (Hb _ _ I). assert (len s * len s <= length L * length L) by (apply Nat.mul_le_mono; auto). lia.
  - cbn [table_loop]. destruct (todo s) as [|[i j] rest] eqn:Et; [eauto|].
    assert (Hij : i < len s /\ j < len s). { assert (In (i, j) ([] ++ todo s)) as H by (rewrite Et; left; auto). apply (ti_pend _ _ I) in H. tauto. }
    destruct (nth_error (elems s) i) as [x|] eqn:Ex; [|apply nth_error_None in Ex; lia].
    destruct (nth_error (elems s) j) as [y|] eqn:Ey; [|apply nth_error_None in Ey; lia].
    set (s1 := mkT (elems s) (index s) (tmul s) rest) in *.
    assert (I1 : tsinv [(i, j)] s1). { destruct I. constructor; unfold s1; cbn [elems index tmul todo app]; auto; rewrite Et in *; auto. }
    assert (Hxy : gen (op x y)). { apply gen_op; apply (ti_gen _ _ I); eapply nth_error_In; eauto. }
    pose proof (add_elem_spec [(i, j)] s1 (op x y) I1 Hxy) as Hs. destruct (add_elem eqb (op x y) s1) as [k s'] eqn:Ea.
    destruct Hs as (I' & Hk & Hex & Hgrow). unfold s1 in Hex; cbn [elems] in Hex.
    destruct (set2_spec (tmul s') i j k (len s')) as (m & Em & M1 & M2 & M3); try apply I'.
    1: { apply Hex in Ex. eapply nth_error_lt; eauto. } 1: { apply Hex in Ey. eapply nth_error_lt; eauto. }
    rewrite Em. apply IH.
    + (* the invariant, as in table_loop_inv *)
      pose proof (ti_pnd _ _ I') as Hpnd. cbn [app] in Hpnd. inversion Hpnd; subst.
      constructor; cbn [elems index tmul todo app]; try apply I'; auto.
      * intros a b. rewrite M3. split.
        -- intros H. assert (H' : In (a, b) ([(i, j)] ++ todo s')) by (right; auto). apply (ti_pend _ _ I') in H' as (B1 & B2 & B3).
           split; [auto|]. split; [auto|]. destruct (Nat.eqb_spec a i), (Nat.eqb_spec b j); cbn [andb]; auto. subst. contradiction.
        -- destruct ((a =? i) && (b =? j)) eqn:Eb; [intros (_ & _ & H); discriminate|]. intros H. apply (ti_pend _ _ I') in H as [H|H]; auto.
           injection H as <- <-. rewrite !Nat.eqb_refl in Eb. discriminate.
      * intros a b q. rewrite M3. destruct ((a =? i) && (b =? j)) eqn:Eb; [|apply (ti_mul _ _ I')]. intros Hq. inversion Hq; subst.
        apply andb_true_iff in Eb as [E1 E2]. apply Nat.eqb_eq in E1, E2. subst. exists x, y. auto.
      * pose proof (ti_cnt _ _ I') as Hc. cbn [app length] in Hc. lia.
    + cbn [elems todo]. cbn [length] in Hf. destruct Hgrow as [->|[G1 G2]].
      * unfold s1. cbn [elems todo]. lia.
      * rewrite G1, G2. unfold s1. cbn [elems todo]. lia.
Qed.
(* the finished table *)
Lemma finish s : tsinv [] s -> todo s = [] -> nth_error (elems s) 0 = Some e -> (forall g, In g gens -> In g (elems s)) ->
  (forall x, In x (elems s) <-> gen x) /\
  exists m iv, collect (map collect (tmul s)) = Some m /\ collect (map (fun x => lookup eqb (inv x) (index s)) (elems s)) = Some iv /\
    length iv = len s /\ (forall i, i < len s -> nth i iv 0 < len s /\ nth (nth i iv 0) (elems s) e = inv (nth i (elems s) e)) /\
    length m = len s /\ (forall r, In r m -> length r = len s) /\
    (forall i j, i < len s -> j < len s -> tab_mul m i j < len s /\ nth (tab_mul m i j) (elems s) e = op (nth i (elems s) e) (nth j (elems s) e)).
Proof.
  intros I Ht H0 Hgs.
  assert (Hall : forall i j, i < len s -> j < len s -> exists k, get2 (tmul s) i j = Some k).
  { intros i j Hi Hj. destruct (get2 (tmul s) i j) as [k|] eqn:E; [eauto|]. exfalso. assert (H : In (i, j) ([] ++ todo s)) by (apply (ti_pend _ _ I); auto). rewrite Ht in H. exact H. }
  assert (Hnth : forall i x, nth_error (elems s) i = Some x -> nth i (elems s) e = x) by (intros; apply nth_error_nth; auto).
  assert (Hcl : forall x y, In x (elems s) -> In y (elems s) -> In (op x y) (elems s)).
  { intros x y Hx Hy. apply In_nth_error in Hx as (i & Hi). apply In_nth_error in Hy as (j & Hj).
    destruct (Hall i j) as (k & Hk); try (eapply nth_error_lt; eauto). apply (ti_mul _ _ I) in Hk as (x' & y' & E1 & E2 & E3).
    rewrite Hi in E1. rewrite Hj in E2. inversion E1; inversion E2; subst. eapply nth_error_In; eauto. }
  assert (Hiff : forall x, In x (elems s) <-> gen x).
  { intros x. split; [apply (ti_gen _ _ I)|]. apply (closed_contains_generated V e inv op G (fun g => In g gens)); auto; try apply I.
    - intros y Hy. apply (ti_gen _ _ I) in Hy. apply (generated_V V e inv op G (fun g => In g gens)); auto.
    - eapply nth_error_In; eauto. }
  split; [exact Hiff|].
  destruct (collect_spec (map (fun x => lookup eqb (inv x) (index s)) (elems s))) as (iv & Eiv & L1 & N1).
  { intros o Ho. apply in_map_iff in Ho as (x & <- & Hx). intros E. apply (lookup_none_in (inv x) s [] I E). apply Hiff. apply gen_inv. apply Hiff. auto. }
  rewrite map_length in L1, N1.
  assert (Hrow : forall r, In r (tmul s) -> exists r', collect r = Some r' /\ length r' = length r /\ forall i d, i < length r -> nth i r None = Some (nth i r' d)).
  { intros r Hr. apply collect_spec. intros o Ho En. subst. apply (In_nth _ _ []) in Hr as (i & Hi & Er). apply (In_nth _ _ None) in Ho as (j & Hj & Ej).
    rewrite (ti_ml _ _ I) in Hi. rewrite <- Er in Hj, Ej. rewrite (ti_rl _ _ I) in Hj by (apply nth_In; rewrite (ti_ml _ _ I); auto).
    destruct (Hall i j Hi Hj) as (k & Hk). unfold get2 in Hk. congruence. }
  destruct (collect_spec (map collect (tmul s))) as (m & Em & L2 & N2).
  { intros o Ho. apply in_map_iff in Ho as (r & <- & Hr). destruct (Hrow r Hr) as (r' & -> & _). discriminate. }
  rewrite map_length in L2, N2. pose proof (ti_ml _ _ I) as Hml.
  exists m, iv. split; [exact Em|]. split; [exact Eiv|]. split; [lia|].
  assert (Hm : forall i, i < len s -> length (nth i m []) = len s /\ forall j, j < len s -> get2 (tmul s) i j = Some (nth j (nth i m []) 0)).
  { intros i Hi. specialize (N2 i [] ltac:(lia)). rewrite (nth_indep _ None (collect [])) in N2 by (rewrite map_length; lia). rewrite map_nth in N2.
    destruct (Hrow (nth i (tmul s) [])) as (r' & Er & Lr & Nr); [apply nth_In; lia|]. rewrite N2 in Er. inversion Er; subst r'.
    rewrite (ti_rl _ _ I) in Lr, Nr by (apply nth_In; lia). split; [auto|]. intros j Hj. unfold get2. apply Nr. auto. }
  split.
  - intros i Hi. specialize (N1 i 0 Hi). rewrite (nth_indep _ None ((fun x => lookup eqb (inv x) (index s)) e)) in N1 by (rewrite map_length; auto).
    rewrite (map_nth (fun x => lookup eqb (inv x) (index s))) in N1. apply (ti_idx _ _ I) in N1. split; [eapply nth_error_lt; eauto|]. auto.
  - split; [lia|]. split.
    + intros r Hr. apply (In_nth _ _ []) in Hr as (i & Hi & <-). apply Hm. lia.
    + intros i j Hi Hj. destruct (Hm i Hi) as [_ Hm']. specialize (Hm' j Hj). apply (ti_mul _ _ I) in Hm' as (x & y & E1 & E2 & E3).
      unfold tab_mul. split; [eapply nth_error_lt; eauto|]. rewrite (Hnth _ _ E1), (Hnth _ _ E2). auto.
Qed.
Lemma start_inv : let s0 := add_gens eqb gens (snd (add_elem eqb e (mkT [] [] [] []))) in
  tsinv [] s0 /\ nth_error (elems s0) 0 = Some e /\ forall g, In g gens -> In g (elems s0).
Proof.
  cbn zeta. destruct init_spec as [I0 H0]. destruct (add_gens_spec gens _ I0) as (I1 & Hgs & Hex); [auto|]. split; [auto|]. split; [apply Hex; auto|auto].
Qed.
Lemma generated_table_sound fuel t es ix : generated_table eqb e inv op fuel gens = Some (t, es, ix) ->
  NoDup es /\ (forall x, In x es <-> gen x) /\ nth_error es 0 = Some e /\
  (forall x k, lookup eqb x ix = Some k <-> nth_error es k = Some x) /\
  tn t = length es /\ tident t = 0 /\ is_group_table (tn t) (tident t) (tinv t) (tmuls t) /\
  (forall i, i < length es -> nth (tab_inv (tinv t) i) es e = inv (nth i es e)) /\
  (forall i j, i < length es -> j < length es -> nth (tab_mul (tmuls t) i j) es e = op (nth i es e) (nth j es e)).
Proof.
  unfold generated_table. destruct start_inv as (I0 & H0 & Hg0). destruct (table_loop eqb op fuel _) as [s|] eqn:E; [|discriminate].
  destruct (table_loop_inv fuel _ s I0 E) as (I & Ht & Hex).
  assert (Hgs : forall g, In g gens -> In g (elems s)).
  { intros g Hgg. specialize (Hg0 g Hgg). apply In_nth_error in Hg0 as (i & Hi). eapply nth_error_In. apply Hex; eauto. }
  destruct (finish s I Ht (Hex _ _ H0) Hgs) as (Hiff & m & iv & Em & Eiv & L1 & N1 & L2 & L3 & N2).
  rewrite Em, Eiv. intros Eq. inversion Eq; subst; clear Eq. cbn [tn tident tinv tmuls].
  assert (Hn : nth 0 (elems s) e = e) by (apply nth_error_nth, Hex; auto).
  assert (Hlt0 : 0 < len s) by (apply Hex in H0; eapply nth_error_lt; eauto).
  assert (HV : forall i, i < len s -> V (nth i (elems s) e)).
  { intros i Hi. apply (generated_V V e inv op G (fun g => In g gens)); auto. apply Hiff. apply nth_In; auto. }
  assert (Hinj : forall i j, i < len s -> j < len s -> nth i (elems s) e = nth j (elems s) e -> i = j).
  { intros i j Hi Hj. apply (proj1 (NoDup_nth (elems s) e)); auto. apply I. }
  split; [apply I|]. split; [exact Hiff|]. split; [apply Hex; auto|]. split; [apply I|]. split; [auto|]. split; [auto|].
  split; [|split; [intros i Hi; apply N1; auto|intros; apply N2; auto]].
  split; [auto|]. split; [auto|]. split; [auto|]. unfold tab_inv.
  assert (Nm1 : forall i j, i < len s -> j < len s -> tab_mul m i j < len s) by (intros; apply N2; auto).
  assert (Nm2 : forall i j, i < len s -> j < len s -> nth (tab_mul m i j) (elems s) e = op (nth i (elems s) e) (nth j (elems s) e)) by (intros; apply N2; auto).
  assert (Ni1 : forall i, i < len s -> nth i iv 0 < len s) by (intros; apply N1; auto).
  assert (Ni2 : forall i, i < len s -> nth (nth i iv 0) (elems s) e = inv (nth i (elems s) e)) by (intros; apply N1; auto).
  constructor; auto.
  - intros x y z Hx Hy Hz. apply Hinj; auto. rewrite !Nm2 by auto. apply (ig_assoc _ _ _ _ G); auto.
  - intros x Hx. apply Hinj; auto. rewrite !Nm2, Hn by auto. apply (ig_idl _ _ _ _ G); auto.
  - intros x Hx. apply Hinj; auto. rewrite !Nm2, Hn by auto. apply (ig_idr _ _ _ _ G); auto.
  - intros x Hx. apply Hinj; auto. rewrite !Nm2, Ni2, Hn by auto. apply (ig_invl _ _ _ _ G); auto.
  - intros x Hx. apply Hinj; auto. rewrite !Nm2, Ni2, Hn by auto. apply (ig_invr _ _ _ _ G); auto.
Qed.
Lemma generated_table_term (L : list A) : (forall x, gen x -> In x L) ->
  forall fuel, 2 * (length L * length L) < fuel -> exists r, generated_table eqb e inv op fuel gens = Some r.
Proof.
  intros HL fuel Hf. unfold generated_table. destruct start_inv as (I0 & H0 & Hg0). set (s0 := add_gens eqb gens _) in *.
  destruct (table_loop_term L HL fuel s0 I0) as (s & E).
  { pose proof (ti_cnt _ _ I0) as Hc. cbn [app] in Hc.
    assert (Hl : len s0 <= length L). { apply NoDup_incl_length; [apply I0|]. intros x Hx. apply HL, (ti_gen _ _ I0); auto. }
    assert (len s0 * len s0 <= length L * length L) by (apply Nat.mul_le_mono; auto). lia. }
  rewrite E. destruct (table_loop_inv fuel _ s I0 E) as (I & Ht & Hex).
  assert (Hgs : forall g, In g gens -> In g (elems s)).
  { intros g Hgg. specialize (Hg0 g Hgg). apply In_nth_error in Hg0 as (i & Hi). eapply nth_error_In. apply Hex; eauto. }
  destruct (finish s I Ht (Hex _ _ H0) Hgs) as (Hiff & m & iv & Em & Eiv & _). rewrite Em, Eiv. eauto.
Qed.
End Tab.
