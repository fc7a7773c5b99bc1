(* Proofs: subset.rs and partition.rs *)
From Coq Require Import List Arith Bool Lia Sorted.
From Verif Require Import SetsSpec SetsModel.
Import ListNotations.

Lemma lex_lt_irrefl s : ~ lex_lt s s.
Proof. induction s as [|x s IH]; intros H; inversion H; subst; [lia|auto]. Qed.
Lemma lex_lt_trans s t u : lex_lt s t -> lex_lt t u -> lex_lt s u.
Proof.
  intros H; revert u; induction H as [y t|x y s t Hxy|x s t H IH]; intros u Hu; inversion Hu; subst;
    try (now constructor).
  - apply lex_head; lia.
  - apply lex_tail; auto.
Qed.
Lemma lex_trichotomy s t : lex_lt s t \/ s = t \/ lex_lt t s.
Proof.
  revert t; induction s as [|x s IH]; intros [|y t]; auto using lex_lt.
  destruct (lt_eq_lt_dec x y) as [[H|H]|H]; auto using lex_lt.
  subst. destruct (IH t) as [?|[?|?]]; subst; auto using lex_lt.
Qed.

Lemma StronglySorted_app {A} (R : A -> A -> Prop) l1 l2 :
  StronglySorted R l1 -> StronglySorted R l2 -> (forall x y, In x l1 -> In y l2 -> R x y) ->
  StronglySorted R (l1 ++ l2).
Proof.
  intros H1 H2 H; induction H1 as [|a l1 H1 IH Hf]; [exact H2|].
  cbn. constructor.
  - apply IH. intros; apply H; [right|]; auto.
  - apply Forall_app; split; [exact Hf|].
    apply Forall_forall; intros y Hy; apply H; [left|]; auto.
Qed.
Lemma StronglySorted_map {A B} (R : A -> A -> Prop) (S : B -> B -> Prop) (f : A -> B) l :
  (forall x y, In x l -> In y l -> R x y -> S (f x) (f y)) -> StronglySorted R l -> StronglySorted S (map f l).
Proof.
  intros Hf H; induction H as [|a l H IH Hfa]; [constructor|].
  cbn; constructor.
  - apply IH; intros; apply Hf; try right; auto.
  - apply Forall_forall; intros b Hb. apply in_map_iff in Hb as (x & <- & Hx).
    rewrite Forall_forall in Hfa. apply Hf; [left|right|]; auto.
Qed.
Lemma StronglySorted_flat_map {A B} (R : B -> B -> Prop) (f : A -> list B) (Q : A -> A -> Prop) l :
  StronglySorted Q l ->
  (forall a, In a l -> StronglySorted R (f a)) ->
  (forall a b x y, In a l -> In b l -> Q a b -> In x (f a) -> In y (f b) -> R x y) ->
  StronglySorted R (flat_map f l).
Proof.
  intros H; induction H as [|a l H IH Hq]; intros Hs Hc; cbn; [constructor|].
  rewrite Forall_forall in Hq.
  apply StronglySorted_app.
  - apply Hs; left; auto.
  - apply IH; intros; [apply Hs; right; auto | eapply (Hc a0 b); eauto; right; auto].
  - intros x y Hx Hy. apply in_flat_map in Hy as (b & Hb & Hy).
    eapply (Hc a b); eauto; [left|right]; auto.
Qed.
Lemma StronglySorted_seq a n : StronglySorted lt (seq a n).
Proof.
  revert a; induction n as [|n IH]; intros a; cbn; constructor; auto.
  apply Forall_forall; intros x Hx; apply in_seq in Hx; lia.
Qed.
Lemma StronglySorted_NoDup {A} (R : A -> A -> Prop) l :
  (forall x, ~ R x x) -> StronglySorted R l -> NoDup l.
Proof.
  intros Hi H; induction H as [|a l H IH Hf]; constructor; auto.
  intros Hin; rewrite Forall_forall in Hf; apply (Hi a); auto.
Qed.

(* ------------------------------------------------------------ subsets *)
Lemma subsets_in k : forall n s, In s (subsets_k k n) <-> is_k_subset n k s.
Proof.
  induction k as [|k IH]; intros n s.
  - cbn. split.
    + intros [<-|[]]. repeat split; constructor.
    + intros (Hl & _ & _). destruct s; [auto|discriminate].
  - cbn [subsets_k]. destruct (Nat.ltb_spec n (S k)) as [Hn|Hn].
    + split; [intros []|]. intros (Hl & Hs & Hb).
      assert (Hnd : NoDup s) by (eapply StronglySorted_NoDup; [apply Nat.lt_irrefl|exact Hs]).
      assert (Hi : incl s (seq 0 n)).
      { intros x Hx. rewrite Forall_forall in Hb. apply in_seq. specialize (Hb x Hx). lia. }
      pose proof (NoDup_incl_length Hnd Hi) as HH. rewrite seq_length in HH. lia.
    + rewrite in_flat_map. split.
      * intros (first & Hf & Hs). apply in_seq in Hf. apply in_map_iff in Hs as (rest & <- & Hr).
        apply IH in Hr as (Hl & Hs & Hb). repeat split.
        -- cbn. rewrite map_length; lia.
        -- constructor.
           ++ eapply StronglySorted_map; [|exact Hs]. cbn; intros; lia.
           ++ apply Forall_forall. intros x Hx. apply in_map_iff in Hx as (y & <- & _). lia.
        -- constructor; [lia|]. apply Forall_forall. intros x Hx. apply in_map_iff in Hx as (y & <- & Hy).
           rewrite Forall_forall in Hb. specialize (Hb y Hy). lia.
      * intros (Hl & Hs & Hb). destruct s as [|a s]; [discriminate|].
        inversion Hs as [|? ? Hs' Ha]; subst. inversion Hb as [|? ? Hab Hb']; subst.
        exists a. split; [apply in_seq; lia|].
        apply in_map_iff. exists (map (fun x => x - a - 1) s). split.
        -- f_equal. rewrite map_map. rewrite <- (map_id s) at 2. apply map_ext_in.
           intros x Hx. rewrite Forall_forall in Ha. specialize (Ha x Hx). lia.
        -- apply IH. repeat split.
           ++ rewrite map_length. cbn in Hl; lia.
           ++ eapply StronglySorted_map; [|exact Hs']. cbn; intros x y Hx Hy Hxy.
              rewrite Forall_forall in Ha. pose proof (Ha x Hx). pose proof (Ha y Hy). lia.
           ++ apply Forall_forall. intros x Hx. apply in_map_iff in Hx as (y & <- & Hy).
              rewrite Forall_forall in Ha, Hb'. pose proof (Ha y Hy). pose proof (Hb' y Hy). lia.
Qed.

Lemma subsets_sorted k : forall n, StronglySorted lex_lt (subsets_k k n).
Proof.
  induction k as [|k IH]; intros n; cbn [subsets_k].
  - repeat constructor.
  - destruct (n <? S k); [constructor|].
    eapply StronglySorted_flat_map; [apply (StronglySorted_seq 0 n)|..].
    + intros first _. eapply StronglySorted_map; [|apply IH].
      cbn. intros s t _ _ H. apply lex_tail.
      induction H as [y t|x y s t Hxy|x s t H IH']; cbn; auto using lex_lt.
      apply lex_head; lia.
    + intros a b x y _ _ Hab Hx Hy. apply in_map_iff in Hx as (? & <- & _). apply in_map_iff in Hy as (? & <- & _).
      apply lex_head; lia.
Qed.

Lemma binom_gt n : forall k, n < k -> binom n k = 0.
Proof. induction n as [|n IH]; intros [|k] H; cbn; try lia. rewrite !IH; lia. Qed.

Lemma hockey n k :
  list_sum (map (fun i => binom (n - i - 1) k) (seq 0 n)) = binom n (S k).
Proof.
  revert k; induction n as [|n IH]; intros k; [reflexivity|].
  cbn [seq map list_sum fold_right]. rewrite Nat.sub_0_r. replace (S n - 1) with n by lia.
  change (binom (S n) (S k)) with (binom n k + binom n (S k)). f_equal.
  rewrite <- (IH k). rewrite <- seq_shift, map_map. reflexivity.
Qed.

Lemma subsets_count k : forall n, length (subsets_k k n) = binom n k.
Proof.
  induction k as [|k IH]; intros n.
  - destruct n; reflexivity.
  - cbn [subsets_k]. destruct (Nat.ltb_spec n (S k)) as [H|H].
    + rewrite binom_gt; auto.
    + rewrite <- hockey. generalize (seq 0 n). induction l as [|a l IHl]; [reflexivity|].
      cbn. rewrite app_length, map_length, IH, IHl. reflexivity.
Qed.

Lemma index_all_nth {T} (items : list T) d s :
  Forall (fun x => x < length items) s -> index_all items s = Some (map (fun i => nth i items d) s).
Proof.
  induction 1 as [|x s Hx H IH]; cbn; [reflexivity|].
  rewrite (nth_error_nth' items d Hx), IH. reflexivity.
Qed.
Lemma subsets_vec_ok {T} (items : list T) d k :
  subsets_vec items k = Some (map (map (fun i => nth i items d)) (subsets (length items) k)).
Proof.
  unfold subsets_vec, subsets.
  assert (H : Forall (fun s => Forall (fun x => x < length items) s) (subsets_k k (length items))).
  { apply Forall_forall. intros s Hs. apply subsets_in in Hs. apply Hs. }
  induction H as [|s ss Hs H IH]; cbn; [reflexivity|].
  rewrite (index_all_nth items d), IH; auto.
Qed.

(* ------------------------------------------------------------ partitions *)
Fixpoint parts (p : nat -> bool) (x n f : nat) : list (list nat) :=
  match x with
  | 0 => if n =? 0 then [[]] else []
  | S x' => flat_map (fun a => if p a then map (cons a) (parts p x' (n - a) a) else []) (seq f (S n - f))
  end.

Lemma list_sum_cons a l : list_sum (a :: l) = a + list_sum l.
Proof. reflexivity. Qed.
Lemma list_sum_ge s f : Forall (fun a => f <= a) s -> length s * f <= list_sum s.
Proof. induction 1; rewrite ?list_sum_cons; cbn [length] in *; [cbn; lia|nia]. Qed.

Lemma parts_in p x : forall n f s, In s (parts p x n f) <-> is_partition p f n x s.
Proof.
  induction x as [|x IH]; intros n f s; cbn [parts].
  - destruct (Nat.eqb_spec n 0) as [->|Hn]; split.
    + intros [<-|[]]. repeat split; constructor.
    + intros (Hl & _). destruct s; [left; auto|discriminate].
    + intros [].
    + intros (Hl & _ & _ & Hs). destruct s; [cbn in Hs; lia|discriminate].
  - rewrite in_flat_map. split.
    + intros (a & Ha & Hs). apply in_seq in Ha. destruct (p a) eqn:Hp; [|destruct Hs].
      apply in_map_iff in Hs as (t & <- & Ht). apply IH in Ht as (Hl & Hs & Hf & Hsum).
      repeat split.
      * cbn; lia.
      * constructor; auto. eapply Forall_impl; [|exact Hf]. cbn; tauto.
      * constructor; [split; [lia|auto]|]. eapply Forall_impl; [|exact Hf]. cbn; intros ? [? ?]; split; [lia|auto].
      * rewrite list_sum_cons; lia.
    + intros (Hl & Hs & Hf & Hsum). destruct s as [|a s]; [discriminate|].
      inversion Hs as [|? ? Hs' Ha]; subst. inversion Hf as [|? ? [Hfa Hpa] Hf']; subst.
      exists a. rewrite list_sum_cons. split; [apply in_seq; lia|].
      rewrite Hpa. apply in_map_iff. exists s; split; auto. apply IH. repeat split; auto.
      * rewrite Forall_forall in *. intros b Hb; split; [apply Ha|apply Hf']; auto.
      * lia.
Qed.

Lemma parts_sorted p x : forall n f, StronglySorted lex_lt (parts p x n f).
Proof.
  induction x as [|x IH]; intros n f; cbn [parts].
  - destruct (n =? 0); repeat constructor.
  - eapply StronglySorted_flat_map; [apply StronglySorted_seq|..].
    + intros a _. destruct (p a); [|constructor].
      eapply StronglySorted_map; [|apply IH]. intros; apply lex_tail; auto.
    + intros a b s t _ _ Hab Hs Ht.
      destruct (p a); [|destruct Hs]. destruct (p b); [|destruct Ht].
      apply in_map_iff in Hs as (? & <- & _). apply in_map_iff in Ht as (? & <- & _).
      apply lex_head; auto.
Qed.

Lemma parts_small p x n f : n < x -> 1 <= f -> parts p x n f = [].
Proof.
  intros Hn Hf. destruct (parts p x n f) as [|s l] eqn:E; [reflexivity|]. exfalso.
  assert (Hin : In s (parts p x n f)) by (rewrite E; left; auto).
  apply parts_in in Hin as (Hl & _ & Ha & Hs).
  assert (HH : length s * 1 <= list_sum s).
  { apply list_sum_ge. eapply Forall_impl; [|exact Ha]. cbn; intros ? [? _]; lia. }
  lia.
Qed.

Lemma parts_step p x n f : f <= n ->
  parts p (S x) n f = (if p f then map (cons f) (parts p x (n - f) f) else []) ++ parts p (S x) n (S f).
Proof.
  intros H. cbn [parts]. replace (S n - f) with (S (S n - S f)) by lia. reflexivity.
Qed.
Lemma parts_over p x n f : n < f -> parts p (S x) n f = [].
Proof. intros H. cbn [parts]. replace (S n - f) with 0 by lia. reflexivity. Qed.

Lemma parts_one p n f : 1 <= n ->
  parts p 1 n f = if f <=? n then if p n then [[n]] else [] else [].
Proof.
  intros Hn. destruct (Nat.leb_spec f n) as [H|H].
  - assert (Hk : exists k, n - f = k) by eauto. destruct Hk as [k Hk].
    revert f H Hk. induction k as [|k IH]; intros f H Hk.
    + assert (f = n) by lia; subst. rewrite parts_step by lia. rewrite parts_over by lia.
      cbn. rewrite Nat.sub_diag. cbn. destruct (p n); reflexivity.
    + rewrite parts_step by lia. rewrite IH by lia. cbn [parts].
      destruct (Nat.eqb_spec (n - f) 0); [lia|]. destruct (p f); reflexivity.
  - apply parts_over; lia.
Qed.

(* what a state still has to yield *)
Fixpoint remaining (p : nat -> bool) (it : pit) : list (list nat) :=
  match it with PIt n x first min rest =>
    if n <? x then []
    else if (n =? 0) && (x =? 0) then if first =? 1 then [[]] else []
    else if (n =? 0) || (x =? 0) then []
    else if x =? 1 then if first <=? n then if p n then [[n]] else [] else []
    else if n <? first then []
    else match rest with
         | None => parts p x n first
         | Some r => (if p first then map (cons first) (remaining p r) else []) ++ parts p x n (S first)
         end
  end.

Definition pit_n (it : pit) := match it with PIt n _ _ _ _ => n end.
Definition pit_x (it : pit) := match it with PIt _ x _ _ _ => x end.
Fixpoint pit_wf (it : pit) : Prop :=
  match it with PIt n x first min rest =>
    1 <= first /\
    match rest with
    | None => True
    | Some r => pit_n r <= n /\ pit_x r < x /\ pit_wf r
    end
  end.

Definition pit_measure (it : pit) : nat :=
  match it with PIt n x first _ _ => x * (n + 3) + (n + 2 - first) end.

Lemma pit_next_spec p fuel : forall it, pit_wf it -> pit_measure it < fuel ->
  exists o it', pit_next fuel p it = Some (o, it') /\ pit_wf it' /\
    match it, it' with PIt n x _ _ _, PIt n' x' _ _ _ => n = n' /\ x = x' end /\
    match o with
    | Some s => remaining p it = s :: remaining p it'
    | None => remaining p it = [] /\ remaining p it' = []
    end.
Proof.
  induction fuel as [|fuel IH]; intros it Hwf Hm; [lia|].
  destruct it as [n x first min rest].
  cbn [pit_next].
  destruct (Nat.ltb_spec n x) as [H1|H1].
  { eexists _, _; split; [reflexivity|]. split; [exact Hwf|]. split; [auto|].
    cbn [remaining]. destruct (Nat.ltb_spec n x); [auto|lia]. }
  assert (E1 : (n <? x) = false) by (apply Nat.ltb_ge; lia).
  destruct ((n =? 0) && (x =? 0)) eqn:E2.
  { apply andb_prop in E2 as [En Ex]. apply Nat.eqb_eq in En, Ex. subst.
    destruct (Nat.eqb_spec first 1) as [->|Hf].
    - eexists _, _; split; [reflexivity|]. split.
      { destruct Hwf as [_ Hr]. destruct rest; split; try lia; auto. }
      split; [auto|]. reflexivity.
    - eexists _, _; split; [reflexivity|]. split; [exact Hwf|]. split; [auto|].
      cbn. destruct (Nat.eqb_spec first 1); [lia|auto]. }
  destruct ((n =? 0) || (x =? 0)) eqn:E3.
  { eexists _, _; split; [reflexivity|]. split; [exact Hwf|]. split; [auto|].
    cbn [remaining]. rewrite E1, E2, E3. auto. }
  apply orb_false_iff in E3 as [En Ex]. apply Nat.eqb_neq in En, Ex.
  assert (E3 : (n =? 0) || (x =? 0) = false).
  { apply orb_false_iff; split; apply Nat.eqb_neq; lia. }
  destruct (Nat.eqb_spec x 1) as [->|Hx].
  { assert (Hwf' : pit_wf (PIt n 1 (n + 1) min rest)).
    { destruct Hwf as [_ Hr]. destruct rest; split; try lia; auto. }
    destruct (Nat.leb_spec first n) as [Hf|Hf].
    - destruct (p n) eqn:Hp; (eexists _, _; split; [reflexivity|]; split; [exact Hwf'|]; split; [auto|]);
        cbn [remaining]; rewrite E1, E2, E3; cbn [Nat.eqb];
        destruct (Nat.leb_spec first n); try lia; destruct (Nat.leb_spec (n + 1) n); try lia; rewrite Hp; auto.
    - eexists _, _; split; [reflexivity|]. split; [exact Hwf|]. split; [auto|].
      cbn [remaining]. rewrite E1, E2, E3. cbn [Nat.eqb]. destruct (Nat.leb_spec first n); [lia|auto]. }
  assert (E4 : (x =? 1) = false) by (apply Nat.eqb_neq; auto).
  destruct (Nat.ltb_spec n first) as [Hf|Hf].
  { eexists _, _; split; [reflexivity|]. split; [exact Hwf|]. split; [auto|].
    cbn [remaining]. rewrite E1, E2, E3, E4. destruct (Nat.ltb_spec n first); [auto|lia]. }
  assert (E5 : (n <? first) = false) by (apply Nat.ltb_ge; lia).
  destruct Hwf as [Hf1 Hrest].
  set (r := match rest with None => PIt (n - first) (x - 1) first (min + 1) None | Some r => r end).
  assert (Hr : pit_wf r /\ match r with PIt n' x' _ _ _ => n' <= n /\ x' < x end).
  { unfold r. destruct rest as [[n' x' f' m' r']|]; [cbn [pit_n pit_x] in *; tauto|]. cbn; lia. }
  assert (Hrem : remaining p (PIt n x first min rest) =
                 (if p first then map (cons first) (remaining p r) else []) ++ parts p x n (S first)).
  { cbn [remaining]. rewrite E1, E2, E3, E4, E5. unfold r. destruct rest as [r0|]; [reflexivity|].
    destruct x as [|x]; [lia|]. rewrite parts_step by lia. f_equal. destruct (p first); [|reflexivity].
    f_equal. cbn [remaining]. replace (S x - 1) with x by lia.
    destruct (Nat.ltb_spec (n - first) x) as [Hs|Hs]; [apply parts_small; lia|].
    destruct (Nat.eqb_spec x 0) as [->|Hx0]; [lia|].
    rewrite andb_false_r, orb_false_r.
    destruct (Nat.eqb_spec (n - first) 0) as [Hz|Hz]; [lia|].
    destruct (Nat.eqb_spec x 1) as [->|Hx1]; [apply parts_one; lia|].
    destruct (Nat.ltb_spec (n - first) first) as [Hq|Hq].
    { destruct x; [lia|]. apply parts_over; lia. }
    reflexivity. }
  assert (Hnext : exists o it', pit_next fuel p (PIt n x (first + 1) min None) = Some (o, it') /\ pit_wf it' /\
    match it' with PIt n' x' _ _ _ => n = n' /\ x = x' end /\
    match o with
    | Some s => parts p x n (S first) = s :: remaining p it'
    | None => parts p x n (S first) = [] /\ remaining p it' = []
    end).
  { destruct (IH (PIt n x (first + 1) min None)) as (o & it' & Ho & Hw & Hnx & Hrm).
    - cbn; lia.
    - cbn [pit_measure] in *. nia.
    - exists o, it'. split; [exact Ho|]. split; [exact Hw|].
      assert (Hp' : remaining p (PIt n x (first + 1) min None) = parts p x n (S first)).
      { cbn [remaining]. rewrite E1, E2, E3, E4. replace (first + 1) with (S first) by lia.
        destruct (Nat.ltb_spec n (S first)); [|reflexivity].
        destruct x as [|x']; [lia|]. rewrite parts_over by lia. reflexivity. }
      rewrite Hp' in Hrm. split; [destruct it'; auto|exact Hrm]. }
  change (match rest with
          | Some r0 => r0
          | None => PIt (n - first) (x - 1) first (min + 1) None
          end) with r.
  destruct (p first) eqn:Hp; cbn [negb].
  - destruct (IH r) as (o & r' & Ho & Hw & Hnx & Hrm); [tauto| |].
    { destruct r as [n' x' f' m' r0]. cbn [pit_measure] in *. destruct Hr as [Hw [Hn' Hx']].
      assert (x' * (n' + 3) <= (x - 1) * (n + 3)) by (apply Nat.mul_le_mono; lia).
      destruct x; [lia|]. replace (S x - 1) with x in * by lia. nia. }
    rewrite Ho. destruct o as [part|].
    + eexists _, _; split; [reflexivity|]. split.
      { destruct r as [n1 x1 ? ? ?], r' as [n2 x2 ? ? ?]. destruct Hnx as [-> ->]. split; [lia|]. cbn [pit_n pit_x]. tauto. }
      split; [auto|]. rewrite Hrem, Hrm. cbn [map app]. f_equal.
      cbn [remaining]. rewrite E1, E2, E3, E4, E5, Hp. reflexivity.
    + destruct Hrm as [Hr1 Hr2].
      destruct Hnext as (o & it' & Ho' & Hw' & Hnx' & Hrm'). exists o, it'. rewrite Ho'.
      split; [reflexivity|]. split; [exact Hw'|]. split; [exact Hnx'|].
      rewrite Hrem, Hr1. exact Hrm'.
  - destruct Hnext as (o & it' & Ho' & Hw' & Hnx' & Hrm'). exists o, it'. rewrite Ho'.
    split; [reflexivity|]. split; [exact Hw'|]. split; [exact Hnx'|].
    rewrite Hrem. exact Hrm'.
Qed.

Lemma pit_measure_fuel it : pit_wf it -> pit_measure it < pit_fuel it.
Proof. destruct it as [n x f m r]. cbn [pit_measure pit_fuel pit_wf]. intros [H _]. nia. Qed.

Lemma answers_nil {A} m : answers m (@nil A) = repeat None m.
Proof. unfold answers. cbn. rewrite firstn_all2; [reflexivity|]. rewrite repeat_length; lia. Qed.
Lemma answers_cons {A} m (a : A) l : answers (S m) (a :: l) = Some a :: answers m l.
Proof.
  unfold answers. cbn [map app firstn]. f_equal.
  rewrite !firstn_app, !map_length. f_equal.
  assert (H : forall j k, j <= k -> firstn j (@repeat (option A) None k) = repeat None j).
  { induction j as [|j IH]; intros [|k] Hjk; try lia; cbn; [reflexivity|reflexivity|]. f_equal. apply IH; lia. }
  rewrite !H by lia. reflexivity.
Qed.

Lemma pit_calls_spec p m : forall it, pit_wf it -> pit_calls m p it = Some (answers m (remaining p it)).
Proof.
  induction m as [|m IH]; intros it Hwf; cbn [pit_calls]; [reflexivity|].
  destruct (pit_next_spec p (pit_fuel it) it Hwf (pit_measure_fuel it Hwf)) as (o & it' & Ho & Hw & _ & Hrm).
  rewrite Ho, (IH it' Hw). destruct o as [s|].
  - rewrite Hrm, answers_cons. reflexivity.
  - destruct Hrm as [-> ->]. rewrite !answers_nil. reflexivity.
Qed.
Lemma pit_collect_spec p m : forall it, pit_wf it -> length (remaining p it) < m ->
  pit_collect m p it = Some (remaining p it).
Proof.
  induction m as [|m IH]; intros it Hwf Hm; cbn [pit_collect]; [lia|].
  destruct (pit_next_spec p (pit_fuel it) it Hwf (pit_measure_fuel it Hwf)) as (o & it' & Ho & Hw & _ & Hrm).
  rewrite Ho. destruct o as [s|].
  - rewrite Hrm in *. cbn in Hm. rewrite IH; auto. lia.
  - destruct Hrm as [-> _]. reflexivity.
Qed.
Lemma remaining_new p n x : remaining p (pit_new n x) = parts p x n 1.
Proof.
  unfold pit_new. cbn [remaining].
  destruct (Nat.ltb_spec n x) as [H|H]; [symmetry; apply parts_small; lia|].
  destruct (Nat.eqb_spec n 0) as [->|Hn].
  { destruct x; [reflexivity|lia]. }
  cbn [andb orb]. destruct (Nat.eqb_spec x 0) as [->|Hx].
  { cbn [parts]. destruct (Nat.eqb_spec n 0); [lia|reflexivity]. }
  destruct (Nat.eqb_spec x 1) as [->|Hx1]; [symmetry; apply parts_one; lia|].
  destruct (Nat.ltb_spec n 1); [lia|reflexivity].
Qed.
Lemma pit_new_wf n x : pit_wf (pit_new n x).
Proof. cbn; lia. Qed.

Lemma partitions_sized_ok p n x :
  exists l, (forall m, pit_calls m p (pit_new n x) = Some (answers m l)) /\
            (forall m, length l < m -> predicated_partitions_sized m n x p = Some l) /\
            StronglySorted lex_lt l /\ (forall s, In s l <-> is_partition p 1 n x s).
Proof.
  exists (parts p x n 1). split; [|split; [|split]].
  - intros m. rewrite pit_calls_spec, remaining_new; auto using pit_new_wf.
  - intros m Hm. unfold predicated_partitions_sized. rewrite pit_collect_spec; rewrite ?remaining_new; auto using pit_new_wf.
  - apply parts_sorted.
  - intros s. apply parts_in.
Qed.

Lemma is_partition_shift p n x s :
  is_partition (fun k => p (k - 1)) 1 (n + x) x s ->
  is_partition p 0 n x (map (fun k => k - 1) s) /\ map S (map (fun k => k - 1) s) = s.
Proof.
  intros (Hl & Hs & Hf & Hsum). split.
  - repeat split.
    + rewrite map_length; auto.
    + eapply StronglySorted_map; [|exact Hs]. cbn; intros; lia.
    + apply Forall_forall. intros a Ha. apply in_map_iff in Ha as (b & <- & Hb).
      rewrite Forall_forall in Hf. destruct (Hf b Hb). split; [lia|auto].
    + assert (forall l, Forall (fun a => 1 <= a) l -> list_sum (map (fun k => k - 1) l) + length l = list_sum l) as HH.
      { induction 1; cbn [map length]; rewrite ?list_sum_cons; cbn [length] in *; [reflexivity|lia]. }
      specialize (HH s). rewrite Hl, Hsum in HH. assert (Forall (fun a => 1 <= a) s).
      { eapply Forall_impl; [|exact Hf]. cbn; tauto. }
      specialize (HH H). lia.
  - rewrite map_map. rewrite <- (map_id s) at 2. apply map_ext_in. intros a Ha.
    rewrite Forall_forall in Hf. destruct (Hf a Ha). lia.
Qed.

Lemma partitions_sized_zero_ok p n x :
  exists l, (forall m, length l < m -> predicated_partitions_sized_zero m n x p = Some l) /\
            StronglySorted lex_lt l /\ (forall s, In s l <-> is_partition p 0 n x s).
Proof.
  set (q := fun k => p (k - 1)).
  exists (map (map (fun k => k - 1)) (parts q x (n + x) 1)).
  assert (Hin : forall s, In s (map (map (fun k => k - 1)) (parts q x (n + x) 1)) <-> is_partition p 0 n x s).
  { intros s. rewrite in_map_iff. split.
    - intros (t & <- & Ht). apply parts_in in Ht. apply (is_partition_shift p n x t Ht).
    - intros (Hl & Hs & Hf & Hsum). exists (map S s). split.
      + rewrite map_map. rewrite <- (map_id s) at 2. apply map_ext. intros; lia.
      + apply parts_in. repeat split.
        * rewrite map_length; auto.
        * eapply StronglySorted_map; [|exact Hs]. cbn; intros; lia.
        * apply Forall_forall. intros a Ha. apply in_map_iff in Ha as (b & <- & Hb).
          rewrite Forall_forall in Hf. destruct (Hf b Hb). split; [lia|]. unfold q.
          replace (S b - 1) with b by lia. auto.
        * rewrite <- Hl, <- Hsum. clear. induction s; cbn [map length]; rewrite ?list_sum_cons; [reflexivity|lia]. }
  split; [|split].
  - intros m Hm. unfold predicated_partitions_sized_zero. fold q. rewrite map_length in Hm.
    rewrite pit_collect_spec; rewrite ?remaining_new; auto using pit_new_wf.
  - eapply StronglySorted_map; [|apply parts_sorted]. cbn.
    intros s t Hs Ht. apply parts_in in Hs, Ht. apply is_partition_shift in Hs as [_ Hs], Ht as [_ Ht].
    rewrite <- Hs, <- Ht at 1. intros H.
    remember (map (fun k => k - 1) s) as u eqn:Eu. remember (map (fun k => k - 1) t) as v eqn:Ev. clear -H.
    revert v H. induction u as [|a u IH]; intros [|b v] H; cbn in H; inversion H; subst; auto using lex_lt.
    apply lex_head; lia.
  - exact Hin.
Qed.

Lemma concat_opt_map {A B} (g : A -> option (list B)) (h : A -> list B) l :
  (forall a, In a l -> g a = Some (h a)) -> concat_opt (map g l) = Some (flat_map h l).
Proof.
  induction l as [|a l IH]; intros H; [reflexivity|].
  cbn. rewrite H by (left; auto). rewrite IH by (intros; apply H; right; auto). reflexivity.
Qed.

Lemma partitions_ok p n : 1 <= n ->
  exists l M, (forall m, M <= m -> predicated_partitions m n p = Some l) /\ NoDup l /\
            (forall s, In s l <-> is_partition p 1 n (length s) s).
Proof.
  intros Hn.
  set (l := flat_map (fun x => parts p x n 1) (seq 1 n)).
  set (M := S (list_max (map (fun x => length (parts p x n 1)) (seq 1 n)))).
  exists l, M. split; [|split].
  - intros m Hm. unfold predicated_partitions. apply concat_opt_map.
    intros x Hx. unfold predicated_partitions_sized.
    rewrite pit_collect_spec; rewrite ?remaining_new; auto using pit_new_wf.
    pose proof (list_max_le (map (fun x => length (parts p x n 1)) (seq 1 n)) (M - 1)) as [HH _].
    assert (Hle : Forall (fun k => k <= M - 1) (map (fun x0 => length (parts p x0 n 1)) (seq 1 n))).
    { apply HH. unfold M. lia. }
    rewrite Forall_forall in Hle. specialize (Hle (length (parts p x n 1))).
    assert (length (parts p x n 1) <= M - 1). { apply Hle. apply in_map_iff; eauto. }
    unfold M in *; lia.
  - unfold l. generalize (StronglySorted_seq 1 n). generalize (seq 1 n). intros xs Hx.
    induction Hx as [|x xs Hx IH Hf]; cbn; [constructor|].
    assert (Hnd : NoDup (parts p x n 1)).
    { eapply StronglySorted_NoDup; [apply lex_lt_irrefl|apply parts_sorted]. }
    revert Hnd. assert (Hdis : forall s, In s (parts p x n 1) -> ~ In s (flat_map (fun x => parts p x n 1) xs)).
    { intros s Hs Hs'. apply in_flat_map in Hs' as (y & Hy & Hs').
      apply parts_in in Hs as [Hl _], Hs' as [Hl' _]. rewrite Forall_forall in Hf. specialize (Hf y Hy). lia. }
    revert Hdis. generalize (parts p x n 1). intros l0 Hdis Hnd. induction Hnd as [|a l0 Ha Hnd IH0]; cbn; [exact IH|].
    constructor.
    + rewrite in_app_iff. intros [?|?]; [auto|]. eapply Hdis; [left; reflexivity|auto].
    + apply IH0. intros s Hs. apply Hdis. right; auto.
  - intros s. unfold l. rewrite in_flat_map. split.
    + intros (x & Hx & Hs). apply parts_in in Hs. destruct Hs as (Hl & Hr). rewrite Hl. split; auto.
    + intros Hs. exists (length s). split; [|apply parts_in; exact Hs].
      destruct Hs as (_ & _ & Hf & Hsum).
      assert (HH : length s * 1 <= list_sum s).
      { apply list_sum_ge. eapply Forall_impl; [|exact Hf]. cbn; tauto. }
      apply in_seq. destruct s; [cbn in Hsum|cbn [length] in *]; lia.
Qed.
