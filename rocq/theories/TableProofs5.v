(* partition checks: PartitionState::check_state, Partition::eq, from_subsets, is_left_cosets ... *)
From Coq Require Import List Arith Lia Bool Sorting.Sorted Sorting.Permutation.
From Verif Require Import GroupSpec GroupModel GroupProofs GroupProofs2 TableSpec TableModel TableProofs TableProofs2 TableProofs3 TableProofs4.
Import ListNotations.

Lemma ps_class_spec l : forall acc, NoDup acc -> (forall acc', ps_class l acc = Some acc' -> NoDup acc' /\ acc' = rev l ++ acc) /\
   (NoDup (l ++ acc) -> ps_class l acc <> None).
Proof.
  induction l as [|x l IH]; intros acc Hn; cbn [ps_class].
  - split; [intros acc' [= <-]; auto|discriminate].
  - destruct (has x acc) eqn:E.
    + apply has_iff in E. split; [discriminate|]. cbn [app]. intros H. inversion H; subst. exfalso. apply H2. apply in_or_app. auto.
    + apply has_false in E. destruct (IH (x :: acc)) as [I1 I2]; [constructor; auto|]. split.
      * intros acc' H. apply I1 in H as [H1 ->]. split; auto. cbn [rev]. rewrite <- app_assoc. reflexivity.
      * intros H. apply I2. apply (Permutation_NoDup (l := (x :: l) ++ acc)); auto. cbn. apply Permutation_middle.
Qed.
Lemma ps_classes_spec cs : forall acc, NoDup acc -> (forall acc', ps_classes cs acc = Some acc' -> NoDup acc' /\ Permutation acc' (concat cs ++ acc) /\ forall c, In c cs -> c <> []) /\
   (NoDup (concat cs ++ acc) -> (forall c, In c cs -> c <> []) -> ps_classes cs acc <> None).
Proof.
  induction cs as [|c cs IH]; intros acc Hn; cbn [ps_classes concat].
  - split; [intros acc' [= <-]; split; [auto|split; [apply Permutation_refl|intros ? []]]|discriminate].
  - destruct (Nat.eqb_spec (length c) 0) as [E|E].
    + split; [discriminate|]. intros _ H. exfalso. apply (H c); [left; auto|]. destruct c; auto; discriminate.
    + destruct (ps_class_spec c acc Hn) as [P1 P2]. destruct (ps_class c acc) as [acc1|] eqn:E1.
      * destruct (P1 acc1 eq_refl) as [Q1 Q2]. destruct (IH acc1 Q1) as [I1 I2].
        assert (Pm : Permutation (concat cs ++ acc1) ((c ++ concat cs) ++ acc)).
        { subst acc1. rewrite app_assoc. apply Permutation_app_tail. rewrite Permutation_app_comm. apply Permutation_app_tail. apply Permutation_sym, Permutation_rev. }
        split.
        -- intros acc' H. apply I1 in H as (H1 & H2 & H3). split; auto. split; [rewrite H2; auto|]. intros c' [<-|Hc]; auto. intros ->. apply E. reflexivity.
        -- intros H1 H2. apply I2; [|intros c' Hc; apply H2; right; auto]. apply (Permutation_NoDup (Permutation_sym Pm)); auto.
      * split; [discriminate|]. intros H _. exfalso. apply P2; auto. rewrite <- app_assoc in H. apply NoDup_app_iff' in H as (H1 & H2 & H3). apply NoDup_app_iff' in H2 as (H2 & H4 & H5).
        apply NoDup_app_iff'. split; auto. split; auto. intros x Hx Hx'. apply (H3 x Hx). apply in_or_app. auto.
Qed.
Lemma NoDup_concat_class (cs : list (list nat)) : NoDup (concat cs) -> forall j k x, j < length cs -> k < length cs -> In x (nth j cs []) -> In x (nth k cs []) -> j = k.
Proof.
  induction cs as [|c cs IH]; intros Hn j k x Hj Hk; cbn in Hj; [lia|]. cbn [concat] in Hn. apply NoDup_app_iff' in Hn as (H1 & H2 & H3).
  assert (Hc : forall i, i < length cs -> In x (nth i cs []) -> In x (concat cs)). { intros i Hi Hx. apply in_concat. exists (nth i cs []). split; auto. apply nth_In; auto. }
  cbn in Hk. destruct j as [|j], k as [|k]; cbn [nth]; auto.
  - intros A B. exfalso. apply (H3 x A). apply (Hc k); [lia|auto].
  - intros A B. exfalso. apply (H3 x B). apply (Hc j); [lia|auto].
  - intros A B. f_equal. apply (IH H2 j k x); auto; lia.
Qed.
(* check_state accepts exactly the partitions *)
Lemma ps_check_spec n cs lk : (forall c, In c cs -> asc c) -> (ps_check n (cs, lk) = true <-> partitions_by n (fun x y => nth x lk 0 = nth y lk 0) cs lk).
Proof.
  intros Ha. unfold ps_check. cbn [fst snd]. destruct (ps_classes_spec cs [] (NoDup_nil _)) as [P1 P2]. rewrite app_nil_r in P2. split.
  - destruct (ps_classes cs []) as [acc|] eqn:E; [|discriminate]. intros H. destruct (P1 acc eq_refl) as (H1 & H2 & H3). rewrite app_nil_r in H2.
    apply andb_prop in H as [H H6]. apply andb_prop in H as [H4 H5]. apply Nat.eqb_eq in H4, H5. rewrite forallb_forall in H6.
    assert (H6' : forall i, i < n -> nth i lk 0 < length cs /\ In i (nth (nth i lk 0) cs [])).
    { intros i Hi. specialize (H6 i). rewrite H5 in H6. specialize (H6 (proj2 (in_seq _ _ _) (conj (Nat.le_0_l _) Hi))). apply andb_prop in H6 as [Q1 Q2]. apply Nat.ltb_lt in Q1. apply has_iff in Q2. auto. }
    pose proof (Permutation_NoDup H2 H1) as Hcn.
    assert (Hlt : forall x, In x (concat cs) -> x < n).
    { intros x Hx. assert (Hi : incl (concat cs) (seq 0 n)).
      { apply NoDup_length_incl; [apply seq_NoDup| |].
        - rewrite seq_length, <- (Permutation_length H2). lia.
        - intros i Hi. apply in_seq in Hi. destruct (H6' i) as [Q1 Q2]; [lia|]. apply in_concat. exists (nth (nth i lk 0) cs []). split; auto. apply nth_In; auto. }
      apply Hi in Hx. apply in_seq in Hx. lia. }
    split; [auto|]. split; [intros c Hc; split; auto|]. split; [intros x Hx; apply H6'; auto|]. split; [|intros; tauto].
    intros k x Hk. split.
    + intros Hx. assert (Hxn : x < n). { apply Hlt. apply in_concat. exists (nth k cs []). split; auto. apply nth_In; auto. }
      split; auto. destruct (H6' x Hxn) as [Q1 Q2]. apply (NoDup_concat_class cs Hcn _ _ x); auto.
    + intros [Hx <-]. apply H6'; auto.
  - intros P. pose proof P as (Q1 & Q2 & Q3 & Q4 & Q5). pose proof (pb_concat _ _ _ _ P) as Pc.
    assert (Hcn : NoDup (concat cs)) by (apply (Permutation_NoDup (Permutation_sym Pc)), seq_NoDup).
    destruct (ps_classes cs []) as [acc|] eqn:E; [|exfalso; apply P2; auto; intros c Hc; apply Q2; auto].
    destruct (P1 acc eq_refl) as (H1 & H2 & H3). rewrite app_nil_r in H2.
    rewrite Q1, Nat.eqb_refl, (Permutation_length H2), (Permutation_length Pc), seq_length, Nat.eqb_refl. cbn [andb].
    apply forallb_forall. intros i Hi. apply in_seq in Hi. assert (Hin : i < n) by lia. rewrite (proj2 (Nat.ltb_lt _ _) (Q3 i Hin)). cbn [andb]. apply has_iff. apply Q4; auto.
Qed.

(* ---------- equality of partitions *)
Fixpoint updo (g : list (option nat)) (j v : nat) : list (option nat) := match g, j with [], _ => [] | _ :: t, 0 => Some v :: t | h :: t, S j' => h :: updo t j' v end.
Lemma updo_length g : forall j v, length (updo g j v) = length g.
Proof. induction g as [|h g IH]; intros [|j] v; cbn; auto. Qed.
Lemma updo_nth g : forall j v x, nth x (updo g j v) None = if (x =? j) && (x <? length g) then Some v else nth x g None.
Proof.
  induction g as [|h g IH]; intros j v x; cbn [updo length].
  - destruct j; cbn; destruct x; cbn; rewrite ?andb_false_r; reflexivity.
  - destruct j as [|j], x as [|x]; cbn [updo nth]; try reflexivity. rewrite IH. reflexivity.
Qed.
Lemma peq_eq i is_ la lb f : peq_loop (i :: is_) la lb f = match nth (nth i la 0) f None with
   | Some k => if Nat.eqb k (nth i lb 0) then peq_loop is_ la lb f else false | None => peq_loop is_ la lb (updo f (nth i la 0) (nth i lb 0)) end.
Proof.
  cbn [peq_loop]. destruct (nth (nth i la 0) f None); auto. f_equal. generalize (nth i la 0) as j. intros j. revert j. induction f as [|h f IH]; intros [|j]; cbn; auto. f_equal. apply IH.
Qed.
Lemma peq_spec la lb m : forall rest done f, length f = m -> (forall i, In i (done ++ rest) -> nth i la 0 < m) ->
  (forall i, In i done -> nth (nth i la 0) f None = Some (nth i lb 0)) -> (forall k v, nth k f None = Some v -> exists i, In i done /\ nth i la 0 = k /\ nth i lb 0 = v) ->
  (peq_loop rest la lb f = true <-> forall i j, In i (done ++ rest) -> In j (done ++ rest) -> nth i la 0 = nth j la 0 -> nth i lb 0 = nth j lb 0).
Proof.
  induction rest as [|i rest IH]; intros done f Hf Hb H1 H2.
  - cbn [peq_loop]. rewrite app_nil_r. split; auto. intros _ i j Hi Hj E. apply H1 in Hi, Hj. rewrite E in Hi. congruence.
  - rewrite peq_eq. replace (done ++ i :: rest) with ((done ++ [i]) ++ rest) in * by (rewrite <- app_assoc; reflexivity).
    destruct (nth (nth i la 0) f None) as [k|] eqn:E.
    + destruct (Nat.eqb_spec k (nth i lb 0)) as [->|Hk].
      * apply IH; auto.
        -- intros j Hj. apply in_app_iff in Hj as [Hj|[<-|[]]]; auto.
        -- intros k v Hkv. apply H2 in Hkv as (j & Hj & Q). exists j. split; auto. apply in_or_app; auto.
      * split; [discriminate|]. intros H. exfalso. apply Hk. apply H2 in E as (j & Hj & Q1 & <-). apply H; auto; apply in_or_app; left; apply in_or_app; cbn; auto.
    + assert (Hi : nth i la 0 < m) by (apply Hb; apply in_or_app; left; apply in_or_app; cbn; auto). apply IH; auto.
      * rewrite updo_length; auto.
      * intros j Hj. rewrite updo_nth, Hf. destruct (Nat.eqb_spec (nth j la 0) (nth i la 0)) as [Ej|Ej].
        -- rewrite Ej. destruct (Nat.ltb_spec (nth i la 0) m); [|lia]. cbn [andb]. apply in_app_iff in Hj as [Hj|[<-|[]]]; auto. apply H1 in Hj. rewrite Ej, E in Hj. discriminate.
        -- cbn [andb]. apply in_app_iff in Hj as [Hj|[<-|[]]]; auto. contradiction.
      * intros k v. rewrite updo_nth, Hf. destruct (Nat.eqb_spec k (nth i la 0)) as [->|Ek]; cbn [andb].
        -- destruct (Nat.ltb_spec (nth i la 0) m); [|lia]. intros [= <-]. exists i. split; auto. apply in_or_app; cbn; auto.
        -- intros Hkv. apply H2 in Hkv as (j & Hj & Q). exists j. split; auto. apply in_or_app; auto.
Qed.
Lemma surj_inj_counting m m' (f : nat -> nat) : m = m' -> (forall k, k < m' -> exists j, j < m /\ f j = k) -> forall i j, i < m -> j < m -> f i = f j -> i = j.
Proof.
  intros <- Hs i j Hi Hj E. destruct (Nat.eq_dec i j); auto. exfalso.
  set (l := filter (fun x => negb (x =? j)) (seq 0 m)).
  assert (Hl : length l < m). { unfold l. rewrite <- (seq_length m 0) at 2. apply (filter_length_lt _ _ j); [apply in_seq; lia|]. rewrite Nat.eqb_refl. reflexivity. }
  assert (Hi' : incl (seq 0 m) (map f l)).
  { intros k Hk. apply in_seq in Hk. destruct (Hs k) as (x & Hx & Ex); [lia|]. apply in_map_iff. destruct (Nat.eq_dec x j) as [->|Hxj].
    - exists i. split; [congruence|]. unfold l. apply filter_In. split; [apply in_seq; lia|]. destruct (Nat.eqb_spec i j); auto.
    - exists x. split; auto. unfold l. apply filter_In. split; [apply in_seq; lia|]. destruct (Nat.eqb_spec x j); auto. }
  apply NoDup_incl_length in Hi'; [|apply seq_NoDup]. rewrite seq_length, map_length in Hi'. lia.
Qed.
Lemma partition_eq_spec n E1 E2 cs lk cs' lk' : partitions_by n E1 cs lk -> partitions_by n E2 cs' lk' ->
  (partition_eq n (cs, lk) (cs', lk') = true <-> forall x y, x < n -> y < n -> (E1 x y <-> E2 x y)).
Proof.
  intros P1 P2. pose proof P1 as (A1 & A2 & A3 & A4 & A5). pose proof P2 as (B1 & B2 & B3 & B4 & B5). unfold partition_eq. cbn [fst snd].
  assert (Hpeq : peq_loop (seq 0 n) lk lk' (repeat None (length cs)) = true <-> forall i j, i < n -> j < n -> nth i lk 0 = nth j lk 0 -> nth i lk' 0 = nth j lk' 0).
  { rewrite (peq_spec lk lk' (length cs) (seq 0 n) [] (repeat None (length cs))).
    - cbn [app]. split; intros H i j Hi Hj; apply H; try (apply in_seq; lia); apply in_seq in Hi, Hj; lia.
    - apply repeat_length.
    - cbn [app]. intros i Hi. apply in_seq in Hi. apply A3. lia.
    - intros i [].
    - intros k v Hk. exfalso. rewrite nth_repeat in Hk. discriminate. }
  rewrite andb_true_iff, Nat.eqb_eq, Hpeq. split.
  - intros [Hl H]. set (f k := nth (hd 0 (nth k cs [])) lk' 0).
    assert (Hf : forall x, x < n -> f (nth x lk 0) = nth x lk' 0). { intros x Hx. destruct (pb_rep _ _ _ _ (nth x lk 0) P1 (A3 x Hx)) as [R1 R2]. apply H; auto. }
    assert (Hinj := surj_inj_counting (length cs) (length cs') f Hl). 
    assert (Hs : forall k, k < length cs' -> exists j, j < length cs /\ f j = k).
    { intros k Hk. destruct (pb_rep _ _ _ _ k P2 Hk) as [R1 R2]. exists (nth (hd 0 (nth k cs' [])) lk 0). split; [auto|]. rewrite Hf; auto. }
    specialize (Hinj Hs). intros x y Hx Hy. rewrite <- A5, <- B5 by auto. split; [apply H; auto|]. intros E. apply Hinj; auto. rewrite !Hf; auto.
  - intros H. split.
    + apply Nat.le_antisymm.
      * assert (Hm : forall l, NoDup l -> (forall x, In x l -> x < length cs) -> NoDup (map (fun k => nth (hd 0 (nth k cs [])) lk' 0) l)).
        { induction l as [|k l IH]; intros Hl Hb; cbn; [constructor|]. inversion Hl; subst. constructor; [|apply IH; auto; intros; apply Hb; right; auto].
          intros Hin. apply in_map_iff in Hin as (j & Ej & Hj). destruct (pb_rep _ _ _ _ j P1) as [R1 R2]; [apply Hb; right; auto|]. destruct (pb_rep _ _ _ _ k P1) as [R3 R4]; [apply Hb; left; auto|].
          apply B5 in Ej; auto. apply H in Ej; auto. apply A5 in Ej; auto. rewrite R2, R4 in Ej. subst; auto. }
        specialize (Hm (seq 0 (length cs)) (seq_NoDup _ _)). rewrite <- (seq_length (length cs) 0), <- (seq_length (length cs') 0), <- (map_length (fun k => nth (hd 0 (nth k cs [])) lk' 0)).
        apply NoDup_incl_length; [apply Hm; intros x Hx; apply in_seq in Hx; lia|]. intros v Hv. apply in_map_iff in Hv as (k & <- & Hk). apply in_seq in Hk. apply in_seq. split; [lia|]. cbn. apply B3. apply (pb_rep _ _ _ _ k P1). lia.
      * assert (Hm : forall l, NoDup l -> (forall x, In x l -> x < length cs') -> NoDup (map (fun k => nth (hd 0 (nth k cs' [])) lk 0) l)).
        { induction l as [|k l IH]; intros Hl Hb; cbn; [constructor|]. inversion Hl; subst. constructor; [|apply IH; auto; intros; apply Hb; right; auto].
          intros Hin. apply in_map_iff in Hin as (j & Ej & Hj). destruct (pb_rep _ _ _ _ j P2) as [R1 R2]; [apply Hb; right; auto|]. destruct (pb_rep _ _ _ _ k P2) as [R3 R4]; [apply Hb; left; auto|].
          apply A5 in Ej; auto. apply H in Ej; auto. apply B5 in Ej; auto. rewrite R2, R4 in Ej. subst; auto. }
        specialize (Hm (seq 0 (length cs')) (seq_NoDup _ _)). rewrite <- (seq_length (length cs) 0), <- (seq_length (length cs') 0), <- (map_length (fun k => nth (hd 0 (nth k cs' [])) lk 0)).
        apply NoDup_incl_length; [apply Hm; intros x Hx; apply in_seq in Hx; lia|]. intros v Hv. apply in_map_iff in Hv as (k & <- & Hk). apply in_seq in Hk. apply in_seq. split; [lia|]. cbn. apply A3. apply (pb_rep _ _ _ _ k P2). lia.
    + intros i j Hi Hj E. apply B5; auto. apply H; auto. apply A5; auto.
Qed.

(* ---------- from_subsets *)
Lemma from_lookup_spec cs : forall n k0 lk, length lk = n -> NoDup (concat cs) ->
  let r := fold_left (fun kl cl => (S (fst kl), fold_left (fun l h => set_at l h (fst kl)) cl (snd kl))) cs (k0, lk) in
  length (snd r) = n /\ (forall j x, j < length cs -> x < n -> In x (nth j cs []) -> nth x (snd r) 0 = k0 + j) /\ (forall x, x < n -> ~ In x (concat cs) -> nth x (snd r) 0 = nth x lk 0).
Proof.
  induction cs as [|c cs IH]; intros n k0 lk Hl Hn; cbn [fold_left fst snd].
  - split; auto. split; auto. intros j x Hj. cbn in Hj. lia.
  - cbn [concat] in Hn. apply NoDup_app_iff' in Hn as (N1 & N2 & N3). specialize (IH n (S k0) (fold_left (fun l h => set_at l h k0) c lk)). rewrite set_many_length in IH.
    destruct (IH Hl N2) as (I1 & I2 & I3). split; auto. split.
    + intros [|j] x Hj Hx Hin; cbn [nth] in Hin.
      * rewrite I3; auto. rewrite Nat.add_0_r. apply set_many_nth; auto. lia.
      * rewrite (I2 j); auto; [lia|cbn in Hj; lia].
    + intros x Hx Hc. cbn [concat] in Hc. rewrite I3; auto; [|intros Q; apply Hc; apply in_or_app; auto]. apply set_many_nth; [lia|]. intros Q. apply Hc, in_or_app; auto.
Qed.
(* the subsets are a partition of {0..n-1} *)
Definition is_set_partition (n : nat) (cs : list (list nat)) : Prop := (forall c, In c cs -> c <> []) /\ (forall c x, In c cs -> In x c -> x < n) /\
  (forall x, x < n -> exists k, k < length cs /\ In x (nth k cs []) /\ forall j, j < length cs -> In x (nth j cs []) -> j = k).
Lemma from_subsets_spec n cs : (forall c, In c cs -> asc c) ->
  (forall p, from_subsets n cs = Some p -> fst p = cs /\ partitions_by n (fun x y => nth x (snd p) 0 = nth y (snd p) 0) cs (snd p)) /\
  (from_subsets n cs <> None <-> is_set_partition n cs).
Proof.
  intros Ha. unfold from_subsets.
  set (lk := snd (fold_left (fun kl cl => (S (fst kl), fold_left (fun l h => set_at l h (fst kl)) cl (snd kl))) cs (0, repeat 0 n))).
  assert (Hsp : forall p, (if forallb (forallb (fun x => x <? n)) cs then if ps_check n (cs, lk) then Some (cs, lk) else None else None) = Some p ->
     fst p = cs /\ partitions_by n (fun x y => nth x (snd p) 0 = nth y (snd p) 0) cs (snd p)).
  { intros p. destruct (forallb _ cs); [|discriminate]. destruct (ps_check n (cs, lk)) eqn:E; [|discriminate]. intros [= <-]. split; auto. apply ps_check_spec in E; auto. }
  split; [exact Hsp|]. split.
  - intros H. destruct (if forallb _ cs then _ else _) as [p|] eqn:E; [|contradiction]. destruct (Hsp p eq_refl) as (_ & Q1 & Q2 & Q3 & Q4 & Q5).
    split; [intros c Hc; apply Q2; auto|]. split.
    + intros c x Hc Hx. apply (In_nth _ _ []) in Hc as (k & Hk & <-). apply Q4 in Hx; tauto.
    + intros x Hx. exists (nth x (snd p) 0). split; auto. split; [apply Q4; auto|]. intros j Hj Hin. apply Q4 in Hin; auto. symmetry. tauto.
  - intros (Q1 & Q2 & Q3). assert (Hb : forallb (forallb (fun x => x <? n)) cs = true).
    { apply forallb_forall. intros c Hc. apply forallb_forall. intros x Hx. apply Nat.ltb_lt. eauto. }
    rewrite Hb. assert (Hn : NoDup (concat cs)).
    { clear Hsp Hb lk. assert (Hu : forall j k x, j < length cs -> k < length cs -> In x (nth j cs []) -> In x (nth k cs []) -> j = k).
      { intros j k x Hj Hk Hx Hx'. destruct (Q3 x) as (m & _ & _ & U); [apply (Q2 (nth j cs [])); auto; apply nth_In; auto|]. rewrite (U j), (U k); auto. }
      clear Q1 Q2 Q3. induction cs as [|c cs IH]; cbn [concat]; [constructor|]. apply NoDup_app_iff'. split; [apply asc_NoDup, Ha; left; auto|]. split.
      - apply IH; [intros; apply Ha; right; auto|]. intros j k x Hj Hk Hx Hx'. assert (S j = S k) by (apply (Hu (S j) (S k) x); cbn; auto; lia). lia.
      - intros x Hx Hx'. apply in_concat in Hx' as (d & Hd & Hx'). apply (In_nth _ _ []) in Hd as (k & Hk & <-). assert (0 = S k); [|discriminate]. apply (Hu 0 (S k) x); cbn; auto; lia. }
    destruct (from_lookup_spec cs n 0 (repeat 0 n) (repeat_length _ _) Hn) as (L1 & L2 & L3). fold lk in L1, L2, L3.
    assert (Hps : ps_check n (cs, lk) = true).
    { apply ps_check_spec; auto. split; auto. split; [intros c Hc; auto|]. split; [|split; [|tauto]].
      - intros x Hx. destruct (Q3 x Hx) as (k & Hk & Hin & _). rewrite (L2 k); auto.
      - intros k x Hk. split.
        + intros Hin. assert (Hx : x < n) by (apply (Q2 (nth k cs [])); auto; apply nth_In; auto). split; auto. rewrite (L2 k); auto.
        + intros [Hx <-]. destruct (Q3 x Hx) as (k & Hk' & Hin & _). rewrite (L2 k); auto. }
    rewrite Hps. discriminate.
Qed.

(* ---------- is_left_cosets, is_right_cosets, is_congruence *)
Section Cos.
Variable t : table.
Hypothesis Ht : vt t.
Let G : tgroup t := vt_group t Ht.
Notation n := (tn t).
Notation V := (fun x => x < tn t).
Notation subg H := (is_subgroup V (tident t) (invT t) (mulT t) H).
Lemma pb_E_equiv E cs lk : partitions_by n E cs lk -> (forall x y, x < n -> y < n -> E x y -> E y x) /\ (forall x y z, x < n -> y < n -> z < n -> E x y -> E y z -> E x z).
Proof.
  intros (A1 & A2 & A3 & A4 & A5). split.
  - intros x y Hx Hy H. apply A5; auto. symmetry. apply A5; auto.
  - intros x y z Hx Hy Hz H1 H2. apply A5; auto. transitivity (nth y lk 0); apply A5; auto.
Qed.
Lemma project_ident E cs lk : partitions_by n E cs lk -> let cl := project (cs, lk) (tident t) in asc cl /\ cl <> [] /\ (forall x, In x cl -> x < n) /\ forall x, In x cl <-> x < n /\ E (tident t) x.
Proof.
  intros P. cbn zeta. pose proof (Ge t Ht) as He. split; [apply (pb_class_asc n E); auto|]. pose proof (fun x => pb_project n E cs lk (tident t) x P He) as Hp.
  assert (Hin : In (tident t) (project (cs, lk) (tident t))) by (apply Hp; split; auto; apply (pb_refl n E cs lk); auto).
  split; [intros Q; rewrite Q in Hin; destruct Hin|]. split; auto. intros x Hx. apply Hp in Hx. tauto.
Qed.
Lemma is_left_cosets_spec pick E cs lk : choice pick -> partitions_by n E cs lk -> exists b, is_left_cosets pick t (cs, lk) = Some b /\
  (b = true <-> exists H, subg H /\ forall x y, x < n -> y < n -> (E x y <-> same_left_coset V (mulT t) H x y)).
Proof.
  intros Hp P. unfold is_left_cosets. destruct (project_ident E cs lk P) as (Ha & Hne & Hlt & Hin). set (cl := project (cs, lk) (tident t)) in *.
  pose proof (Ge t Ht) as He.
  assert (Hkey : forall H, subg H -> (forall x y, x < n -> y < n -> (E x y <-> same_left_coset V (mulT t) H x y)) -> forall x, In x cl <-> H x).
  { intros H Hs HE x. destruct Hs as (S1 & S2 & S3 & S4). rewrite Hin. split.
    - intros [Hx Hex]. apply HE in Hex as (g & h & k & Hg & Hh & Hk & E1 & E2); auto.
      assert (Eg : g = invT t h). { assert (E1' : mulT t g h = tident t) by auto. rewrite <- (Gii t Ht g Hg). f_equal. symmetry. apply (inv_unique _ _ _ _ G); auto. }
      rewrite E2, Eg. auto.
    - intros Hx. split; auto. apply HE; auto. exists (tident t), (tident t), x. split; auto. split; auto. split; auto. rewrite !Gil by auto. auto. }
  destruct (subset_is_subgroup t cl) eqn:Esub.
  - apply (is_subgroup_spec t Ht cl Hlt Hne) in Esub. destruct (left_cosets_spec t Ht cl Ha Esub pick Hp) as (qs & ql & -> & Q & _).
    exists (partition_eq n (qs, ql) (cs, lk)). split; auto. rewrite (partition_eq_spec n _ _ qs ql cs lk Q P). split.
    + intros H. exists (fun x => In x cl). split; auto. intros x y Hx Hy. rewrite H by auto. tauto.
    + intros (H & Hs & HE) x y Hx Hy. rewrite HE by auto. pose proof (Hkey H Hs HE) as K. split; intros (g & h & k & A & B & C & D & F); exists g, h, k; (split; [auto|split; [apply K; auto|split; [apply K; auto|auto]]]).
  - exists false. split; auto. split; [discriminate|]. intros (H & Hs & HE). exfalso. pose proof (Hkey H Hs HE) as K.
    assert (subset_is_subgroup t cl = true); [|congruence]. apply is_subgroup_spec; auto. destruct Hs as (S1 & S2 & S3 & S4). split; auto. split; [apply K; auto|]. split.
    + intros x Hx. apply K, S3, K; auto.
    + intros x y Hx Hy. apply K, S4; apply K; auto.
Qed.
Lemma is_right_cosets_spec pick E cs lk : choice pick -> partitions_by n E cs lk -> exists b, is_right_cosets pick t (cs, lk) = Some b /\
  (b = true <-> exists H, subg H /\ forall x y, x < n -> y < n -> (E x y <-> same_right_coset V (mulT t) H x y)).
Proof.
  intros Hp P. unfold is_right_cosets. destruct (project_ident E cs lk P) as (Ha & Hne & Hlt & Hin). set (cl := project (cs, lk) (tident t)) in *.
  pose proof (Ge t Ht) as He.
  assert (Hkey : forall H, subg H -> (forall x y, x < n -> y < n -> (E x y <-> same_right_coset V (mulT t) H x y)) -> forall x, In x cl <-> H x).
  { intros H Hs HE x. destruct Hs as (S1 & S2 & S3 & S4). rewrite Hin. split.
    - intros [Hx Hex]. apply HE in Hex as (g & h & k & Hg & Hh & Hk & E1 & E2); auto.
      assert (Eg : g = invT t h). { apply (inv_unique _ _ _ _ G); auto. }
      rewrite E2, Eg. auto.
    - intros Hx. split; auto. apply HE; auto. exists (tident t), (tident t), x. split; auto. split; auto. split; auto. rewrite Gil, Gir by auto. auto. }
  destruct (subset_is_subgroup t cl) eqn:Esub.
  - apply (is_subgroup_spec t Ht cl Hlt Hne) in Esub. destruct (right_cosets_spec t Ht cl Ha Esub pick Hp) as (qs & ql & -> & Q & _).
    exists (partition_eq n (qs, ql) (cs, lk)). split; auto. rewrite (partition_eq_spec n _ _ qs ql cs lk Q P). split.
    + intros H. exists (fun x => In x cl). split; auto. intros x y Hx Hy. rewrite H by auto. tauto.
    + intros (H & Hs & HE) x y Hx Hy. rewrite HE by auto. pose proof (Hkey H Hs HE) as K. split; intros (g & h & k & A & B & C & D & F); exists g, h, k; (split; [auto|split; [apply K; auto|split; [apply K; auto|auto]]]).
  - exists false. split; auto. split; [discriminate|]. intros (H & Hs & HE). exfalso. pose proof (Hkey H Hs HE) as K.
    assert (subset_is_subgroup t cl = true); [|congruence]. apply is_subgroup_spec; auto. destruct Hs as (S1 & S2 & S3 & S4). split; auto. split; [apply K; auto|]. split.
    + intros x Hx. apply K, S3, K; auto.
    + intros x y Hx Hy. apply K, S4; apply K; auto.
Qed.
Lemma is_congruence_spec pick pick' E cs lk : choice pick -> choice pick' -> partitions_by n E cs lk -> exists b, is_congruence pick pick' t (cs, lk) = Some b /\
  (b = true <-> congruence t E).
Proof.
  intros Hp Hp' P. unfold is_congruence. destruct (is_left_cosets_spec pick E cs lk Hp P) as (b & -> & Hb). destruct (is_right_cosets_spec pick' E cs lk Hp' P) as (b' & -> & Hb').
  pose proof (Ge t Ht) as He. destruct (pb_E_equiv E cs lk P) as [Esym Etr]. pose proof (fun x => pb_refl n E cs lk x P) as Erefl.
  assert (Hc : congruence t E -> b = true /\ b' = true).
  { intros C. assert (HH : subg (fun x => x < n /\ E (tident t) x)).
    { split; [tauto|]. split; [split; auto|]. split.
      - intros x [Hx Hex]. split; [apply Ginv; auto|]. pose proof (C _ _ _ _ (Ginv t Ht x Hx) (Ginv t Ht x Hx) He Hx (Erefl _ (Ginv t Ht x Hx)) Hex) as Q.
        rewrite Gir, Gvl in Q by auto using Ginv. apply Esym; auto using Ginv.
      - intros x y [Hx Hex] [Hy Hey]. split; [apply Gop; auto|]. pose proof (C _ _ _ _ He Hx He Hy Hex Hey) as Q. rewrite Gil in Q by auto. auto. }
    split; [apply Hb|apply Hb']; exists (fun x => x < n /\ E (tident t) x); (split; [auto|]); intros x y Hx Hy; split.
    - intros H. exists x, (tident t), (mulT t (invT t x) y). split; auto. split; [split; auto|]. split; [split; [apply Gop; auto using Ginv|]|].
      + pose proof (C _ _ _ _ (Ginv t Ht x Hx) (Ginv t Ht x Hx) Hx Hy (Erefl _ (Ginv t Ht x Hx)) H) as Q. rewrite Gvl in Q by auto. auto.
      + rewrite Gir, Gvr2 by auto. auto.
    - intros (g & h & k & Hg & [Hh Eh] & [Hk Ek] & -> & ->). apply C; auto. apply (Etr h (tident t) k); auto.
    - intros H. exists x, (tident t), (mulT t y (invT t x)). split; auto. split; [split; auto|]. split; [split; [apply Gop; auto using Ginv|]|].
      + pose proof (C _ _ _ _ Hx Hy (Ginv t Ht x Hx) (Ginv t Ht x Hx) H (Erefl _ (Ginv t Ht x Hx))) as Q. rewrite Gvr in Q by auto. auto.
      + rewrite Gil by auto. rewrite <- Gas, Gvl, Gir by auto using Ginv. auto.
    - intros (g & h & k & Hg & [Hh Eh] & [Hk Ek] & -> & ->). apply C; auto. apply (Etr h (tident t) k); auto. }
  cbn [andE]. destruct b.
  - exists b'. split; auto. split.
    + intros ->. destruct (proj1 Hb eq_refl) as (H & Hs & HE). destruct (proj1 Hb' eq_refl) as (K & Ks & KE).
      (* left cosets and right cosets: E is preserved by left and right multiplication *)
      intros x x' y y' Hx Hx' Hy Hy' H1 H2. apply (Etr _ (mulT t x' y)); auto using Gop.
      * apply KE in H1 as (g & h & k & Hg & Hh & Hk & -> & ->); auto. destruct Ks as (K1 & K2 & K3 & K4). apply KE; [auto using Gop..|]. exists (mulT t g y), h, k.
        split; [apply Gop; auto|]. split; auto. split; auto. rewrite !Gas by auto. auto.
      * apply HE in H2 as (g & h & k & Hg & Hh & Hk & -> & ->); auto. destruct Hs as (K1 & K2 & K3 & K4). apply HE; [auto using Gop..|]. exists (mulT t x' g), h, k.
        split; [apply Gop; auto|]. split; auto. split; auto. rewrite !Gas by auto. auto.
    + intros C. apply Hc in C. tauto.
  - exists false. split; auto. split; [discriminate|]. intros C. apply Hc in C. tauto.
Qed.
End Cos.
