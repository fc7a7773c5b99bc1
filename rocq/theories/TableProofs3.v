From Coq Require Import List Arith Lia Bool Sorting.Sorted Sorting.Permutation.
From Verif Require Import GroupSpec GroupModel GroupProofs TableSpec TableModel TableProofs TableProofs2.
Import ListNotations.

Lemma set_at_length l : forall i v, length (set_at l i v) = length l.
Proof. induction l as [|h l IH]; intros [|i] v; cbn; auto. Qed.
Lemma set_at_nth l : forall i v x, nth x (set_at l i v) 0 = if (x =? i) && (x <? length l) then v else nth x l 0.
Proof.
  induction l as [|h l IH]; intros i v x; cbn [set_at length].
  - destruct i; cbn; destruct x; cbn; rewrite ?andb_false_r; reflexivity.
  - destruct i as [|i], x as [|x]; cbn [set_at nth]; try reflexivity. rewrite IH. reflexivity.
Qed.
Lemma set_many_length v cl : forall l, length (fold_left (fun l h => set_at l h v) cl l) = length l.
Proof. induction cl as [|h cl IH]; intros l; cbn; auto. rewrite IH. apply set_at_length. Qed.
Lemma set_many_nth v cl : forall l x, x < length l -> (In x cl -> nth x (fold_left (fun l h => set_at l h v) cl l) 0 = v) /\
   (~ In x cl -> nth x (fold_left (fun l h => set_at l h v) cl l) 0 = nth x l 0).
Proof.
  induction cl as [|h cl IH]; intros l x Hx; cbn [fold_left]; [split; [intros []|reflexivity]|].
  specialize (IH (set_at l h v) x). rewrite set_at_length in IH. destruct (IH Hx) as [I1 I2]. split.
  - intros Hin. destruct (in_dec Nat.eq_dec x cl) as [Hc|Hc]; [auto|]. destruct Hin as [->|]; [|contradiction]. rewrite I2 by auto.
    rewrite set_at_nth, Nat.eqb_refl. destruct (Nat.ltb_spec x (length l)); [reflexivity|lia].
  - intros Hin. cbn in Hin. rewrite I2 by tauto. rewrite set_at_nth. destruct (Nat.eqb_spec x h); [subst; tauto|reflexivity].
Qed.
Lemma remove_all_in l m x : In x (remove_all l m) <-> In x m /\ ~ In x l.
Proof.
  unfold remove_all. rewrite filter_In. split; intros [H1 H2]; split; auto.
  - apply has_false. destruct (has x l); auto; discriminate.
  - apply has_false in H2. rewrite H2. reflexivity.
Qed.
Lemma filter_length_lt {A} (f : A -> bool) l x : In x l -> f x = false -> length (filter f l) < length l.
Proof.
  intros Hin Hf. induction l as [|y l IH]; [destruct Hin|]. cbn. assert (Hle : length (filter f l) <= length l).
  { clear. induction l as [|y l IH]; cbn; auto. destruct (f y); cbn; lia. }
  destruct Hin as [->|Hin]; [rewrite Hf; lia|]. specialize (IH Hin). destruct (f y); cbn; lia.
Qed.
Section Part.
Variables (n : nat) (E : nat -> nat -> Prop) (class : nat -> list nat) (pick : list nat -> nat).
Hypothesis Erefl : forall x, x < n -> E x x.
Hypothesis Esym : forall x y, x < n -> y < n -> E x y -> E y x.
Hypothesis Etrans : forall x y z, x < n -> y < n -> z < n -> E x y -> E y z -> E x z.
Hypothesis Hcl : forall x, x < n -> asc (class x) /\ forall y, In y (class x) <-> y < n /\ E x y.
Hypothesis Hpick : choice pick.
Record pinv (missing : list nat) (cs : list (list nat)) (lk : list nat) : Prop := {
  pi_len : length lk = n;
  pi_missing : forall x, In x missing -> x < n;
  pi_closed : forall x y, In x missing -> y < n -> E x y -> In y missing;
  pi_cls : forall c, In c cs -> exists x, x < n /\ c = class x;
  pi_lk : forall x, x < n -> ~ In x missing -> nth x lk 0 < length cs;
  pi_in : forall k x, k < length cs -> (In x (nth k cs []) <-> x < n /\ ~ In x missing /\ nth x lk 0 = k);
}.
Lemma part_loop_eq fuel missing cs lk : missing <> [] -> part_loop (S fuel) pick class missing cs lk =
  part_loop fuel pick class (remove_all (class (pick missing)) missing) (cs ++ [class (pick missing)]) (fold_left (fun l h => set_at l h (length cs)) (class (pick missing)) lk).
Proof. intros H. destruct missing; [contradiction|reflexivity]. Qed.
Lemma part_loop_spec fuel : forall missing cs lk, pinv missing cs lk -> length missing < fuel ->
  exists cs' lk', part_loop fuel pick class missing cs lk = Some (cs', lk') /\ pinv [] cs' lk'.
Proof.
  induction fuel as [|fuel IH]; intros missing cs lk I Hf; [lia|].
  destruct (list_eq_dec Nat.eq_dec missing []) as [->|Hne]; [exists cs, lk; split; [reflexivity|auto]|].
  rewrite part_loop_eq by auto. pose proof (Hpick _ Hne) as Hp. set (x0 := pick missing) in *.
  pose proof (pi_missing _ _ _ I _ Hp) as Hx0. destruct (Hcl x0 Hx0) as [Ha Hin].
  assert (Hcm : forall y, In y (class x0) -> In y missing). { intros y Hy. apply Hin in Hy as [H1 H2]. apply (pi_closed _ _ _ I x0); auto. }
  apply IH.
  - constructor.
    + rewrite set_many_length. apply I.
    + intros x Hx. apply remove_all_in in Hx as [Hx _]. apply I; auto.
    + intros x y Hx Hy Hxy. apply remove_all_in in Hx as [Hx Hx']. apply remove_all_in. split; [apply (pi_closed _ _ _ I x); auto|].
      intros Hyc. apply Hx'. apply Hin in Hyc as [_ Hyc]. apply Hin. pose proof (pi_missing _ _ _ I _ Hx). split; auto. apply (Etrans x0 y x); auto.
    + intros c Hc. apply in_app_iff in Hc as [Hc|[<-|[]]]; [apply I; auto|exists x0; auto].
    + intros x Hx Hm. rewrite app_length. cbn [length]. pose proof (set_many_nth (length cs) (class x0) lk x) as Hs. rewrite (pi_len _ _ _ I) in Hs. destruct (Hs Hx) as [S1 S2].
      destruct (in_dec Nat.eq_dec x (class x0)) as [Hc|Hc]; [rewrite S1; auto; lia|]. rewrite S2 by auto. assert (~ In x missing) by (intros Q; apply Hm, remove_all_in; auto).
      pose proof (pi_lk _ _ _ I x Hx H). lia.
    + intros k x Hk. rewrite app_length in Hk. cbn [length] in Hk.
      destruct (Nat.eq_dec k (length cs)) as [->|Hkn].
      * rewrite app_nth2 by lia. rewrite Nat.sub_diag. cbn [nth]. split.
        -- intros Hx. pose proof (proj1 (Hin x) Hx) as [Hxn _]. split; auto. split; [intros Q; apply remove_all_in in Q; tauto|].
           apply set_many_nth; auto. rewrite (pi_len _ _ _ I); auto.
        -- intros (Hx & Hm & Hl). destruct (in_dec Nat.eq_dec x (class x0)) as [Hc|Hc]; auto. exfalso.
           assert (Hm' : ~ In x missing) by (intros Q; apply Hm, remove_all_in; auto).
           pose proof (pi_lk _ _ _ I x Hx Hm') as Hl'. destruct (set_many_nth (length cs) (class x0) lk x) as [_ S2]; [rewrite (pi_len _ _ _ I); auto|].
           rewrite S2 in Hl by auto. lia.
      * assert (Hk' : k < length cs) by lia. rewrite app_nth1 by auto. rewrite (pi_in _ _ _ I k x Hk'). split.
        -- intros (Hx & Hm & Hl). split; auto. split; [intros Q; apply remove_all_in in Q; tauto|].
           destruct (set_many_nth (length cs) (class x0) lk x) as [_ S2]; [rewrite (pi_len _ _ _ I); auto|]. rewrite S2; auto.
        -- intros (Hx & Hm & Hl). split; auto.
           destruct (set_many_nth (length cs) (class x0) lk x) as [S1 S2]; [rewrite (pi_len _ _ _ I); auto|].
           destruct (in_dec Nat.eq_dec x (class x0)) as [Hc|Hc]; [rewrite S1 in Hl by auto; lia|]. rewrite S2 in Hl by auto. split; auto.
           intros Q; apply Hm, remove_all_in; auto.
  - assert (length (remove_all (class x0) missing) < length missing); [|lia]. unfold remove_all. apply (filter_length_lt _ _ x0); auto.
    assert (Hh : has x0 (class x0) = true) by (apply has_iff, Hin; auto). rewrite Hh. reflexivity.
Qed.
Lemma part_run_spec : exists cs lk, part_run pick class n = Some (cs, lk) /\ partitions_by n E cs lk /\ forall c, In c cs -> exists x, x < n /\ c = class x.
Proof.
  destruct (part_loop_spec (S n) (seq 0 n) [] (repeat 0 n)) as (cs & lk & H1 & I).
  - constructor.
    + apply repeat_length.
    + intros x Hx. apply in_seq in Hx. lia.
    + intros x y _ Hy _. apply in_seq. lia.
    + intros c [].
    + intros x Hx Hm. exfalso. apply Hm, in_seq. lia.
    + intros k x Hk. cbn in Hk. lia.
  - rewrite seq_length. lia.
  - exists cs, lk. split; [exact H1|]. split; [|apply I]. split; [apply I|]. split.
    + intros c Hc. destruct (pi_cls _ _ _ I c Hc) as (x & Hx & ->). destruct (Hcl x Hx) as [Ha Hin]. split; auto. intros E0.
      assert (In x (class x)) by (apply Hin; auto). rewrite E0 in H. destruct H.
    + split; [intros x Hx; apply (pi_lk _ _ _ I); auto|]. split.
      * intros k x Hk. rewrite (pi_in _ _ _ I k x Hk). split; [tauto|]. intros [? ?]. auto.
      * intros x y Hx Hy. assert (Hk : nth x lk 0 < length cs) by (apply (pi_lk _ _ _ I); auto).
        assert (Hc : In (nth (nth x lk 0) cs []) cs) by (apply nth_In; auto).
        destruct (pi_cls _ _ _ I _ Hc) as (z & Hz & Ez). destruct (Hcl z Hz) as [_ Hin].
        assert (Hxz : E z x). { apply Hin. rewrite <- Ez. apply (pi_in _ _ _ I); auto. }
        split.
        -- intros El. assert (E z y). { apply Hin. rewrite <- Ez. apply (pi_in _ _ _ I); auto. } apply (Etrans x z y); auto.
        -- intros Hxy. assert (Hy' : In y (nth (nth x lk 0) cs [])). { rewrite Ez. apply Hin. split; auto. apply (Etrans z x y); auto. }
           apply (pi_in _ _ _ I) in Hy'; auto. symmetry. apply Hy'.
Qed.
End Part.

(* ---------- consequences of being a partition *)
Lemma pb_ext n E E' cs lk : (forall x y, x < n -> y < n -> (E x y <-> E' x y)) -> partitions_by n E cs lk -> partitions_by n E' cs lk.
Proof. intros H (H1 & H2 & H3 & H4 & H5). split; [|split; [|split; [|split]]]; auto. intros x y Hx Hy. rewrite H5; auto. Qed.
Lemma pb_concat n E cs lk : partitions_by n E cs lk -> Permutation (concat cs) (seq 0 n).
Proof.
  intros (H1 & H2 & H3 & H4 & H5). apply NoDup_Permutation; [|apply seq_NoDup|].
  - assert (Gn : forall k, k <= length cs -> NoDup (concat (firstn k cs))).
    { induction k as [|k IH]; intros Hk; [constructor|].
      assert (Es : firstn (S k) cs = firstn k cs ++ [nth k cs []]).
      { clear - Hk. revert k Hk. induction cs as [|c cs IH]; intros k Hk; cbn in Hk; [lia|]. destruct k as [|k]; [reflexivity|]. cbn [nth]. rewrite !firstn_cons. cbn [app]. f_equal. apply IH. lia. }
      rewrite Es, concat_app. cbn [concat]. rewrite app_nil_r. apply NoDup_app_iff'. split; [apply IH; lia|]. split.
      - apply asc_NoDup. apply H2. apply nth_In. lia.
      - intros x Hx Hx'. apply in_concat in Hx as (c & Hc & Hx). apply (In_nth _ _ []) in Hc as (j & Hj & <-). rewrite firstn_length in Hj.
        assert (En : nth j (firstn k cs) [] = nth j cs []).
        { clear - Hj. revert k j Hj. induction cs as [|c cs IH]; intros k j Hj; destruct k; cbn in *; try lia. destruct j; auto. apply IH. lia. }
        rewrite En in Hx. apply H4 in Hx; [|lia]. apply H4 in Hx'; [|lia]. lia. }
    specialize (Gn (length cs) (le_n _)). rewrite firstn_all in Gn. exact Gn.
  - intros x. rewrite in_concat. split.
    + intros (c & Hc & Hx). apply (In_nth _ _ []) in Hc as (j & Hj & <-). apply H4 in Hx; auto. apply in_seq. lia.
    + intros Hx. apply in_seq in Hx. exists (nth (nth x lk 0) cs []). split; [apply nth_In, H3; lia|]. apply H4; [apply H3; lia|]. split; [lia|auto].
Qed.
Lemma concat_length_const {A} (cs : list (list A)) m : (forall c, In c cs -> length c = m) -> length (concat cs) = length cs * m.
Proof. induction cs as [|c cs IH]; intros H; [reflexivity|]. cbn [concat]. rewrite app_length, IH, (H c); [cbn; lia|left; auto|intros; apply H; right; auto]. Qed.
Lemma pb_project n E cs lk x y : partitions_by n E cs lk -> x < n -> (In y (project (cs, lk) x) <-> y < n /\ E x y).
Proof.
  intros (H1 & H2 & H3 & H4 & H5) Hx. unfold project. cbn [fst snd]. rewrite H4 by auto. split; intros [Hy Hq]; (split; [auto|]).
  - apply H5; auto.
  - symmetry. apply H5; auto.
Qed.
Lemma pb_class_asc n E cs lk x : partitions_by n E cs lk -> x < n -> asc (project (cs, lk) x).
Proof. intros (H1 & H2 & H3 & H4 & H5) Hx. unfold project. cbn [fst snd]. apply H2. apply nth_In. auto. Qed.
Lemma pb_rep n E cs lk k : partitions_by n E cs lk -> k < length cs -> hd 0 (nth k cs []) < n /\ nth (hd 0 (nth k cs [])) lk 0 = k.
Proof.
  intros (H1 & H2 & H3 & H4 & H5) Hk. apply (H4 k); auto. destruct (H2 (nth k cs [])) as [Hne _]; [apply nth_In; auto|]. destruct (nth k cs []); [contradiction|left; reflexivity].
Qed.
Lemma pb_refl n E cs lk x : partitions_by n E cs lk -> x < n -> E x x.
Proof. intros (H1 & H2 & H3 & H4 & H5) Hx. apply H5; auto. Qed.
