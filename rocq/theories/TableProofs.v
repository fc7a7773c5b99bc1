(* Proofs about composition tables: basic facts, check_state, constructions *)
From Coq Require Import List Arith Bool Lia Sorted Permutation.
From Verif Require Import GroupSpec GroupModel GroupProofs GroupProofs2 TableModel.
Import ListNotations.

(* a valid table *)
Definition vt (t : table) : Prop := is_group_table (tn t) (tident t) (tinv t) (tmuls t).
Notation tgroup t := (is_group (fun x => x < tn t) (tident t) (invT t) (mulT t)).
Lemma vt_group t : vt t -> tgroup t.
Proof. intros H. apply H. Qed.

(* ---------- sets *)
Lemma has_iff x l : has x l = true <-> In x l.
Proof. unfold has. rewrite existsb_exists. split; [intros (y & Hy & E); apply Nat.eqb_eq in E; subst; auto|intros H; exists x; split; auto; apply Nat.eqb_refl]. Qed.
Lemma has_false x l : has x l = false <-> ~ In x l.
Proof. rewrite <- has_iff. destruct (has x l); intuition congruence. Qed.
Notation asc l := (StronglySorted lt l).
Lemma set_insert_spec x l : asc l -> asc (set_insert x l) /\ forall y, In y (set_insert x l) <-> y = x \/ In y l.
Proof.
  induction l as [|a l IH]; intros Hs; cbn [set_insert].
  - split; [repeat constructor|]. intros y. cbn. intuition.
  - inversion Hs as [|? ? Hs' Hf]; subst. destruct (Nat.ltb_spec x a).
    + split; [|intros y; cbn; intuition]. constructor; [auto|]. constructor; [auto|]. eapply Forall_impl; [|exact Hf]. cbn; lia.
    + destruct (Nat.eqb_spec x a) as [->|].
      * split; [auto|]. intros y. cbn. intuition.
      * destruct (IH Hs') as [I1 I2]. split.
        -- constructor; [auto|]. apply Forall_forall. intros y Hy. apply I2 in Hy as [->|Hy]; [lia|]. rewrite Forall_forall in Hf. auto.
        -- intros y. cbn. rewrite I2. intuition.
Qed.
Lemma to_set_spec l : asc (to_set l) /\ forall y, In y (to_set l) <-> In y l.
Proof.
  unfold to_set. assert (G : forall l s, asc s -> asc (fold_left (fun s x => set_insert x s) l s) /\ forall y, In y (fold_left (fun s x => set_insert x s) l s) <-> In y l \/ In y s).
  { induction l0 as [|x l0 IH]; intros s Hs; cbn [fold_left]; [split; [auto|intros y; cbn; tauto]|].
    destruct (set_insert_spec x s Hs) as [A B]. destruct (IH _ A) as [C D]. split; [auto|]. intros y. rewrite D, B. cbn. intuition. }
  destruct (G l []) as [A B]; [constructor|]. split; [auto|]. intros y. rewrite B. cbn. tauto.
Qed.
Lemma asc_NoDup l : asc l -> NoDup l.
Proof.
  induction 1 as [|a l Hs IH Hf]; constructor; auto. intros Hin. rewrite Forall_forall in Hf. specialize (Hf a Hin). lia.
Qed.
Lemma asc_eq a b : asc a -> asc b -> (forall x, In x a <-> In x b) -> a = b.
Proof.
  revert b. induction a as [|x a IH]; intros b Ha Hb E.
  - destruct b as [|y b]; auto. exfalso. apply (E y). left; auto.
  - destruct b as [|y b]; [exfalso; apply (E x); left; auto|]. inversion Ha as [|? ? Ha' Fa]; inversion Hb as [|? ? Hb' Fb]; subst.
    rewrite Forall_forall in Fa, Fb.
    assert (x = y).
    { assert (H1 : In x (y :: b)) by (apply E; left; auto). assert (H2 : In y (x :: a)) by (apply E; left; auto).
      destruct H1 as [H1|H1], H2 as [H2|H2]; auto. specialize (Fa y H2). specialize (Fb x H1). lia. }
    subst y. f_equal. apply IH; auto. intros z. split; intros Hz.
    + assert (H : In z (x :: b)) by (apply E; right; auto). destruct H as [<-|H]; auto. specialize (Fa x Hz). lia.
    + assert (H : In z (x :: a)) by (apply E; right; auto). destruct H as [<-|H]; auto. specialize (Fb x Hz). lia.
Qed.

(* ---------- check_state *)
Lemma allM_spec f l : (forall x, In x l -> f x <> None) -> exists b, allM f l = Some b /\ (b = true <-> forall x, In x l -> f x = Some true).
Proof.
  induction l as [|x l IH]; intros H; cbn [allM].
  - exists true. split; auto. split; auto. intros _ x [].
  - destruct (f x) as [[|]|] eqn:E.
    + destruct IH as (b & -> & Hb); [intros; apply H; right; auto|]. exists b. split; auto. rewrite Hb. split; [intros H' y [<-|Hy]; auto|intros H' y Hy; apply H'; right; auto].
    + exists false. split; auto. split; [discriminate|]. intros H'. specialize (H' x (or_introl eq_refl)). congruence.
    + exfalso. apply (H x); [left; auto|auto].
Qed.
Lemma mulE_mul t x y : length (tmuls t) = tn t -> (forall r, In r (tmuls t) -> length r = tn t) -> x < tn t -> y < tn t -> mulE t x y = Some (mulT t x y).
Proof.
  intros H1 H2 Hx Hy. unfold mulE, mulT. rewrite (nth_error_nth' _ []) by lia. apply nth_error_nth'. rewrite H2; auto. apply nth_In. lia.
Qed.
Lemma check_state_spec t : exists b, check_state t = Some b /\ (b = true <-> vt t).
Proof.
  unfold check_state. set (n := tn t).
  assert (Hid : vt t -> tident t < n) by (intros (_ & _ & _ & H); apply H).
  destruct (Nat.ltb_spec (tident t) n) as [He|He]; cbn [negb]; [|exists false; split; [auto|split; [discriminate|intros H; specialize (Hid H); lia]]].
  destruct (Nat.eqb_spec (length (tinv t)) n) as [Hi|Hi]; cbn [negb]; [|exists false; split; [auto|split; [discriminate|intros (H & _); contradiction]]].
  destruct (forallb (fun x => x <? n) (tinv t)) eqn:Ei; cbn [negb].
  2: { exists false. split; auto. split; [discriminate|]. intros (_ & _ & _ & G). exfalso. assert (forallb (fun x => x <? n) (tinv t) = true); [|congruence].
       apply forallb_forall. intros x Hx. apply (In_nth _ _ 0) in Hx as (k & Hk & <-). apply Nat.ltb_lt. apply (ig_inv _ _ _ _ G). lia. }
  destruct (Nat.eqb_spec (length (tmuls t)) n) as [Hm|Hm]; cbn [negb]; [|exists false; split; [auto|split; [discriminate|intros (_ & H & _); contradiction]]].
  destruct (forallb _ (tmuls t)) eqn:Em; cbn [negb].
  2: { exists false. split; auto. split; [discriminate|]. intros (_ & _ & Hr & G). exfalso.
       assert (forallb (fun m => (length m =? n) && forallb (fun x => x <? n) m) (tmuls t) = true); [|congruence].
       apply forallb_forall. intros r Hin. apply andb_true_iff. split; [apply Nat.eqb_eq; auto|]. apply forallb_forall. intros x Hx. apply Nat.ltb_lt.
       pose proof (Hr r Hin) as Hl. apply (In_nth _ _ []) in Hin as (i & Hii & Er). apply (In_nth _ _ 0) in Hx as (j & Hj & <-). rewrite <- Er in *.
       apply (ig_op _ _ _ _ G); lia. }
  assert (Hr : forall r, In r (tmuls t) -> length r = n).
  { intros r Hin. rewrite forallb_forall in Em. specialize (Em r Hin). apply andb_true_iff in Em as [E _]. apply Nat.eqb_eq; auto. }
  assert (Hmul : forall x y, x < n -> y < n -> mulE t x y = Some (mulT t x y) /\ mulT t x y < n).
  { intros x y Hx Hy. split; [apply mulE_mul; auto|]. unfold mulT. rewrite forallb_forall in Em. specialize (Em (nth x (tmuls t) [])). assert (Hin : In (nth x (tmuls t) []) (tmuls t)) by (apply nth_In; lia).
    specialize (Em Hin). apply andb_true_iff in Em as [_ E]. rewrite forallb_forall in E. apply Nat.ltb_lt. apply E. apply nth_In. rewrite Hr; auto. }
  assert (Hinv : forall x, x < n -> nth_error (tinv t) x = Some (invT t x) /\ invT t x < n).
  { intros x Hx. unfold invT. split; [apply nth_error_nth'; lia|]. rewrite forallb_forall in Ei. apply Nat.ltb_lt. apply Ei. apply nth_In. lia. }
  assert (Hseq : forall x, In x (seq 0 n) <-> x < n) by (intros x; rewrite in_seq; lia).
  match goal with |- context [andE (allM ?f1 _) (andE (allM ?f2 _) (allM ?f3 _))] => set (F1 := f1); set (F2 := f2); set (F3 := f3) end.
  assert (E1 : forall x, x < n -> F1 x = Some ((x =? mulT t x (tident t)) && (x =? mulT t (tident t) x))).
  { intros x Hx. unfold F1. destruct (Hmul x (tident t) Hx He) as [-> _]. destruct (Hmul (tident t) x He Hx) as [-> _]. cbn. destruct (x =? _); reflexivity. }
  assert (E2 : forall x, x < n -> F2 x = Some ((tident t =? mulT t (invT t x) x) && (tident t =? mulT t x (invT t x)))).
  { intros x Hx. unfold F2. destruct (Hinv x Hx) as [-> Hi']. cbn [bindE]. destruct (Hmul (invT t x) x Hi' Hx) as [-> _]. destruct (Hmul x (invT t x) Hx Hi') as [-> _]. cbn. destruct (tident t =? _); reflexivity. }
  assert (E3 : forall x y z, x < n -> y < n -> z < n ->
     bindE (mulE t y z) (fun yz => bindE (mulE t x y) (fun xy => eqE (mulE t x yz) (mulE t xy z))) = Some (mulT t x (mulT t y z) =? mulT t (mulT t x y) z)).
  { intros x y z Hx Hy Hz. destruct (Hmul y z Hy Hz) as [-> Hyz]. destruct (Hmul x y Hx Hy) as [-> Hxy]. cbn [bindE].
    destruct (Hmul x _ Hx Hyz) as [-> _]. destruct (Hmul _ z Hxy Hz) as [-> _]. reflexivity. }
  destruct (allM_spec F1 (seq 0 n)) as (b1 & -> & H1); [intros x Hx; apply Hseq in Hx; rewrite E1; [discriminate|auto]|].
  destruct (allM_spec F2 (seq 0 n)) as (b2 & -> & H2); [intros x Hx; apply Hseq in Hx; rewrite E2; [discriminate|auto]|].
  assert (HF3 : forall x, x < n -> exists b, F3 x = Some b /\ (b = true <-> forall y z, y < n -> z < n -> mulT t x (mulT t y z) = mulT t (mulT t x y) z)).
  { intros x Hx. unfold F3.
    match goal with |- context [allM ?f (seq 0 n)] => set (F4 := f) end.
    assert (HF4 : forall y, y < n -> exists b, F4 y = Some b /\ (b = true <-> forall z, z < n -> mulT t x (mulT t y z) = mulT t (mulT t x y) z)).
    { intros y Hy. unfold F4. match goal with |- context [allM ?f (seq 0 n)] => destruct (allM_spec f (seq 0 n)) as (b & -> & Hb) end.
      - intros z Hz. apply Hseq in Hz. rewrite E3 by auto. discriminate.
      - exists b. split; auto. rewrite Hb. split.
        + intros H z Hz. specialize (H z). rewrite E3 in H by auto. apply Nat.eqb_eq. assert (Some (mulT t x (mulT t y z) =? mulT t (mulT t x y) z) = Some true) by (apply H, Hseq; auto). congruence.
        + intros H z Hz. apply Hseq in Hz. rewrite E3 by auto. f_equal. apply Nat.eqb_eq. auto. }
    destruct (allM_spec F4 (seq 0 n)) as (b & -> & Hb).
    - intros y Hy. apply Hseq in Hy. destruct (HF4 y Hy) as (b & -> & _). discriminate.
    - exists b. split; auto. rewrite Hb. split.
      + intros H y z Hy Hz. destruct (HF4 y Hy) as (b' & E' & Hb'). assert (b' = true) by (specialize (H y (proj2 (Hseq y) Hy)); congruence). apply Hb'; auto.
      + intros H y Hy. apply Hseq in Hy. destruct (HF4 y Hy) as (b' & -> & Hb'). f_equal. apply Hb'. auto. }
  destruct (allM_spec F3 (seq 0 n)) as (b3 & -> & H3).
  { intros x Hx. apply Hseq in Hx. destruct (HF3 x Hx) as (b & -> & _). discriminate. }
  exists (b1 && (b2 && b3)). split; [destruct b1, b2, b3; reflexivity|].
  rewrite !andb_true_iff, H1, H2, H3. split.
  - intros (A1 & A2 & A3). split; [auto|]. split; [auto|]. split; [auto|]. fold n. change (tab_inv (tinv t)) with (invT t). change (tab_mul (tmuls t)) with (mulT t).
    constructor; auto.
    + intros x Hx. apply Hinv; auto.
    + intros x y Hx Hy. apply Hmul; auto.
    + intros x y z Hx Hy Hz. destruct (HF3 x Hx) as (b & E & Hb). apply Hb; auto. specialize (A3 x (proj2 (Hseq x) Hx)). congruence.
    + intros x Hx. specialize (A1 x (proj2 (Hseq x) Hx)). rewrite E1 in A1 by auto. injection A1 as A1. apply andb_true_iff in A1 as [B1 B2]. apply Nat.eqb_eq in B1, B2. auto.
    + intros x Hx. specialize (A1 x (proj2 (Hseq x) Hx)). rewrite E1 in A1 by auto. injection A1 as A1. apply andb_true_iff in A1 as [B1 B2]. apply Nat.eqb_eq in B1, B2. auto.
    + intros x Hx. specialize (A2 x (proj2 (Hseq x) Hx)). rewrite E2 in A2 by auto. injection A2 as A2. apply andb_true_iff in A2 as [B1 B2]. apply Nat.eqb_eq in B1, B2. auto.
    + intros x Hx. specialize (A2 x (proj2 (Hseq x) Hx)). rewrite E2 in A2 by auto. injection A2 as A2. apply andb_true_iff in A2 as [B1 B2]. apply Nat.eqb_eq in B1, B2. auto.
  - intros (_ & _ & _ & G). fold n in G. change (tab_inv (tinv t)) with (invT t) in G. change (tab_mul (tmuls t)) with (mulT t) in G. split; [|split].
    + intros x Hx. apply Hseq in Hx. rewrite E1 by auto. f_equal. apply andb_true_iff. rewrite !Nat.eqb_eq. split; symmetry; [apply (ig_idr _ _ _ _ G)|apply (ig_idl _ _ _ _ G)]; auto.
    + intros x Hx. apply Hseq in Hx. rewrite E2 by auto. f_equal. apply andb_true_iff. rewrite !Nat.eqb_eq. split; symmetry; [apply (ig_invl _ _ _ _ G)|apply (ig_invr _ _ _ _ G)]; auto.
    + intros x Hx. apply Hseq in Hx. destruct (HF3 x Hx) as (b & -> & Hb). f_equal. apply Hb. intros y z Hy Hz. apply (ig_assoc _ _ _ _ G); auto.
Qed.
