(* Proofs about cycles *)
From Coq Require Import List Arith Bool Lia Permutation.
From Verif Require Import PermSpec PermModel PermProofs.
Import ListNotations.

(* f rotates the entries of c *)
Definition rotates (f : nat -> nat) (c : list nat) : Prop := forall i, i < length c -> f (nth i c 0) = nth (S i mod length c) c 0.

Lemma NoDup_app_iff {A} (a b : list A) : NoDup (a ++ b) <-> NoDup a /\ NoDup b /\ (forall x, In x a -> ~ In x b).
Proof.
  induction a as [|x a IH]; cbn.
  - split; [intros H; split; [constructor|]; split; auto|tauto].
  - rewrite NoDup_cons_iff, IH, in_app_iff, NoDup_cons_iff. split.
    + intros (H1 & H2 & H3 & H4). split; [tauto|]. split; [auto|]. intros y [<-|Hy]; auto.
    + intros ((H1 & H2) & H3 & H4). split; [|split; [auto|split; [auto|intros; apply H4; auto]]]. intros [?|?]; [tauto|]. apply (H4 x); auto.
Qed.
Lemma NoDup_bounded (l : list nat) n : NoDup l -> (forall x, In x l -> x < n) -> length l <= n.
Proof.
  intros H1 H2. rewrite <- (seq_length n 0). apply NoDup_incl_length; auto. intros x Hx. apply in_seq. specialize (H2 x Hx). lia.
Qed.
(* ---------- the inner loop *)
Lemma cycle_loop_spec p x : is_bij p -> x < length p -> forall fuel vs i,
  length p < fuel + length vs -> i < length p -> NoDup (vs ++ [i]) -> (forall y, In y vs -> y < length p) ->
  nth 0 (vs ++ [i]) 0 = x ->
  (forall j, S j < length (vs ++ [i]) -> act p (nth j (vs ++ [i]) 0) = nth (S j) (vs ++ [i]) 0) ->
  exists rest, cycle_loop fuel p x i = Some rest /\ NoDup (vs ++ rest) /\ rotates (act p) (vs ++ rest) /\
    nth 0 (vs ++ rest) 0 = x /\ rest <> [] /\ (forall y, In y rest -> y < length p).
Proof.
  intros Hp Hx. induction fuel as [|fuel IH]; intros vs i Hf Hi Hn Hv H0 Hch.
  - exfalso. assert (length (vs ++ [i]) <= length p); [apply NoDup_bounded; auto|rewrite app_length in *; cbn in *; lia].
    intros y Hy. apply in_app_iff in Hy as [Hy|[<-|[]]]; auto.
  - cbn [cycle_loop]. assert (E : nth_error p i = Some (act p i)).
    { unfold act. rewrite <- (nth_error_nth' p i Hi). f_equal. }
    rewrite E. assert (Hai : act p i < length p) by (apply act_lt; auto).
    set (l := vs ++ [i]) in *. assert (Hll : length l = S (length vs)) by (unfold l; rewrite app_length; cbn; lia).
    assert (Hli : nth (length vs) l 0 = i) by (unfold l; rewrite app_nth2, Nat.sub_diag; auto).
    destruct (Nat.eqb_spec (act p i) x) as [Ex|Ex].
    + exists [i]. split; [reflexivity|]. split; [exact Hn|]. fold l. split.
      * intros j Hj. rewrite Hll in *. destruct (Nat.eq_dec j (length vs)) as [->|Hne].
        -- rewrite Nat.mod_same by lia. rewrite Hli, H0. exact Ex.
        -- rewrite Nat.mod_small by lia. apply Hch. lia.
      * split; [exact H0|]. split; [discriminate|]. intros y [<-|[]]; auto.
    + assert (Hni : ~ In (act p i) l).
      { intros Hin. apply (In_nth _ _ 0) in Hin as (j & Hj & Ej). destruct j as [|j].
        - rewrite H0 in Ej. congruence.
        - rewrite <- Hch in Ej by lia. apply act_inj in Ej; auto. rewrite <- Hli in Ej.
          apply (proj1 (NoDup_nth l 0) Hn) in Ej; lia. }
      destruct (IH l (act p i)) as (rest & Er & R1 & R2 & R3 & R4 & R5); auto.
      * lia.
      * apply NoDup_app_iff. split; [exact Hn|]. split; [repeat constructor; auto|]. intros y Hy [<-|[]]; auto.
      * intros y Hy. apply in_app_iff in Hy as [Hy|[<-|[]]]; auto.
      * destruct l; [cbn in Hll; lia|]. exact H0.
      * intros j Hj. rewrite app_length in Hj. cbn in Hj. destruct (Nat.eq_dec (S j) (length l)) as [Ej|Ej].
        -- rewrite (app_nth2 l [act p i] 0 (n:=S j)) by lia. rewrite Ej, Nat.sub_diag. cbn. rewrite app_nth1 by lia. f_equal. rewrite <- Hli. f_equal. lia.
        -- rewrite !app_nth1 by lia. apply Hch. lia.
      * rewrite Er. exists (i :: rest).
        assert (Eq : vs ++ i :: rest = l ++ rest) by (unfold l; rewrite <- app_assoc; reflexivity).
        split; [reflexivity|]. rewrite Eq. split; [auto|]. split; [auto|]. split; [auto|]. split; [discriminate|]. intros y [<-|Hy]; auto.
Qed.
Lemma cycle_loop_ok p x fuel : is_bij p -> x < length p -> length p < fuel ->
  exists c, cycle_loop fuel p x x = Some c /\ NoDup c /\ rotates (act p) c /\ nth 0 c 0 = x /\ c <> [] /\ (forall y, In y c -> y < length p).
Proof.
  intros Hp Hx Hf. destruct (cycle_loop_spec p x Hp Hx fuel [] x) as (c & H1 & H2 & H3 & H4 & H5 & H6); auto; cbn.
  - lia.
  - repeat constructor; auto.
  - intros y [].
  - intros j Hj. lia.
  - eauto 8.
Qed.
Lemma rotates_in f c x : rotates f c -> In x c -> In (f x) c.
Proof.
  intros H Hin. apply (In_nth _ _ 0) in Hin as (i & Hi & <-). rewrite H by auto. apply nth_In. apply Nat.mod_upper_bound. lia.
Qed.
Lemma rotates_pre f c x : (forall a b, f a = f b -> a = b) -> rotates f c -> In (f x) c -> In x c.
Proof.
  intros Hinj H Hin. apply (In_nth _ _ 0) in Hin as (i & Hi & Ei).
  destruct i as [|i].
  - set (j := length c - 1). assert (Hj : j < length c) by (unfold j; lia).
    assert (E : S j mod length c = 0) by (unfold j; replace (S (length c - 1)) with (length c) by lia; apply Nat.mod_same; lia).
    pose proof (H j Hj) as Hr. rewrite E, Ei in Hr. apply Hinj in Hr. rewrite <- Hr. apply nth_In; auto.
  - pose proof (H i ltac:(lia)) as Hr. rewrite Nat.mod_small in Hr by lia. rewrite Ei in Hr. apply Hinj in Hr. rewrite <- Hr. apply nth_In; lia.
Qed.
(* ---------- the outer loop *)
Lemma existsb_eq_iff y c : existsb (Nat.eqb y) c = true <-> In y c.
Proof. rewrite existsb_exists. split; [intros (z & Hz & E); apply Nat.eqb_eq in E; subst; auto|intros H; exists y; split; auto; apply Nat.eqb_refl]. Qed.
Lemma filter_length_lt {A} (f : A -> bool) l x : In x l -> f x = false -> length (filter f l) < length l.
Proof.
  assert (G : forall l, length (filter f l) <= length l) by (induction l0 as [|a l0 IH]; cbn; [lia|destruct (f a); cbn; lia]).
  induction l as [|a l IH]; intros [] Hx; subst; cbn.
  - rewrite Hx. specialize (G l). lia.
  - specialize (IH H Hx). destruct (f a); cbn; lia.
Qed.
Lemma cycles_loop_spec p : is_bij p -> forall fuel missing,
  length p + length missing < fuel -> NoDup missing -> (forall y, In y missing -> y < length p) ->
  (forall y, y < length p -> (In y missing <-> In (act p y) missing)) ->
  exists cs, cycles_loop fuel p missing = Some cs /\ NoDup (concat cs) /\ (forall x, In x (concat cs) <-> In x missing) /\
    (forall c, In c cs -> c <> [] /\ rotates (act p) c).
Proof.
  intros Hp. induction fuel as [|fuel IH]; intros missing Hf Hn Hb Hcl; [lia|]. cbn [cycles_loop].
  destruct missing as [|x ms] eqn:Em.
  - exists []. split; [reflexivity|]. split; [constructor|]. split; [reflexivity|]. intros c [].
  - rewrite <- Em in *. assert (Hxm : In x missing) by (rewrite Em; left; auto). clear Em.
    destruct (cycle_loop_ok p x fuel) as (c & Ec & C1 & C2 & C3 & C4 & C5); auto; [destruct missing; [contradiction|cbn in Hf; lia]|].
    rewrite Ec.
    assert (Hxc : In x c). { rewrite <- C3. apply nth_In. destruct c; [congruence|cbn; lia]. }
    assert (Hcm : forall y, In y c -> In y missing).
    { intros y Hy. apply (In_nth _ _ 0) in Hy as (i & Hi & <-). induction i as [|i IHi]; [rewrite C3; auto|].
      assert (Hi' : i < length c) by lia. specialize (IHi Hi'). pose proof (C2 i Hi') as Er. rewrite Nat.mod_small in Er by lia. rewrite <- Er.
      exact (proj1 (Hcl _ (Hb _ IHi)) IHi). }
    set (m' := filter (fun y => negb (existsb (Nat.eqb y) c)) missing).
    assert (Hm' : forall y, In y m' <-> In y missing /\ ~ In y c).
    { intros y. unfold m'. rewrite filter_In, negb_true_iff. pose proof (existsb_eq_iff y c) as HE. destruct (existsb (Nat.eqb y) c); intuition congruence. }
    destruct (IH m') as (cs & Ecs & S1 & S2 & S3).
    + assert (length m' < length missing). { apply (filter_length_lt _ _ x); auto. apply negb_false_iff. apply existsb_eq_iff. auto. } lia.
    + apply NoDup_filter; auto.
    + intros y Hy. apply Hb. apply Hm' in Hy. tauto.
    + intros y Hy. rewrite !Hm', (Hcl y Hy). assert (In y c <-> In (act p y) c); [|tauto]. split.
      * apply rotates_in; auto.
      * apply rotates_pre; auto. intros; eapply act_inj; eauto.
    + rewrite Ecs. exists (c :: cs). split; [reflexivity|]. cbn [concat]. split; [|split].
      * apply NoDup_app_iff. split; auto. split; auto. intros y Hy Hy'. apply S2, Hm' in Hy'. tauto.
      * intros y. rewrite in_app_iff, S2, Hm'. split; [intros [?|?]; [auto|tauto]|]. intros Hy.
        destruct (existsb (Nat.eqb y) c) eqn:E; [left; apply existsb_eq_iff; auto|right]. split; auto. intros Hc. apply existsb_eq_iff in Hc. congruence.
      * intros c' [<-|Hc']; auto.
Qed.
Lemma cycles_all p fuel : is_bij p -> 2 * length p < fuel -> exists cs, disjoint_cycles_n fuel p = Some cs /\ NoDup (concat cs) /\
  (forall x, In x (concat cs) <-> x < length p) /\ (forall c, In c cs -> c <> [] /\ rotates (act p) c).
Proof.
  intros Hp Hf. unfold disjoint_cycles_n. destruct (cycles_loop_spec p Hp fuel (seq 0 (length p))) as (cs & H1 & H2 & H3 & H4).
  - rewrite seq_length. lia.
  - apply seq_NoDup.
  - intros y Hy. apply in_seq in Hy. lia.
  - intros y Hy. rewrite !in_seq. pose proof (act_lt p y Hp Hy). lia.
  - exists cs. split; auto. split; auto. split; auto. intros x. rewrite H3, in_seq. lia.
Qed.
Lemma cycles_nontrivial p fuel : is_bij p -> 2 * length p < fuel -> exists cs, disjoint_cycles fuel p = Some cs /\ NoDup (concat cs) /\
  (forall x, In x (concat cs) <-> act p x <> x) /\ (forall c, In c cs -> 2 <= length c /\ rotates (act p) c).
Proof.
  intros Hp Hf. destruct (cycles_all p fuel Hp Hf) as (cs & H1 & H2 & H3 & H4). unfold disjoint_cycles_n in H1. unfold disjoint_cycles. rewrite H1.
  eexists; split; [reflexivity|].
  assert (HND : forall l, NoDup (concat l) -> NoDup (concat (filter (fun c : list nat => 2 <=? length c) l))).
  { induction l as [|c l IH]; cbn [concat filter]; auto. intros H. apply NoDup_app_iff in H as (A1 & A2 & A3).
    destruct (2 <=? length c); [|auto]. cbn [concat]. apply NoDup_app_iff. split; auto. split; auto.
    intros y Hy Hy'. apply (A3 y Hy). apply in_concat in Hy' as (c' & Hc' & Hy'). apply in_concat. exists c'. split; auto. apply filter_In in Hc'. tauto. }
  split; [apply HND; auto|]. split.
  - intros x. split.
    + intros Hx. apply in_concat in Hx as (c & Hc & Hx). apply filter_In in Hc as [Hc Hl]. apply Nat.leb_le in Hl.
      assert (Hnc : NoDup c).
      { clear - H2 Hc. induction cs as [|d cs IH]; [contradiction|]. cbn in H2. apply NoDup_app_iff in H2 as (A1 & A2 & A3). destruct Hc as [->|Hc]; auto. }
      apply (In_nth _ _ 0) in Hx as (i & Hi & <-). rewrite (proj2 (H4 c Hc)) by auto. intros E. apply (proj1 (NoDup_nth c 0) Hnc) in E; auto.
      * destruct (Nat.eq_dec (S i) (length c)) as [E'|E']; [rewrite E', Nat.mod_same in E by lia; lia|rewrite Nat.mod_small in E by lia; lia].
      * apply Nat.mod_upper_bound. lia.
    + intros Hx. assert (Hxl : x < length p). { destruct (le_lt_dec (length p) x); auto. exfalso. apply Hx. apply act_over; auto. }
      apply H3, in_concat in Hxl as (c & Hc & Hxc). apply in_concat. exists c. split; auto. apply filter_In. split; auto. apply Nat.leb_le.
      destruct c as [|a [|b c]]; cbn; try lia; [contradiction|]. exfalso. destruct Hxc as [->|[]]. apply Hx. exact (proj2 (H4 _ Hc) 0 ltac:(cbn; lia)).
  - intros c Hc. apply filter_In in Hc as [Hc Hl]. apply Nat.leb_le in Hl. split; auto. apply H4; auto.
Qed.

(* ---------- From<Cycle> *)
Lemma from_cycle_loop_bounds cyc m is_ : forall perm r, from_cycle_loop cyc m is_ perm = Some r ->
  (is_ <> [] -> m <> 0) /\ forall i, In i is_ -> nth i cyc 0 < length perm.
Proof.
  induction is_ as [|i is_ IH]; intros perm r; cbn [from_cycle_loop].
  - intros _. split; [congruence|]. intros i [].
  - destruct (Nat.eqb_spec m 0) as [|Hm]; [discriminate|]. destruct (nth_error cyc i) as [x|] eqn:Ex; [|discriminate].
    destruct (nth_error cyc ((i + 1) mod m)) as [y|]; [|discriminate].
    destruct (le_lt_dec (length perm) x) as [Hl|Hl]; [rewrite vset_none by auto; discriminate|].
    destruct (vset_some perm x y Hl) as (p' & -> & Hl' & _). intros H. apply IH in H as [H1 H2]. split; [auto|].
    intros i' [<-|Hi']; [|rewrite <- Hl'; auto]. rewrite (nth_error_nth cyc i 0 Ex). exact Hl.
Qed.
Lemma fold_max_ge (l : list nat) : forall a, a <= fold_left Nat.max l a /\ forall x, In x l -> x <= fold_left Nat.max l a.
Proof.
  induction l as [|x l IH]; intros a; cbn.
  - split; [lia|]. intros x [].
  - destruct (IH (Nat.max a x)) as [H1 H2]. split; [lia|]. intros y [<-|Hy]; [lia|auto].
Qed.
Lemma fold_max_in (l : list nat) : forall a, fold_left Nat.max l a = a \/ In (fold_left Nat.max l a) l.
Proof.
  induction l as [|x l IH]; intros a; cbn; [auto|]. destruct (IH (Nat.max a x)) as [E|H]; [|auto].
  rewrite E. destruct (Nat.max_spec a x) as [[_ ->]|[_ ->]]; auto.
Qed.
Lemma from_cycle_panics cyc : cyc <> [] -> from_cycle cyc = None.
Proof.
  intros Hc. unfold from_cycle. set (n := fold_left Nat.max cyc 0).
  destruct (from_cycle_loop cyc n (seq 0 (length cyc)) (seq 0 n)) as [r|] eqn:E; [|reflexivity]. exfalso.
  apply from_cycle_loop_bounds in E as [E1 E2]. rewrite seq_length in E2.
  assert (Hn : n <> 0) by (apply E1; destruct cyc; [congruence|discriminate]).
  destruct (fold_max_in cyc 0) as [H|H]; [fold n in H; lia|]. fold n in H. apply (In_nth _ _ 0) in H as (i & Hi & Ei).
  specialize (E2 i). rewrite Ei in E2. assert (n < n); [|lia]. apply E2. apply in_seq. lia.
Qed.
Lemma from_cycle_loop_spec cyc : NoDup cyc -> forall s len perm, s + len = length cyc -> (forall x, In x cyc -> x < length perm) ->
  exists r, from_cycle_loop cyc (length cyc) (seq s len) perm = Some r /\ length r = length perm /\
    (forall i d, s <= i < length cyc -> nth (nth i cyc 0) r d = nth (S i mod length cyc) cyc 0) /\
    (forall y d, (forall i, s <= i < length cyc -> nth i cyc 0 <> y) -> nth y r d = nth y perm d).
Proof.
  intros Hn s len. revert s. induction len as [|len IH]; intros s perm Hs Hb; cbn [seq from_cycle_loop].
  - exists perm. split; [reflexivity|]. split; [auto|]. split; [lia|auto].
  - destruct (Nat.eqb_spec (length cyc) 0); [lia|].
    rewrite (nth_error_nth' cyc 0) by lia. rewrite (nth_error_nth' cyc 0) by (apply Nat.mod_upper_bound; lia).
    destruct (vset_some perm (nth s cyc 0) (nth ((s + 1) mod length cyc) cyc 0)) as (p' & -> & Hl & Hnth); [apply Hb, nth_In; lia|].
    destruct (IH (S s) p') as (r & -> & Hr & R1 & R2); [lia|intros x Hx; rewrite Hl; auto|].
    exists r. split; [reflexivity|]. split; [lia|]. split.
    + intros i d Hi. destruct (Nat.eq_dec i s) as [->|Hne]; [|apply R1; lia].
      rewrite R2.
      * rewrite Hnth, Nat.eqb_refl, Nat.add_1_r. reflexivity.
      * intros j Hj E. apply (proj1 (NoDup_nth cyc 0) Hn) in E; lia.
    + intros y d Hy. rewrite R2 by (intros i Hi; apply Hy; lia). rewrite Hnth. destruct (Nat.eqb_spec y (nth s cyc 0)) as [->|]; [|reflexivity].
      exfalso. apply (Hy s); [lia|auto].
Qed.
Lemma from_cycle_n_spec N cyc : NoDup cyc -> (forall x, In x cyc -> x < N) ->
  exists p, from_cycle_n N cyc = Some p /\ length p = N /\ is_bij p /\ is_cycle_action cyc (act p).
Proof.
  intros Hn Hb. destruct (from_cycle_loop_spec cyc Hn 0 (length cyc) (seq 0 N)) as (r & Er & Hl & R1 & R2); [lia|intros; rewrite seq_length; auto|].
  rewrite seq_length in Hl.
  assert (A1 : forall i, i < length cyc -> act r (nth i cyc 0) = nth (S i mod length cyc) cyc 0).
  { intros i Hi. unfold act. apply R1. lia. }
  assert (A2 : forall x, ~ In x cyc -> act r x = x).
  { intros x Hx. unfold act. rewrite R2.
    - destruct (le_lt_dec N x); [apply nth_overflow; rewrite seq_length; auto|rewrite seq_nth; auto].
    - intros i Hi E. apply Hx. rewrite <- E. apply nth_In. lia. }
  exists r. split; [exact Er|]. split; [auto|]. split; [|split; auto].
  assert (Hmap : r = map (act r) (seq 0 N)).
  { apply list_ext; [rewrite map_length, seq_length; auto|]. intros x Hx. rewrite act_map_seq; auto. lia. }
  rewrite Hmap. apply map_seq_bij.
  - intros x Hx. destruct (in_dec Nat.eq_dec x cyc) as [Hi|Hi]; [|rewrite A2; auto]. apply Hb, rotates_in; auto.
  - intros x y _ _ E. destruct (in_dec Nat.eq_dec x cyc) as [Hx|Hx]; destruct (in_dec Nat.eq_dec y cyc) as [Hy|Hy].
    + apply (In_nth _ _ 0) in Hx as (i & Hi & <-). apply (In_nth _ _ 0) in Hy as (j & Hj & <-). rewrite !A1 in E by auto.
      apply (proj1 (NoDup_nth cyc 0) Hn) in E; try (apply Nat.mod_upper_bound; lia). f_equal.
      destruct (Nat.eq_dec (S i) (length cyc)) as [Ei|Ei]; destruct (Nat.eq_dec (S j) (length cyc)) as [Ej|Ej]; try lia.
      * rewrite Ei, Nat.mod_same, Nat.mod_small in E by lia. lia.
      * rewrite Ej, Nat.mod_same, Nat.mod_small in E by lia. lia.
      * rewrite !Nat.mod_small in E by lia. lia.
    + exfalso. apply Hy. rewrite <- (A2 y Hy), <- E. apply rotates_in; auto.
    + exfalso. apply Hx. rewrite <- (A2 x Hx), E. apply rotates_in; auto.
    + rewrite !A2 in E; auto.
Qed.
Lemma compose_n_spec a b : is_bij a -> is_bij b -> length a = length b -> exists r, compose_n a b = Some r /\ length r = length a /\ is_bij r /\
  forall x, act r x = act a (act b x).
Proof.
  intros Ha Hb Hl.
  assert (G : forall l, (forall y, In y l -> y < length a) -> compose_n a l = Some (map (act a) l)).
  { induction l as [|y l IH]; intros H; cbn [compose_n map]; [reflexivity|]. rewrite IH by (intros; apply H; right; auto).
    assert (Hy : y < length a) by (apply H; left; auto). rewrite (nth_error_nth' a 0 Hy). rewrite (act_nth a y 0) by auto. reflexivity. }
  exists (map (act a) b). rewrite G by (intros y Hy; rewrite Hl; apply is_bij_iff in Hb; apply Hb; auto). split; [reflexivity|].
  rewrite map_length. split; [auto|].
  assert (Hact : forall x, x < length b -> act (map (act a) b) x = act a (act b x)).
  { intros x Hx. rewrite (act_nth _ x (act a 0)) by (rewrite map_length; auto). rewrite map_nth, <- act_nth by auto. reflexivity. }
  split.
  - assert (Hm : map (act a) b = map (fun x => act a (act b x)) (seq 0 (length b))).
    { apply list_ext; [rewrite !map_length, seq_length; auto|]. intros x Hx. rewrite map_length in Hx. rewrite Hact, act_map_seq; auto. }
    rewrite Hm. apply map_seq_bij.
    + intros x Hx. rewrite <- Hl. apply act_lt; auto. rewrite Hl. apply act_lt; auto.
    + intros x y _ _ E. apply act_inj in E; auto. apply act_inj in E; auto.
  - intros x. destruct (le_lt_dec (length b) x); [|auto]. rewrite act_over by (rewrite map_length; auto). rewrite (act_over b) by auto. rewrite act_over; auto. lia.
Qed.
Lemma id_bij N : is_bij (seq 0 N) /\ length (seq 0 N) = N /\ forall x, act (seq 0 N) x = x.
Proof.
  split; [unfold is_bij; rewrite seq_length; auto|]. split; [apply seq_length|]. intros x. unfold act.
  destruct (le_lt_dec N x); [apply nth_overflow; rewrite seq_length; auto|rewrite seq_nth; auto].
Qed.
Lemma cycle_new_n_loop_spec N cyc : forall present, length present = N -> (forall x, In x cyc -> x < N) ->
  exists b, cycle_new_n_loop present cyc = Some b /\ (b = true <-> NoDup cyc /\ forall x, In x cyc -> nth x present false = false).
Proof.
  induction cyc as [|i cyc IH]; intros present Hl Hb; cbn [cycle_new_n_loop].
  - exists true. split; [reflexivity|]. split; [intros _; split; [constructor|intros x []]|auto].
  - assert (Hi : i < length present) by (rewrite Hl; apply Hb; left; auto).
    rewrite (nth_error_nth' present false Hi). destruct (nth i present false) eqn:E.
    + exists false. split; [reflexivity|]. split; [discriminate|]. intros [_ H]. rewrite (H i (or_introl eq_refl)) in E. discriminate.
    + destruct (vset_some present i true Hi) as (p & -> & Hp & Hk). destruct (IH p) as (b & -> & Hbb); [lia|intros; apply Hb; right; auto|].
      exists b. split; [reflexivity|]. rewrite Hbb. split.
      * intros [H1 H2]. assert (Hni : ~ In i cyc). { intros Hin. specialize (H2 i Hin). rewrite Hk, Nat.eqb_refl in H2. discriminate. }
        split; [constructor; auto|]. intros x [<-|Hx]; auto. specialize (H2 x Hx). rewrite Hk in H2. destruct (Nat.eqb_spec x i); [discriminate|auto].
      * intros [H1 H2]. inversion H1; subst. split; auto. intros x Hx. rewrite Hk. destruct (Nat.eqb_spec x i); [subst; contradiction|]. apply H2. right; auto.
Qed.
Lemma check_cycles_n_spec N cycles : (forall c x, In c cycles -> In x c -> x < N) ->
  exists b, check_cycles_n N cycles = Some b /\ (b = true <-> forall c, In c cycles -> NoDup c).
Proof.
  induction cycles as [|c cs IH]; intros Hb; cbn [check_cycles_n].
  - exists true. split; auto. split; auto. intros _ c [].
  - destruct (cycle_new_n_loop_spec N c (repeat false N)) as (b & Eb & Hbb); [apply repeat_length|intros x Hx; eapply Hb; [left; eauto|auto]|].
    unfold cycle_new_n. rewrite Eb. assert (Hbb' : b = true <-> NoDup c).
    { rewrite Hbb. split; [tauto|]. intros H. split; auto. intros x _. destruct (le_lt_dec N x); [apply nth_overflow; rewrite repeat_length; auto|apply nth_repeat]. }
    destruct b.
    + destruct IH as (b' & -> & Hb'); [intros; eapply Hb; [right; eauto|auto]|]. exists b'. split; auto. rewrite Hb'. split.
      * intros H c' [<-|Hc']; [apply Hbb'; auto|auto].
      * intros H c' Hc'. apply H. right; auto.
    + exists false. split; auto. split; [discriminate|]. intros H. apply Hbb'. apply H. left; auto.
Qed.
(* the product of the actions, first cycle outermost *)
Fixpoint prod_actions (fs : list (nat -> nat)) (x : nat) : nat := match fs with [] => x | f :: fs' => f (prod_actions fs' x) end.
Lemma new_from_cycles_loop_spec N cycles : forall ans, is_bij ans -> length ans = N ->
  (forall c, In c cycles -> NoDup c) -> (forall c x, In c cycles -> In x c -> x < N) ->
  exists r fs, new_from_cycles_loop N ans cycles = Some r /\ is_bij r /\ length r = N /\ Forall2 is_cycle_action cycles fs /\
    forall x, act r x = act ans (prod_actions fs x).
Proof.
  induction cycles as [|c cs IH]; intros ans Ha Hl Hn Hb; cbn [new_from_cycles_loop].
  - exists ans, []. split; [reflexivity|]. split; [auto|]. split; [auto|]. split; [constructor|reflexivity].
  - destruct (from_cycle_n_spec N c) as (p & -> & Pl & Pb & Pa); [apply Hn; left; auto|intros; eapply Hb; [left; eauto|auto]|].
    destruct (compose_n_spec ans p Ha Pb) as (r1 & -> & R1 & R2 & R3); [lia|].
    destruct (IH r1) as (r & fs & -> & I1 & I2 & I3 & I4); auto; [lia|intros; apply Hn; right; auto|intros; eapply Hb; [right; eauto|auto]|].
    exists r, (act p :: fs). split; [reflexivity|]. split; [auto|]. split; [auto|]. split; [constructor; auto|]. intros x. rewrite I4, R3. reflexivity.
Qed.
Lemma new_from_cycles_spec N cycles : (forall c x, In c cycles -> In x c -> x < N) ->
  ((exists c, In c cycles /\ ~ NoDup c) -> new_from_cycles N cycles = Some None) /\
  ((forall c, In c cycles -> NoDup c) -> exists p fs, new_from_cycles N cycles = Some (Some p) /\ is_bij p /\ length p = N /\
      Forall2 is_cycle_action cycles fs /\ forall x, act p x = prod_actions fs x).
Proof.
  intros Hb. unfold new_from_cycles. destruct (check_cycles_n_spec N cycles Hb) as (b & -> & Hbb). split.
  - intros (c & Hc & Hn). destruct b; [|reflexivity]. exfalso. apply Hn. apply Hbb; auto.
  - intros Hn. rewrite (proj2 Hbb Hn). destruct (id_bij N) as (I1 & I2 & I3).
    destruct (new_from_cycles_loop_spec N cycles (identity_n N) I1 I2 Hn Hb) as (r & fs & -> & R1 & R2 & R3 & R4).
    exists r, fs. split; [reflexivity|]. split; [auto|]. split; [auto|]. split; [auto|]. intros x. rewrite R4. apply I3.
Qed.
(* composing disjoint cycles of f gives f *)
Lemma prod_disjoint (f : nat -> nat) cycles fs : Forall2 is_cycle_action cycles fs -> NoDup (concat cycles) ->
  (forall c, In c cycles -> rotates f c) -> forall x, prod_actions fs x = if existsb (Nat.eqb x) (concat cycles) then f x else x.
Proof.
  intros H. induction H as [|c g cs fs [Hg1 Hg2] H IH]; intros Hn Hr x; cbn [prod_actions concat]; [reflexivity|].
  cbn [concat] in Hn. apply NoDup_app_iff in Hn as (N1 & N2 & N3). rewrite IH by (auto; intros; apply Hr; right; auto).
  rewrite existsb_app. destruct (existsb (Nat.eqb x) (concat cs)) eqn:E2.
  - rewrite orb_true_r. apply existsb_eq_iff in E2. apply Hg2. intros Hc. apply (N3 (f x) Hc).
    apply in_concat in E2 as (c' & Hc' & Hx). apply in_concat. exists c'. split; auto. apply rotates_in; auto. apply Hr; right; auto.
  - rewrite orb_false_r. destruct (existsb (Nat.eqb x) c) eqn:E1.
    + apply existsb_eq_iff in E1. apply (In_nth _ _ 0) in E1 as (i & Hi & <-). rewrite Hg1 by auto. symmetry. apply Hr; [left; auto|auto].
    + apply Hg2. intros Hc. apply existsb_eq_iff in Hc. congruence.
Qed.
Lemma cycles_recompose p fuel : is_bij p -> 2 * length p < fuel ->
  exists cs, disjoint_cycles_n fuel p = Some cs /\ new_from_cycles (length p) cs = Some (Some p).
Proof.
  intros Hp Hf. destruct (cycles_all p fuel Hp Hf) as (cs & H1 & H2 & H3 & H4). exists cs. split; auto.
  destruct (new_from_cycles_spec (length p) cs) as [_ S].
  - intros c x Hc Hx. apply H3. apply in_concat. eauto.
  - destruct S as (q & fs & -> & Q1 & Q2 & Q3 & Q4).
    + intros c Hc. clear - H2 Hc. induction cs as [|d cs IH]; [contradiction|]. cbn in H2. apply NoDup_app_iff in H2 as (A1 & A2 & A3). destruct Hc as [->|Hc]; auto.
    + do 2 f_equal. apply list_ext; auto. intros x Hx. rewrite Q4, (prod_disjoint (act p) cs fs Q3 H2) by (intros; apply H4; auto).
      assert (E : existsb (Nat.eqb x) (concat cs) = true) by (apply existsb_eq_iff, H3; lia). rewrite E. reflexivity.
Qed.
(* ---------- sign of a cycle *)
Definition std_cycle (m : nat) : list nat := seq 1 m ++ [0].
Lemma std_cycle_act m x : act (std_cycle m) x = if x <? m then S x else if x =? m then 0 else x.
Proof.
  unfold act, std_cycle. destruct (Nat.ltb_spec x m).
  - rewrite app_nth1 by (rewrite seq_length; auto). rewrite seq_nth; auto.
  - rewrite app_nth2 by (rewrite seq_length; auto). rewrite seq_length. destruct (Nat.eqb_spec x m).
    + subst. rewrite Nat.sub_diag. reflexivity.
    + destruct (x - m) as [|[|k]] eqn:E; cbn; auto; lia.
Qed.
Lemma std_cycle_bij m : is_bij (std_cycle m).
Proof.
  apply is_bij_iff. unfold std_cycle. rewrite app_length, seq_length. cbn. split.
  - apply NoDup_app_iff. split; [apply seq_NoDup|]. split; [repeat constructor; auto|]. intros x Hx [<-|[]]. apply in_seq in Hx. lia.
  - intros x Hx. apply in_app_iff in Hx as [Hx|[<-|[]]]; [apply in_seq in Hx|]; lia.
Qed.
Lemma std_cycle_par m : par (S m) (act (std_cycle m)) = Nat.odd m.
Proof.
  unfold par. rewrite pairs_S, map_app, xors_app.
  assert (E1 : xors (map (fun ij => act (std_cycle m) (fst ij) <? act (std_cycle m) (snd ij)) (pairs m)) = false).
  { assert (G : forall l, (forall ij, In ij l -> snd ij < fst ij < m) -> xors (map (fun ij => act (std_cycle m) (fst ij) <? act (std_cycle m) (snd ij)) l) = false).
    { induction l as [|[i j] l IH]; intros H; cbn [map xors]; auto. rewrite IH by (intros; apply H; right; auto). specialize (H _ (or_introl eq_refl)). cbn [fst snd] in *.
      rewrite !std_cycle_act. destruct (Nat.ltb_spec i m); [|lia]. destruct (Nat.ltb_spec j m); [|lia]. destruct (Nat.ltb_spec (S i) (S j)); [lia|reflexivity]. }
    apply G. intros [i j] H. apply in_pairs in H. exact H. }
  rewrite E1, xorb_false_l, map_map. cbn [fst snd].
  assert (G : forall k, k <= m -> xors (map (fun j => act (std_cycle m) m <? act (std_cycle m) j) (seq 0 k)) = Nat.odd k).
  { induction k as [|k IH]; intros Hk; [reflexivity|]. rewrite seq_S, map_app, xors_app, IH by lia. cbn [map xors plus].
    rewrite !std_cycle_act. rewrite Nat.ltb_irrefl, Nat.eqb_refl. destruct (Nat.ltb_spec k m); [|lia]. change (0 <? S k) with true. 
    rewrite Nat.odd_succ, <- Nat.negb_odd. destruct (Nat.odd k); reflexivity. }
  apply G. lia.
Qed.
Lemma sign_cycle c p : is_bij p -> NoDup c -> c <> [] -> is_cycle_action c (act p) -> sign p = if Nat.even (length c) then Flip else Identity.
Proof.
  intros Hp Hn Hc [Ha1 Ha2]. rewrite sign_par. set (m := length c - 1). assert (Hm : length c = S m) by (unfold m; destruct c; [congruence|cbn; lia]).
  set (n := Nat.max (length p) (S (fold_left Nat.max c 0))).
  assert (Hcn : forall x, In x c -> x < n). { intros x Hx. pose proof (proj2 (fold_max_ge c 0) x Hx). lia. }
  assert (Hcl : length c <= n) by (apply NoDup_bounded; auto).
  set (g := c ++ filter (fun y => negb (existsb (Nat.eqb y) c)) (seq 0 n)).
  assert (Hg : NoDup g).
  { apply NoDup_app_iff. split; auto. split; [apply NoDup_filter, seq_NoDup|]. intros x Hx Hx'. apply filter_In in Hx' as [_ Hx'].
    apply negb_true_iff in Hx'. apply existsb_eq_iff in Hx. congruence. }
  assert (Hgb : forall x, In x g -> x < n).
  { intros x Hx. apply in_app_iff in Hx as [Hx|Hx]; auto. apply filter_In in Hx as [Hx _]. apply in_seq in Hx. lia. }
  assert (Hgl : length g = n).
  { apply Nat.le_antisymm; [apply NoDup_bounded; auto|]. rewrite <- (seq_length n 0) at 1. apply NoDup_incl_length; [apply seq_NoDup|].
    intros x Hx. apply in_app_iff. destruct (existsb (Nat.eqb x) c) eqn:E; [left; apply existsb_eq_iff; auto|right]. apply filter_In. rewrite E. auto. }
  assert (Hgbij : is_bij g) by (apply is_bij_iff; rewrite Hgl; auto).
  rewrite <- (par_extend p n Hp) by lia.
  assert (E1 : par n (fun x => act p (act g x)) = xorb (par n (act p)) (par n (act g))).
  { apply par_compose.
    - intros x Hx. rewrite <- Hgl in *. apply act_lt; auto.
    - intros x y _ _. apply act_inj; auto.
    - intros x y _ _. apply act_inj; auto. }
  assert (Hs : is_bij (std_cycle m)) by apply std_cycle_bij.
  assert (Hsl : length (std_cycle m) = S m) by (unfold std_cycle; rewrite app_length, seq_length; cbn; lia).
  assert (E2 : par n (fun x => act g (act (std_cycle m) x)) = xorb (par n (act g)) (par n (act (std_cycle m)))).
  { apply par_compose.
    - intros x Hx. apply act_lt_N; auto. lia.
    - intros x y _ _. apply act_inj; auto.
    - intros x y _ _. apply act_inj; auto. }
  assert (E3 : par n (fun x => act p (act g x)) = par n (fun x => act g (act (std_cycle m) x))).
  { apply par_ext. intros x Hx. rewrite std_cycle_act. destruct (Nat.ltb_spec x m).
    - unfold act at 2 3. unfold g. rewrite (app_nth1 c _ x) by lia. rewrite (app_nth1 c _ (S x)) by lia.
      rewrite (nth_indep c x 0) by lia. rewrite Ha1 by lia. rewrite Nat.mod_small by lia. apply nth_indep. lia.
    - destruct (Nat.eqb_spec x m) as [->|Hne].
      + unfold act at 2 3. unfold g. rewrite (app_nth1 c _ m) by lia. rewrite (app_nth1 c _ 0) by lia.
        rewrite (nth_indep c m 0) by lia. rewrite Ha1 by lia. rewrite Hm, Nat.mod_same by lia. reflexivity.
      + apply Ha2. rewrite (act_nth g x 0) by lia. unfold g. rewrite app_nth2 by lia. intros Hin.
        assert (Hx' : x - length c < length (filter (fun y => negb (existsb (Nat.eqb y) c)) (seq 0 n))).
        { unfold g in Hgl. rewrite app_length in Hgl. lia. }
        apply (nth_In _ 0) in Hx'. apply filter_In in Hx' as [_ Hx']. apply negb_true_iff in Hx'. apply existsb_eq_iff in Hin. congruence. }
  rewrite E1, E2 in E3. rewrite (par_extend (std_cycle m) n Hs) in E3 by lia. rewrite Hsl, std_cycle_par in E3.
  rewrite Hm, Nat.even_succ. assert (E4 : par n (act p) = Nat.odd m) by (destruct (par n (act p)), (par n (act g)), (Nat.odd m); cbn in E3; congruence).
  rewrite E4. reflexivity.
Qed.
(* ---------- conversions *)
Lemma try_from_spec N p : is_bij p -> is_reduced p ->
  (length p <= N -> exists q, try_from_perm N p = Some q /\ length q = N /\ is_bij q /\ (forall x, act q x = act p x) /\ perm_of_n q = p) /\
  (N < length p -> try_from_perm N p = None).
Proof.
  intros Hp Hr. unfold try_from_perm. split.
  - intros Hl. destruct (Nat.ltb_spec N (length p)); [lia|].
    assert (Hbij : is_bij (map (call p) (seq 0 N))).
    { apply map_seq_bij; intros; rewrite ?call_act in *; [apply act_lt_N; auto|eapply act_inj; eauto]. }
    assert (Hact : forall x, act (map (call p) (seq 0 N)) x = act p x).
    { intros x. destruct (le_lt_dec N x); [rewrite !act_over; auto; [lia|rewrite map_length, seq_length; auto]|]. rewrite act_map_seq, call_act; auto. }
    eexists; split; [reflexivity|]. split; [rewrite map_length, seq_length; auto|]. split; [auto|]. split; [auto|].
    destruct (reduced_spec _ Hbij) as (R1 & R2 & R3 & R4). apply reduced_unique; auto. intros x. unfold perm_of_n, new_unchecked. rewrite R4. auto.
  - intros Hl. apply Nat.ltb_lt in Hl. rewrite Hl. reflexivity.
Qed.
