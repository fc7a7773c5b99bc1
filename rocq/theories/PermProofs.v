(* Proofs about permutations: representation, group laws, sign *)
From Coq Require Import List Arith Bool Lia Permutation.
From Verif Require Import PermSpec PermModel.
Import ListNotations.

Lemma call_act p x : call p x = act p x.
Proof.
  unfold call, act. destruct (nth_error p x) eqn:E.
  - symmetry. apply nth_error_nth; auto.
  - apply nth_error_None in E. symmetry. apply nth_overflow; auto.
Qed.
Lemma act_over p x : length p <= x -> act p x = x.
Proof. intros. unfold act. apply nth_overflow; auto. Qed.
Lemma act_nth p x d : x < length p -> act p x = nth x p d.
Proof. intros. unfold act. apply nth_indep; auto. Qed.
Lemma is_bij_iff l : is_bij l <-> NoDup l /\ (forall x, In x l -> x < length l).
Proof.
  unfold is_bij. split.
  - intros H. split.
    + eapply Permutation_NoDup; [symmetry; exact H|apply seq_NoDup].
    + intros x Hx. apply (Permutation_in _ H) in Hx. apply in_seq in Hx. lia.
  - intros [H1 H2]. apply NoDup_Permutation_bis; auto.
    + rewrite seq_length. lia.
    + intros x Hx. apply in_seq. specialize (H2 x Hx). lia.
Qed.
Lemma act_lt l x : is_bij l -> x < length l -> act l x < length l.
Proof. intros H Hx. apply is_bij_iff in H as [_ H]. apply H. rewrite (act_nth l x 0) by auto. apply nth_In; auto. Qed.
Lemma act_lt_N l x N : is_bij l -> length l <= N -> x < N -> act l x < N.
Proof.
  intros H Hl Hx. destruct (le_lt_dec (length l) x); [rewrite act_over; auto|]. pose proof (act_lt l x H). lia.
Qed.
Lemma act_inj l x y : is_bij l -> act l x = act l y -> x = y.
Proof.
  intros H E. pose proof (act_lt l x H) as A1. pose proof (act_lt l y H) as A2. apply is_bij_iff in H as [Hn _].
  destruct (le_lt_dec (length l) x) as [Hx|Hx]; destruct (le_lt_dec (length l) y) as [Hy|Hy].
  - rewrite !act_over in E; auto.
  - rewrite (act_over l x) in E; auto. lia.
  - rewrite (act_over l y) in E; auto. lia.
  - rewrite (act_nth l x 0), (act_nth l y 0) in E; auto. apply (proj1 (NoDup_nth l 0) Hn); auto.
Qed.
Lemma act_surj l y : is_bij l -> exists x, act l x = y.
Proof.
  intros H. destruct (le_lt_dec (length l) y) as [Hy|Hy]; [exists y; apply act_over; auto|].
  assert (Hin : In y l). { eapply Permutation_in; [symmetry; exact H|apply in_seq; lia]. }
  apply (In_nth _ _ 0) in Hin as (x & Hx & E). exists x. rewrite (act_nth l x 0); auto.
Qed.
(* building a bijection from an injective function on 0..n-1 *)
Lemma map_seq_bij n (f : nat -> nat) : (forall x, x < n -> f x < n) -> (forall x y, x < n -> y < n -> f x = f y -> x = y) -> is_bij (map f (seq 0 n)).
Proof.
  intros H1 H2. apply is_bij_iff. rewrite map_length, seq_length. split.
  - assert (G : forall l, NoDup l -> (forall x, In x l -> x < n) -> NoDup (map f l)).
    { induction l as [|a l IH]; intros Hn Hb; cbn; [constructor|]. inversion Hn; subst. constructor.
      - intros Hin. apply in_map_iff in Hin as (b & E & Hb'). apply H2 in E; [subst; auto|apply Hb; right; auto|apply Hb; left; auto].
      - apply IH; auto. intros; apply Hb; right; auto. }
    apply G; [apply seq_NoDup|]. intros x Hx. apply in_seq in Hx. lia.
  - intros x Hx. apply in_map_iff in Hx as (y & <- & Hy). apply in_seq in Hy. apply H1. lia.
Qed.
Lemma act_map_seq n f x : x < n -> act (map f (seq 0 n)) x = f x.
Proof.
  intros H. rewrite (act_nth _ x (f 0)) by (rewrite map_length, seq_length; auto). rewrite map_nth, seq_nth; auto.
Qed.
Lemma list_ext (a b : list nat) : length a = length b -> (forall x, x < length a -> act a x = act b x) -> a = b.
Proof.
  intros H1 H2. apply (nth_ext a b 0 0); auto. intros n Hn. rewrite <- !act_nth; auto. congruence.
Qed.

(* ---------- reduced *)
Definition is_reduced (l : list nat) : Prop := l = [] \/ last l 0 + 1 <> length l.
Lemma snoc_case (l : list nat) : l = [] \/ exists l' a, l = l' ++ [a].
Proof. destruct l as [|a l]; [left; auto|right]. destruct (exists_last (l := a :: l)) as (l' & b & E); [discriminate|]. eauto. Qed.
Lemma reduced_fuel_spec fuel : forall l, length l <= fuel -> is_bij l ->
  is_bij (reduced_fuel fuel l) /\ is_reduced (reduced_fuel fuel l) /\ length (reduced_fuel fuel l) <= length l /\
  forall x, act (reduced_fuel fuel l) x = act l x.
Proof.
  induction fuel as [|fuel IH]; intros l Hl Hb; cbn [reduced_fuel].
  - destruct l; [|cbn in Hl; lia]. split; [exact Hb|]. split; [left; auto|]. split; [lia|reflexivity].
  - destruct (snoc_case l) as [->|(l' & a & ->)]; [split; [exact Hb|]; split; [left; auto|]; split; [lia|reflexivity]|].
    assert (E : (match l' ++ [a] with [] => l' ++ [a] | _ :: _ => if last (l' ++ [a]) 0 + 1 =? length (l' ++ [a]) then reduced_fuel fuel (removelast (l' ++ [a])) else l' ++ [a] end)
       = (if last (l' ++ [a]) 0 + 1 =? length (l' ++ [a]) then reduced_fuel fuel (removelast (l' ++ [a])) else l' ++ [a])).
    { destruct (l' ++ [a]) eqn:E; [destruct l'; discriminate|reflexivity]. }
    rewrite E, last_last, removelast_last. clear E.
    destruct (Nat.eqb_spec (a + 1) (length (l' ++ [a]))) as [Ha|Ha].
    + rewrite app_length in *. cbn in *. assert (a = length l') by lia. subst a.
      assert (Hb' : is_bij l').
      { apply is_bij_iff in Hb as [Hn Hlt]. apply is_bij_iff. rewrite app_length in Hlt. cbn in Hlt. apply NoDup_remove in Hn as [Hn Hni]. rewrite app_nil_r in *.
        split; auto. intros x Hx. specialize (Hlt x (in_or_app _ _ _ (or_introl Hx))). destruct (Nat.eq_dec x (length l')); [subst; contradiction|lia]. }
      destruct (IH l') as (I1 & I2 & I3 & I4); [lia|auto|]. split; [auto|]. split; [auto|]. split; [lia|].
      intros x. rewrite I4. unfold act. destruct (lt_eq_lt_dec x (length l')) as [[Hx| ->]|Hx].
      * rewrite app_nth1; auto.
      * rewrite nth_overflow by lia. rewrite app_nth2, Nat.sub_diag; auto.
      * rewrite !nth_overflow; auto; rewrite ?app_length; cbn; lia.
    + split; [auto|]. split; [right; rewrite last_last; auto|]. split; [lia|auto].
Qed.
Lemma reduced_spec l : is_bij l -> is_bij (reduced l) /\ is_reduced (reduced l) /\ length (reduced l) <= length l /\ forall x, act (reduced l) x = act l x.
Proof. intros. apply reduced_fuel_spec; auto. Qed.
Lemma reduced_unique a b : is_bij a -> is_bij b -> is_reduced a -> is_reduced b -> (forall x, act a x = act b x) -> a = b.
Proof.
  assert (G : forall a b, is_reduced b -> (forall x, act a x = act b x) -> length b <= length a).
  { clear. intros a b Hr E. destruct (le_lt_dec (length b) (length a)); auto. exfalso.
    destruct (snoc_case b) as [->|(b' & z & ->)]; [cbn in *; lia|]. rewrite app_length in *. cbn in *.
    specialize (E (length b')). rewrite (act_over a) in E by lia.
    unfold act in E. rewrite app_nth2, Nat.sub_diag in E by lia. cbn in E.
    destruct Hr as [Hr|Hr]; [destruct b'; discriminate|]. rewrite last_last, app_length in Hr. cbn in Hr. lia. }
  intros Ha Hb Ra Rb E. assert (length a = length b).
  { apply Nat.le_antisymm; [apply G; auto|apply G; auto]. }
  apply list_ext; auto.
Qed.

(* ---------- new *)
Lemma vset_some {A} (l : list A) i v : i < length l -> exists l', vset l i v = Some l' /\ length l' = length l /\
  forall k d, nth k l' d = if Nat.eqb k i then v else nth k l d.
Proof.
  revert i. induction l as [|h t IH]; intros i Hi; cbn in Hi; [lia|]. destruct i as [|i]; cbn [vset].
  - eexists; split; [reflexivity|]. split; [reflexivity|]. intros [|k] d; reflexivity.
  - destruct (IH i) as (t' & -> & Hl & Hn); [lia|]. eexists; split; [reflexivity|]. split; [cbn; lia|]. intros [|k] d; [reflexivity|]. cbn. apply Hn.
Qed.
Lemma vset_none {A} (l : list A) i v : length l <= i -> vset l i v = None.
Proof. revert i. induction l as [|h t IH]; intros [|i] Hi; cbn in *; auto; try lia; try (rewrite IH by lia; reflexivity). Qed.
Lemma mark_spec n perm : forall present, length present = n ->
  (forall x, In x perm -> x < n) ->
  exists p, mark n present perm = Some (Some p) /\ length p = n /\ forall k, nth k p false = true <-> nth k present false = true \/ In k perm.
Proof.
  induction perm as [|i perm IH]; intros present Hl Hb; cbn [mark].
  - exists present. split; [reflexivity|]. split; [auto|]. intros k. cbn. tauto.
  - assert (Hi : i < n) by (apply Hb; left; auto). apply Nat.ltb_lt in Hi as Hi'. rewrite Hi'. cbn [negb].
    destruct (vset_some present i true) as (p1 & -> & Hl1 & Hn1); [lia|].
    destruct (IH p1) as (p & -> & Hp & Hk); [lia|intros; apply Hb; right; auto|].
    exists p. split; [reflexivity|]. split; [auto|]. intros k. rewrite Hk, Hn1. cbn [In]. destruct (Nat.eqb_spec k i); [subst; tauto|].
    split; [tauto|]. intros [?|[?|?]]; auto; congruence.
Qed.
Lemma mark_bad n perm : forall present, length present = n -> ~ (forall x, In x perm -> x < n) -> mark n present perm = Some None.
Proof.
  induction perm as [|i perm IH]; intros present Hl Hb; cbn [mark].
  - exfalso. apply Hb. intros x [].
  - destruct (Nat.ltb_spec i n) as [Hi|Hi]; cbn [negb]; [|reflexivity].
    destruct (vset_some present i true) as (p1 & -> & Hl1 & Hn1); [lia|]. apply IH; [lia|]. intros H. apply Hb. intros x [<-|Hx]; auto.
Qed.
Lemma valid_check_spec perm : exists b, valid_check perm = Some b /\ (b = true <-> is_bij perm).
Proof.
  unfold valid_check. set (n := length perm).
  assert (Hdec : (forall x, In x perm -> x < n) \/ ~ (forall x, In x perm -> x < n)).
  { destruct (forallb (fun x => x <? n) perm) eqn:E.
    - left. intros x Hx. rewrite forallb_forall in E. apply Nat.ltb_lt. auto.
    - right. intros H. assert (forallb (fun x => x <? n) perm = true); [|congruence]. apply forallb_forall. intros x Hx. apply Nat.ltb_lt; auto. }
  destruct Hdec as [H|H].
  - destruct (mark_spec n perm (repeat false n)) as (p & -> & Hp & Hk); [apply repeat_length|auto|].
    eexists; split; [reflexivity|].
    assert (Hr : forall k, nth k (repeat false n) false = false).
    { intros k. destruct (le_lt_dec n k); [apply nth_overflow; rewrite repeat_length; auto|]. apply nth_repeat. }
    rewrite forallb_forall. split.
    + intros Hall. unfold is_bij. symmetry. apply NoDup_Permutation_bis; [apply seq_NoDup|rewrite seq_length; lia|].
      intros x Hx. apply in_seq in Hx. assert (Hx' : nth x p false = true) by (apply Hall, nth_In; lia). apply Hk in Hx' as [Hx'|]; auto. rewrite Hr in Hx'. discriminate.
    + intros Hb b Hb'. apply (In_nth _ _ false) in Hb' as (k & Hk' & <-). apply Hk. right. eapply Permutation_in; [symmetry; exact Hb|apply in_seq; lia].
  - rewrite mark_bad; auto; [|apply repeat_length]. eexists; split; [reflexivity|]. split; [discriminate|]. intros Hb. exfalso. apply H. apply is_bij_iff in Hb. apply Hb.
Qed.
Lemma perm_new_spec v :
  (is_bij v -> exists p, perm_new v = Some (Some p) /\ is_bij p /\ is_reduced p /\ forall x, call p x = act v x) /\
  (~ is_bij v -> perm_new v = Some None).
Proof.
  unfold perm_new. destruct (valid_check_spec v) as (b & -> & Hb). split.
  - intros H. apply Hb in H as E. subst b. destruct (reduced_spec v H) as (H1 & H2 & H3 & H4). eexists; split; [reflexivity|].
    split; [exact H1|]. split; [exact H2|]. intros x. rewrite call_act. apply H4.
  - intros H. destruct b; [exfalso; apply H; apply Hb; auto|reflexivity].
Qed.

(* ---------- compose and inverse *)
Lemma compose_spec a b : is_bij a -> is_bij b ->
  is_bij (perm_compose a b) /\ is_reduced (perm_compose a b) /\ forall x, act (perm_compose a b) x = act a (act b x).
Proof.
  intros Ha Hb. unfold perm_compose, new_unchecked. set (n := Nat.max (length a) (length b)).
  assert (Hbij : is_bij (map (fun i => call a (call b i)) (seq 0 n))).
  { apply map_seq_bij.
    - intros x Hx. rewrite !call_act. apply act_lt_N; auto; [lia|]. apply act_lt_N; auto. lia.
    - intros x y _ _ E. rewrite !call_act in E. apply act_inj in E; auto. apply act_inj in E; auto. }
  destruct (reduced_spec _ Hbij) as (H1 & H2 & H3 & H4). split; [auto|]. split; [auto|]. intros x. rewrite H4.
  destruct (le_lt_dec n x).
  - rewrite act_over by (rewrite map_length, seq_length; auto). rewrite (act_over b) by lia. rewrite act_over; auto; lia.
  - rewrite act_map_seq by auto. rewrite !call_act. reflexivity.
Qed.
Lemma inv_loop_spec perm : forall i v, NoDup perm -> (forall x, In x perm -> x < length v) ->
  exists v', inv_loop perm i v = Some v' /\ length v' = length v /\
    (forall k d, k < length perm -> nth (nth k perm 0) v' d = i + k) /\ (forall y d, ~ In y perm -> nth y v' d = nth y v d).
Proof.
  induction perm as [|j perm IH]; intros i v Hn Hb; cbn [inv_loop].
  - exists v. split; [reflexivity|]. split; [auto|]. split; [cbn; lia|auto].
  - inversion Hn as [|? ? Hni Hn']; subst. destruct (vset_some v j i) as (v1 & -> & Hl1 & Hn1); [apply Hb; left; auto|].
    destruct (IH (S i) v1 Hn') as (v' & -> & Hl & H1 & H2); [intros x Hx; rewrite Hl1; apply Hb; right; auto|].
    exists v'. split; [reflexivity|]. split; [lia|]. split.
    + intros [|k] d Hk; cbn [nth].
      * rewrite H2, Hn1, Nat.eqb_refl by auto. lia.
      * cbn in Hk. rewrite H1 by lia. lia.
    + intros y d Hy. cbn in Hy. rewrite H2, Hn1 by tauto. destruct (Nat.eqb_spec y j); [subst; tauto|reflexivity].
Qed.
Lemma inverse_raw p : is_bij p -> exists q, inv_loop p 0 (repeat 0 (length p)) = Some q /\ length q = length p /\ is_bij q /\
  (forall x, act q (act p x) = x) /\ (forall x, act p (act q x) = x).
Proof.
  intros Hp. pose proof Hp as H. apply is_bij_iff in H as [Hn Hlt].
  destruct (inv_loop_spec p 0 (repeat 0 (length p)) Hn) as (v & Ev & Hl & H1 & _); [intros x Hx; rewrite repeat_length; auto|].
  rewrite repeat_length in Hl.
  assert (G : forall x, act v (act p x) = x).
  { intros x. destruct (le_lt_dec (length p) x); [rewrite (act_over p) by auto; apply act_over; lia|].
    pose proof (act_lt p x Hp l). rewrite (act_nth v _ 0) by lia. rewrite (act_nth p x 0) by auto. rewrite H1; auto. }
  assert (G2 : forall x, act p (act v x) = x).
  { intros x. destruct (act_surj p x Hp) as [y <-]. rewrite G. reflexivity. }
  exists v. split; [auto|]. split; [auto|]. split; [|split; auto].
  assert (Hv : v = map (act v) (seq 0 (length p))).
  { apply list_ext; [rewrite map_length, seq_length; auto|]. intros x Hx. rewrite act_map_seq; auto. lia. }
  rewrite Hv. apply map_seq_bij.
  - intros x Hx. destruct (le_lt_dec (length p) (act v x)) as [Hc|Hc]; auto. exfalso. pose proof (G2 x) as E. rewrite (act_over p) in E by auto. lia.
  - intros x y Hx Hy E. rewrite <- (G2 x), <- (G2 y), E. reflexivity.
Qed.
Lemma inverse_spec p : is_bij p -> exists q, perm_inverse p = Some q /\ is_bij q /\ is_reduced q /\
  (forall x, act q (act p x) = x) /\ (forall x, act p (act q x) = x).
Proof.
  intros Hp. destruct (inverse_raw p Hp) as (v & Ev & Hl & Hb & H1 & H2). unfold perm_inverse. rewrite Ev.
  destruct (reduced_spec v Hb) as (R1 & R2 & R3 & R4). eexists; split; [reflexivity|]. unfold new_unchecked.
  split; [auto|]. split; [auto|]. split; intros x; rewrite R4; auto.
Qed.

(* ---------- sign *)
Definition c2_of (b : bool) : C2 := if b then Flip else Identity.
Fixpoint xors (l : list bool) : bool := match l with [] => false | b :: l' => xorb b (xors l') end.
Lemma xors_app a b : xors (a ++ b) = xorb (xors a) (xors b).
Proof. induction a; cbn; [destruct (xors b); auto|]. rewrite IHa, xorb_assoc. reflexivity. Qed.
Lemma xors_perm a b : Permutation a b -> xors a = xors b.
Proof. induction 1; cbn; auto; [congruence| |congruence]. destruct x, y, (xors l); reflexivity. Qed.
Lemma xors_odd (A : Type) (f : A -> bool) l : xors (map f l) = Nat.odd (length (filter f l)).
Proof.
  induction l as [|a l IH]; cbn [map xors filter]; [reflexivity|]. rewrite IH. destruct (f a); [|destruct (Nat.odd _); reflexivity].
  cbn [length]. rewrite Nat.odd_succ, <- Nat.negb_odd. destruct (Nat.odd _); reflexivity.
Qed.
Lemma c2_compose_of a b : c2_compose (c2_of a) (c2_of b) = c2_of (xorb a b).
Proof. destruct a, b; reflexivity. Qed.
Lemma sign_inner_spec p i js b : (forall j, In j js -> j < i) -> sign_inner p i js (c2_of b) = c2_of (xorb b (xors (map (fun j => act p i <? act p j) js))).
Proof.
  revert b. induction js as [|j js IH]; intros b H; cbn [sign_inner map xors]; [destruct b; reflexivity|].
  assert (E : (i <? j) = false) by (apply Nat.ltb_ge; specialize (H j (or_introl eq_refl)); lia). rewrite E, xorb_false_l, !call_act.
  replace (if act p i <? act p j then c2_compose (c2_of b) Flip else c2_of b) with (c2_of (xorb b (act p i <? act p j))) by (destruct (act p i <? act p j), b; reflexivity).
  rewrite IH, xorb_assoc; auto. intros; apply H; right; auto.
Qed.
Definition par (n : nat) (f : nat -> nat) : bool := xors (map (fun ij => f (fst ij) <? f (snd ij)) (pairs n)).
Lemma sign_outer_spec p is_ b : sign_outer p is_ (c2_of b) = c2_of (xorb b (xors (map (fun ij => act p (fst ij) <? act p (snd ij)) (flat_map (fun i => map (fun j => (i, j)) (seq 0 i)) is_)))).
Proof.
  revert b. induction is_ as [|i is_ IH]; intros b; cbn [sign_outer flat_map]; [destruct b; reflexivity|].
  rewrite sign_inner_spec by (intros j Hj; apply in_seq in Hj; lia). rewrite IH, map_app, xors_app, map_map, <- xorb_assoc. reflexivity.
Qed.
Lemma sign_par p : sign p = c2_of (par (length p) (act p)).
Proof. unfold sign. change Identity with (c2_of false). rewrite sign_outer_spec, xorb_false_l. reflexivity. Qed.
Lemma par_odd n f : par n f = Nat.odd (inversions n f).
Proof. unfold par, inversions. apply xors_odd. Qed.
Lemma pairs_S n : pairs (S n) = pairs n ++ map (fun j => (n, j)) (seq 0 n).
Proof. unfold pairs. rewrite seq_S, flat_map_app. cbn [flat_map]. rewrite app_nil_r. reflexivity. Qed.
Lemma in_pairs n i j : In (i, j) (pairs n) <-> j < i < n.
Proof.
  unfold pairs. rewrite in_flat_map. split.
  - intros (x & Hx & H). apply in_map_iff in H as (y & E & Hy). inversion E; subst. apply in_seq in Hx, Hy. lia.
  - intros H. exists i. split; [apply in_seq; lia|]. apply in_map_iff. exists j. split; auto. apply in_seq. lia.
Qed.
Lemma NoDup_pairs n : NoDup (pairs n).
Proof.
  induction n as [|n IH]; [constructor|]. rewrite pairs_S. 
  assert (G : forall (a b : list (nat * nat)), NoDup a -> NoDup b -> (forall x, In x a -> ~ In x b) -> NoDup (a ++ b)).
  { clear. induction a as [|x a IH]; intros b Ha Hb H; cbn; auto. inversion Ha; subst. constructor.
    - rewrite in_app_iff. intros [?|?]; [auto|]. apply (H x); auto. left; auto.
    - apply IH; auto. intros y Hy. apply H. right; auto. }
  apply G; auto.
  - apply FinFun.Injective_map_NoDup; [intros x y E; inversion E; auto|apply seq_NoDup].
  - intros [i j] H1 H2. apply in_pairs in H1. apply in_map_iff in H2 as (y & E & _). inversion E; subst. lia.
Qed.
(* the parity does not depend on the number of points considered *)
Lemma par_extend l N : is_bij l -> length l <= N -> par N (act l) = par (length l) (act l).
Proof.
  intros Hb HN. induction HN as [|N HN IH]; auto. unfold par in *. rewrite pairs_S, map_app, xors_app, IH.
  assert (E : xors (map (fun ij => act l (fst ij) <? act l (snd ij)) (map (fun j => (N, j)) (seq 0 N))) = false).
  { rewrite map_map. cbn [fst snd]. assert (G : forall js, (forall j, In j js -> j < N) -> xors (map (fun j => act l N <? act l j) js) = false).
    { induction js as [|j js IHj]; intros H; cbn [map xors]; auto. rewrite IHj by (intros; apply H; right; auto).
      assert (act l j < N) by (apply act_lt_N; auto; apply H; left; auto). rewrite (act_over l N) by auto.
      destruct (Nat.ltb_spec N (act l j)); [lia|reflexivity]. }
    apply G. intros j Hj. apply in_seq in Hj. lia. }
  rewrite E, xorb_false_r. reflexivity.
Qed.
Definition sp (g : nat -> nat) (ij : nat * nat) : nat * nat :=
  if g (snd ij) <? g (fst ij) then (g (fst ij), g (snd ij)) else (g (snd ij), g (fst ij)).
Lemma par_compose n f g : (forall x, x < n -> g x < n) -> (forall x y, x < n -> y < n -> g x = g y -> x = y) ->
  (forall x y, x < n -> y < n -> f x = f y -> x = y) ->
  par n (fun x => f (g x)) = xorb (par n f) (par n g).
Proof.
  intros Hg1 Hg2 Hf. unfold par.
  assert (Hperm : Permutation (map (sp g) (pairs n)) (pairs n)).
  { apply NoDup_Permutation_bis.
    - assert (G : forall l, NoDup l -> (forall ij, In ij l -> snd ij < fst ij < n) -> NoDup (map (sp g) l)).
      { induction l as [|[i j] l IH]; intros Hn Hl; cbn [map]; [constructor|]. inversion Hn; subst. constructor.
        - intros Hin. apply in_map_iff in Hin as ([i' j'] & E & Hin'). apply H1. replace (i, j) with (i', j'); auto.
          pose proof (Hl _ (or_introl eq_refl)) as A. pose proof (Hl _ (or_intror Hin')) as B. unfold sp in E. cbn [fst snd] in *.
          destruct (Nat.ltb_spec (g j') (g i')); destruct (Nat.ltb_spec (g j) (g i)); inversion E as [[E1 E2]].
          + apply Hg2 in E1, E2; try lia; congruence.
          + apply Hg2 in E1, E2; try lia.
          + apply Hg2 in E1, E2; try lia.
          + apply Hg2 in E1, E2; try lia; congruence.
        - apply IH; auto. intros; apply Hl; right; auto. }
      apply G; [apply NoDup_pairs|]. intros [i j] H. apply in_pairs in H. exact H.
    - rewrite map_length. lia.
    - intros [a b] H. apply in_map_iff in H as ([i j] & E & H). apply in_pairs in H. apply in_pairs.
      unfold sp in E. cbn [fst snd] in E. pose proof (Hg1 i). pose proof (Hg1 j).
      destruct (Nat.ltb_spec (g j) (g i)); inversion E; subst; [lia|].
      assert (g i <> g j) by (intros E'; apply Hg2 in E'; lia). lia. }
  rewrite <- (xors_perm _ _ (Permutation_map (fun ij => f (fst ij) <? f (snd ij)) Hperm)), map_map.
  assert (G : forall l, (forall ij, In ij l -> snd ij < fst ij < n) ->
    xors (map (fun ij => f (g (fst ij)) <? f (g (snd ij))) l) =
    xorb (xors (map (fun x => f (fst (sp g x)) <? f (snd (sp g x))) l)) (xors (map (fun ij => g (fst ij) <? g (snd ij)) l))).
  { induction l as [|[i j] l IH]; intros Hl; cbn [map xors]; auto. rewrite IH by (intros; apply Hl; right; auto).
    specialize (Hl _ (or_introl eq_refl)). cbn [fst snd] in *.
    assert (E : (f (g i) <? f (g j)) = xorb (f (fst (sp g (i, j))) <? f (snd (sp g (i, j)))) (g i <? g j)).
    { unfold sp. cbn [fst snd]. destruct (Nat.ltb_spec (g j) (g i)); cbn [fst snd].
      - destruct (Nat.ltb_spec (g i) (g j)); [lia|]. rewrite xorb_false_r. reflexivity.
      - assert (g i <> g j) by (intros E'; apply Hg2 in E'; lia). destruct (Nat.ltb_spec (g i) (g j)); [|lia].
        assert (f (g i) <> f (g j)) by (intros E'; apply Hf in E'; auto; apply Hg1; lia).
        destruct (Nat.ltb_spec (f (g i)) (f (g j))); destruct (Nat.ltb_spec (f (g j)) (f (g i))); try lia; reflexivity. }
    rewrite E. generalize (f (fst (sp g (i, j))) <? f (snd (sp g (i, j)))) (g i <? g j). intros b1 b2.
    match goal with |- xorb _ (xorb ?x ?y) = _ => generalize x y end. intros b3 b4. destruct b1, b2, b3, b4; reflexivity. }
  apply G. intros [i j] H. apply in_pairs in H. exact H.
Qed.
Lemma par_ext n f g : (forall x, x < n -> f x = g x) -> par n f = par n g.
Proof.
  intros H. unfold par. f_equal. apply map_ext_in. intros [i j] Hin. apply in_pairs in Hin. cbn [fst snd]. rewrite !H by lia. reflexivity.
Qed.
Lemma sign_compose a b : is_bij a -> is_bij b -> sign (perm_compose a b) = c2_compose (sign a) (sign b).
Proof.
  intros Ha Hb. destruct (compose_spec a b Ha Hb) as (H1 & H2 & H3). rewrite !sign_par, c2_compose_of. f_equal.
  set (n := Nat.max (length (perm_compose a b)) (Nat.max (length a) (length b))).
  rewrite <- (par_extend _ n H1), <- (par_extend a n Ha), <- (par_extend b n Hb) by lia.
  rewrite (par_ext n _ (fun x => act a (act b x))) by auto. apply par_compose.
  - intros x Hx. apply act_lt_N; auto. lia.
  - intros x y _ _. apply act_inj; auto.
  - intros x y _ _. apply act_inj; auto.
Qed.
