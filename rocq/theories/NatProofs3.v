(* Miller-Rabin, primality_test, factor *)
From Coq Require Import NArith ZArith List Bool Lia Sorting.Sorted Permutation.
From Verif Require Import RingSpec RingModel NatSpec NatModel NatProofs NatBridge NatProofs2.
Import ListNotations.
Local Open Scope N_scope.

Lemma split2_spec f : forall s d, 0 < d -> d < 2 ^ N.of_nat f -> exists s' d', split2 f s d = Some (s', d') /\ 2 ^ N.of_nat s * d = 2 ^ N.of_nat s' * d' /\ d' mod 2 = 1.
Proof.
  induction f as [|f IH]; intros s d Hd Hf; [change (2 ^ N.of_nat 0) with 1 in Hf; lia|]. cbn [split2]. destruct (N.eqb_spec (d mod 2) 0) as [E|E].
  - apply N.mod_divide in E as [c Hc]; [|lia]. assert (Hd2 : d / 2 = c) by (rewrite Hc; apply N.div_mul; lia). rewrite Hd2.
    replace (N.of_nat (S f)) with (N.succ (N.of_nat f)) in Hf by lia. rewrite N.pow_succ_r' in Hf. destruct (IH (S s) c ltac:(lia) ltac:(lia)) as (s' & d' & E1 & E2 & E3). exists s', d'. split; auto. split; auto.
    rewrite <- E2. replace (N.of_nat (S s)) with (N.succ (N.of_nat s)) by lia. rewrite N.pow_succ_r'. lia.
  - exists s, d. split; auto. split; auto. pose proof (N.mod_lt d 2 ltac:(lia)) as Hm. revert E Hm. generalize (d mod 2). intros; lia.
Qed.
Lemma miller_rabin_total n bases : exists r, miller_rabin n bases = Some r.
Proof.
  unfold miller_rabin. destruct (N.eqb_spec n 0); [eauto|]. destruct (N.eqb_spec n 1); [eauto|]. destruct (N.eqb_spec n 2); [eauto|]. destruct (n mod 2 =? 0); [eauto|].
  pose proof (size_nat_pow n). destruct (split2_spec (N.size_nat n) 0 (n - 1)) as (s & d & -> & _); [lia|lia|]. cbn [obind]. eauto.
Qed.
Lemma miller_rabin_prime n bases : prime_N n -> (forall a, In a bases -> 1 <= a < n) -> miller_rabin n bases = Some (if n =? 2 then inl PPrime else inr tt).
Proof.
  intros P Hb. unfold miller_rabin. assert (1 < n) by apply P. destruct (N.eqb_spec n 0); [lia|]. destruct (N.eqb_spec n 1); [lia|]. destruct (N.eqb_spec n 2); auto. destruct (N.eqb_spec (n mod 2) 0) as [E|E].
  - exfalso. apply N.mod_divide in E; [|lia]. destruct P as [_ P]. destruct (P 2 E); lia.
  - pose proof (size_nat_pow n). destruct (split2_spec (N.size_nat n) 0 (n - 1)) as (s & d & E1 & E2 & _); [lia|lia|]. rewrite E1. cbn [obind].
    change (2 ^ N.of_nat 0) with 1 in E2. rewrite mr_bases_prime; auto; lia.
Qed.
Lemma prime_dec n : {prime_N n} + {~ prime_N n}.
Proof.
  destruct (mathcomp.ssreflect.prime.prime (N.to_nat n)) eqn:E; [left; apply prime_bridge; rewrite E; reflexivity|right; intros H; apply prime_bridge in H; rewrite E in H; discriminate].
Qed.
Lemma not_prime_composite n : 1 < n -> ~ prime_N n -> composite_N n.
Proof. intros H Hp. destruct (try_divisors_spec n) as (t & _ & H'). destruct t; try lia; auto. contradiction. Qed.
Lemma mr_ok_cases n s d bases t : mr_bases n s d bases = inl t -> t = PComposite.
Proof. induction bases as [|a l IH]; cbn [mr_bases]; [discriminate|]. destruct (mr_squares _ _ _); [|congruence]. destruct (negb _); auto. congruence. Qed.
Lemma miller_rabin_ok n bases t : (forall a, In a bases -> 1 <= a < n) -> miller_rabin n bases = Some (inl t) ->
  match t with PZero => n = 0 | POne => n = 1 | PPrime => n = 2 | PComposite => composite_N n end.
Proof.
  intros Hb H. destruct (prime_dec n) as [P|P].
  - rewrite miller_rabin_prime in H by auto. destruct (N.eqb_spec n 2); [|discriminate]. injection H as <-. auto.
  - assert (C : 1 < n -> composite_N n) by (intros; apply not_prime_composite; auto). unfold miller_rabin in H.
    destruct (N.eqb_spec n 0); [injection H as <-; auto|]. destruct (N.eqb_spec n 1); [injection H as <-; auto|]. destruct (N.eqb_spec n 2); [injection H as <-; auto|].
    destruct (n mod 2 =? 0); [injection H as <-; apply C; lia|]. destruct (split2 _ _ _) as [[s d]|]; [|discriminate]. cbn [obind] in H. injection H as H. apply mr_ok_cases in H. subst t. apply C; lia.
Qed.

(* ---------- primality_test *)
Lemma small_div_loop_spec n limit : forall f d, 2 <= d -> limit < N.of_nat f + d -> (forall e, 2 <= e -> e < d -> ~ (e | n)) -> 0 < N.of_nat f ->
  (small_div_loop f n d limit = Some true /\ exists e, 2 <= e /\ e < limit /\ (e | n)) \/ (small_div_loop f n d limit = Some false /\ forall e, 2 <= e -> e < limit -> ~ (e | n)).
Proof.
  induction f as [|f IH]; intros d Hd Hl H Hf; [lia|]. cbn [small_div_loop]. destruct (N.ltb_spec d limit).
  - destruct (N.eqb_spec (n mod d) 0) as [E|E].
    + left. split; auto. exists d. split; auto. split; auto. apply div_mod0; auto. lia.
    + apply IH; try lia. intros e H1 H2. destruct (N.eq_dec e d) as [->|]; [|apply H; lia]. rewrite <- div_mod0 by lia. auto.
  - right. split; auto. intros e H1 H2. apply H; lia.
Qed.
Lemma mr_fixed_ok n : 1000 < n -> forall a, In a mr_fixed_bases -> 1 <= a < n.
Proof. intros H a Ha. unfold mr_fixed_bases in Ha. cbn [In] in Ha. repeat (destruct Ha as [<-|Ha]; [lia|]). destruct Ha. Qed.
Lemma primality_test_eq aks n : 1000 < n -> exists b : bool, primality_test aks n =
   (if b then Some PComposite else if n <? mr_limit then do r <- miller_rabin n mr_fixed_bases; Some (match r with inl t => t | inr _ => PPrime end) else aks n) /\
   if b then exists e, 2 <= e /\ e < 1000 /\ (e | n) else forall e, 2 <= e -> e < 1000 -> ~ (e | n).
Proof.
  intros Hn. unfold primality_test. destruct (N.leb_spec n 1000); [lia|]. destruct (small_div_loop_spec n 1000 1000 2) as [[E H']|[E H']]; try lia; rewrite E; cbn [obind]; [exists true|exists false]; split; auto.
Qed.
Lemma primality_prime aks n : prime_N n -> n < mr_limit -> primality_test aks n = Some PPrime.
Proof.
  intros P L. destruct (N.le_gt_cases n 1000) as [H|H].
  - unfold primality_test. apply N.leb_le in H. rewrite H. destruct (try_divisors_spec n) as (t & E & Ht). rewrite E. assert (1 < n) by apply P. destruct t; try lia; auto. apply composite_not_prime in Ht. contradiction.
  - destruct (primality_test_eq aks n H) as ([] & E & Hb); rewrite E.
    + exfalso. destruct Hb as (e & H1 & H2 & H3). apply (prime_no_div n e P); auto. lia.
    + apply N.ltb_lt in L. rewrite L. rewrite miller_rabin_prime; [|auto|apply mr_fixed_ok; auto]. destruct (N.eqb_spec n 2); [lia|]. reflexivity.
Qed.
Lemma primality_small aks n : n < 1000000 -> exists t, primality_test aks n = Some t /\
  match t with PZero => n = 0 | POne => n = 1 | PPrime => prime_N n | PComposite => composite_N n end.
Proof.
  intros L. destruct (N.le_gt_cases n 1000) as [H|H].
  - unfold primality_test. apply N.leb_le in H. rewrite H. apply try_divisors_spec.
  - destruct (primality_test_eq aks n H) as ([] & E & Hb).
    + rewrite E. eexists. split; [reflexivity|]. cbn. destruct Hb as (e & H1 & H2 & H3). apply composite_iff; [lia|]. exists e. split; [lia|]. split; auto. lia.
    + assert (P : prime_N n) by (apply (no_small_prime n 1000); auto; lia). rewrite (primality_prime aks n P) by (unfold mr_limit; lia). eexists; split; [reflexivity|auto].
Qed.
(* below the Miller-Rabin limit the only possible error is to declare a strong pseudoprime to all thirteen bases prime *)
Lemma primality_mid aks n : n < mr_limit -> exists t, primality_test aks n = Some t /\
  match t with PZero => n = 0 | POne => n = 1 | PPrime => prime_N n \/ (1000000 <= n /\ miller_rabin n mr_fixed_bases = Some (inr tt)) | PComposite => composite_N n end.
Proof.
  intros L. destruct (N.lt_ge_cases n 1000000) as [Hs|Hs]; [destruct (primality_small aks n Hs) as (t & E & Ht); exists t; split; auto; destruct t; auto|].
  destruct (primality_test_eq aks n ltac:(lia)) as ([] & E & Hb); rewrite E.
  - eexists. split; [reflexivity|]. cbn. destruct Hb as (e & H1 & H2 & H3). apply composite_iff; [lia|]. exists e. split; [lia|]. split; auto. lia.
  - pose proof L as L'. apply N.ltb_lt in L'. rewrite L'. destruct (miller_rabin_total n mr_fixed_bases) as (r & Er). rewrite Er. cbn [obind]. destruct r as [t|[]].
    + exists t. split; auto. apply miller_rabin_ok in Er; [|apply mr_fixed_ok; lia]. destruct t; auto. lia.
    + exists PPrime. split; auto.
Qed.
