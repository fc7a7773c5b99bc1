(* factor.rs: partial correctness of the factorizer; exactness for small inputs *)
From Coq Require Import NArith ZArith List Bool Lia Permutation.
From Verif Require Import RingSpec RingModel NatSpec NatModel NatProofs NatBridge NatProofs2 NatProofs3.
Import ListNotations.
Local Open Scope N_scope.

Lemma prod_mul_prime m p : prod_powers (mul_prime m p) = prod_powers m * p.
Proof.
  induction m as [|[q k] m IH]; cbn [mul_prime prod_powers]; [change (0 + 1) with 1; rewrite N.pow_1_r; lia|]. destruct (N.eqb_spec q p) as [->|]; cbn [prod_powers].
  - rewrite N.add_1_r, N.pow_succ_r'. lia.
  - rewrite IH. lia.
Qed.
Lemma mul_prime_keys m p q : In q (map fst (mul_prime m p)) <-> q = p \/ In q (map fst m).
Proof.
  induction m as [|[r k] m IH]; cbn [mul_prime map fst In]; [intuition|]. destruct (N.eqb_spec r p) as [->|]; cbn [map fst In]; [intuition|]. rewrite IH. intuition.
Qed.
Lemma mul_prime_nodup m p : NoDup (map fst m) -> NoDup (map fst (mul_prime m p)).
Proof.
  induction m as [|[r k] m IH]; cbn [mul_prime map fst]; intros H; [repeat constructor; auto|]. inversion H; subst. destruct (N.eqb_spec r p) as [->|]; cbn [map fst]; constructor; auto.
  rewrite mul_prime_keys. intros [->|]; contradiction.
Qed.
Lemma mul_prime_pos m p : (forall q k, In (q, k) m -> 0 < k) -> forall q k, In (q, k) (mul_prime m p) -> 0 < k.
Proof.
  induction m as [|[r j] m IH]; cbn [mul_prime In]; intros H q k; [intros [E|[]]; injection E as <- <-; lia|]. destruct (N.eqb_spec r p) as [->|]; cbn [In].
  - intros [E|Hin]; [injection E as <- <-; lia|apply (H q k); auto].
  - intros [E|Hin]; [apply (H q k); auto|]. apply (IH (fun a b Hab => H a b (or_intror Hab)) q k Hin).
Qed.
(* a map whose keys satisfy Q *)
Record good (Q : N -> Prop) (m : fmap) : Prop := { g_nodup : NoDup (map fst m); g_pos : forall q k, In (q, k) m -> 0 < k; g_key : forall q, In q (map fst m) -> Q q }.
Lemma good_nil Q : good Q []. Proof. constructor; cbn; [constructor|intros ? ? []|intros ? []]. Qed.
Lemma good_mul Q m p : good Q m -> Q p -> good Q (mul_prime m p).
Proof. intros [] Hp. constructor; [apply mul_prime_nodup; auto|apply mul_prime_pos; auto|]. intros q Hq. apply mul_prime_keys in Hq as [->|]; auto. Qed.
Lemma good_factorisation m n : good prime_N m -> prod_powers m = n -> factorisation_of n m.
Proof. intros [H1 H2 H3] H. split; auto. split; auto. intros p k Hin. split; [apply H3; apply (in_map fst) in Hin; auto|apply (H2 p k); auto]. Qed.
Lemma expand_spec m : expand m = prod_powers m.
Proof.
  unfold expand. assert (G : forall t, fold_left (fun t pk => t * pow (fst pk) (snd pk)) m t = t * prod_powers m); [|rewrite G; lia].
  induction m as [|[p k] m IH]; intros t; cbn [fold_left prod_powers fst snd]; [lia|]. rewrite IH, pow_spec. lia.
Qed.

(* ---------- trial division *)
Lemma least_div_prime n d : 2 <= d -> (d | n) -> (forall e, 2 <= e -> e < d -> ~ (e | n)) -> prime_N d.
Proof.
  intros Hd Hdiv H. split; [lia|]. intros e He. destruct (N.eq_dec e 1); auto. right. pose proof (div_le e d He ltac:(lia)). assert (e <> 0) by (intros ->; apply N.divide_0_l in He; lia).
  destruct (N.eq_dec e d); auto. exfalso. apply (H e); [lia|lia|]. apply (N.divide_trans e d n); auto.
Qed.
Lemma size_half n d : 2 <= d -> 0 < n -> n mod d = 0 -> (N.size_nat (n / d) < N.size_nat n)%nat.
Proof.
  intros Hd Hn E. assert (H : n / d <= n / 2) by (apply N.div_le_compat_l; lia). rewrite <- N.div2_div in H.
  assert (Hs : forall a b, a <= b -> (N.size_nat a <= N.size_nat b)%nat).
  { intros a b Hab. destruct (N.eq_dec a 0) as [->|]; [cbn; lia|]. pose proof (N.size_le a). pose proof (N.size_gt b).
    assert (L : forall x, N.of_nat (N.size_nat x) = N.size x) by (intros [|p]; [reflexivity|]; cbn; induction p; cbn; lia).
    assert (2 ^ (N.size a) <= N.succ_double b) by (destruct a, b; cbn in *; lia).
    assert (N.size a <= N.size b); [|rewrite <- !L in *; lia]. destruct (N.le_gt_cases (N.size a) (N.size b)) as [|C]; auto. exfalso.
    assert (2 ^ (N.succ (N.size b)) <= 2 ^ N.size a) by (apply N.pow_le_mono_r; lia). rewrite N.pow_succ_r' in *. rewrite N.succ_double_spec in *. lia. }
  apply Hs in H. enough (N.size_nat (N.div2 n) < N.size_nat n)%nat by lia. destruct n as [|[p|p|]]; cbn; lia.
Qed.
Lemma td_inner_spec Q f : forall m n d, 2 <= d -> 0 < n -> (N.size_nat n < f)%nat -> good Q m -> ((d | n) -> Q d) -> exists m' n', td_inner f m n d = Some (m', n') /\
  good Q m' /\ prod_powers m' * n' = prod_powers m * n /\ 0 < n' /\ (n' | n) /\ ~ (d | n').
Proof.
  induction f as [|f IH]; intros m n d Hd Hn Hf G HQ; [lia|]. cbn [td_inner]. destruct (N.eqb_spec (n mod d) 0) as [E|E].
  - pose proof (size_half n d Hd Hn E). apply div_mod0 in E; [|lia]. pose proof E as [c Hc]. assert (Hnd : n / d = c) by (rewrite Hc; apply N.div_mul; lia). rewrite Hnd in *.
    destruct (IH (mul_prime m d) c d) as (m' & n' & H1 & H2 & H3 & H4 & H5 & H6); auto; try nia.
    + apply good_mul; auto.
    + exists m', n'. split; auto. split; auto. split; [rewrite H3, prod_mul_prime, Hc; lia|]. split; auto. split; auto. apply (N.divide_trans n' c n); auto. exists d. lia.
  - exists m, n. split; auto. split; auto. split; auto. split; auto. split; [apply N.divide_refl|]. rewrite <- div_mod0 by lia. auto.
Qed.
Lemma td_outer_spec max_d f : forall m n d, 2 <= d -> 0 < n -> max_d + 1 < N.of_nat f + d -> d <= max_d + 1 -> good prime_N m -> (forall e, 2 <= e -> e < d -> ~ (e | n)) ->
  exists m' n', td_outer f m n d max_d = Some (m', n') /\ good prime_N m' /\ prod_powers m' * n' = prod_powers m * n /\ 0 < n' /\ (n' | n) /\
    (n' = 1 \/ prime_N n' \/ forall e, 2 <= e -> e <= max_d -> ~ (e | n')).
Proof.
  induction f as [|f IH]; intros m n d Hd Hn Hf Hf0 G H; [lia|]. cbn [td_outer]. destruct (N.leb_spec (d * d) n); cbn [andb]; [destruct (N.leb_spec d max_d)|].
  - destruct (td_inner_spec prime_N (N.size_nat n + 1) m n d) as (m' & n' & E & G' & P' & Hn' & D' & ND); auto; try lia; [intros; apply (least_div_prime n); auto|]. rewrite E. cbn [obind].
    destruct (IH m' n' (d + 1)) as (m2 & n2 & E2 & G2 & P2 & Hn2 & D2 & Fin); auto; try lia.
    + intros e He1 He2 C. destruct (N.eq_dec e d) as [->|]; [contradiction|]. apply (H e); [lia|lia|]. apply (N.divide_trans e n' n); auto.
    + exists m2, n2. split; auto. split; auto. split; [lia|]. split; auto. split; auto. apply (N.divide_trans n2 n' n); auto.
  - exists m, n. split; auto. split; auto. split; auto. split; auto. split; [apply N.divide_refl|]. right; right. intros e He1 He2. apply H; lia.
  - exists m, n. split; auto. split; auto. split; auto. split; auto. split; [apply N.divide_refl|]. destruct (N.eq_dec n 1); auto. right; left. apply (no_small_prime n d); auto; lia.
Qed.
Lemma trial_spec n : 0 < n -> exists m n', new_with_trial_division n 10000 = Some (mkF m [n']) /\ good prime_N m /\ prod_powers m * n' = n /\ 0 < n' /\
  (n' = 1 \/ prime_N n' \/ forall e, 2 <= e -> e <= 10000 -> ~ (e | n')).
Proof.
  intros Hn. unfold new_with_trial_division. destruct (td_outer_spec 10000 (S (N.to_nat 10000)) [] n 2) as (m & n' & E & G & P & H & _ & F); auto; try lia; [apply good_nil|].
  rewrite E. cbn [obind]. exists m, n'. split; auto. split; auto. split; auto. rewrite P. change (prod_powers []) with 1. lia.
Qed.

(* ---------- the main loop *)
Definition prodl (l : list N) : N := fold_right N.mul 1 l.
Lemma next_spec2 l : match next_to_factor l with (None, l') => prodl l = 1 /\ l' = [] | (Some n, l') => exists t, l' = n :: t /\ prodl l' = prodl l /\ n <> 1 /\ (forall x, In x l' -> In x l) end.
Proof.
  induction l as [|n l IH]; cbn [next_to_factor]; [cbn; auto|]. destruct (N.eqb_spec n 1) as [->|Hn].
  - destruct (next_to_factor l) as [[m|] l']; [|destruct IH as [IH1 IH2]; split; auto; cbn [prodl fold_right]; fold (prodl l); lia].
    destruct IH as (t & H1 & H2 & H3 & H4). exists t. split; auto. split; [rewrite H2; cbn [prodl fold_right]; fold (prodl l); lia|]. split; auto. intros x Hx. right. auto.
  - exists l. auto.
Qed.
Lemma small_factor_spec n : 1 < n -> exists d, small_factor (N.to_nat (N.sqrt n) + 2) n 2 = Some d /\ prime_N d /\ (d | n).
Proof.
  intros Hn. pose proof (N.sqrt_spec' n) as Hs.
  assert (L : forall f d, 2 <= d -> N.sqrt n + 1 < N.of_nat f + d -> d <= N.sqrt n + 1 -> (forall e, 2 <= e -> e < d -> ~ (e | n)) -> exists q, small_factor f n d = Some q /\ prime_N q /\ (q | n)).
  { induction f as [|f IH]; intros d Hd Hf Hd2 H; cbn [small_factor]; [lia|]. destruct (N.leb_spec (d * d) n).
    - destruct (N.eqb_spec (n mod d) 0) as [E|E].
      + apply div_mod0 in E; [|lia]. exists d. split; auto. split; auto. apply (least_div_prime n); auto.
      + apply IH; try lia; [nia|]. intros e H1 H2. destruct (N.eq_dec e d) as [->|]; [rewrite <- div_mod0 by lia; auto|apply H; lia].
    - exists n. split; auto. split; [apply (no_small_prime n d); auto; lia|apply N.divide_refl]. }
  apply L; try lia; nia.
Qed.
Lemma rho_inner_div fuel n : forall x y d, rho_inner fuel n x y = Some d -> (d | n) /\ 1 < d.
Proof.
  induction fuel as [|f IH]; intros x y d; [discriminate|]. cbn [rho_inner]. rewrite gcd_spec. cbn [obind]. destruct (N.ltb_spec 1 (N.gcd (N.max (g1 x mod n) (g1 (g1 y) mod n) - N.min (g1 x mod n) (g1 (g1 y) mod n)) n)).
  - intros E. injection E as <-. split; auto. apply N.gcd_divide_r.
  - apply IH.
Qed.
Lemma rho_outer_div fuel n steps : forall x d, rho_outer fuel steps n x = Some d -> (d | n) /\ 1 < d /\ d <> n.
Proof.
  induction steps as [|s IH]; intros x d; [discriminate|]. cbn [rho_outer]. destruct (rho_inner fuel n x x) as [e|] eqn:E; [|discriminate]. cbn [obind]. destruct (N.eqb_spec e n); [apply IH|].
  intros H. injection H as <-. apply rho_inner_div in E. tauto.
Qed.
(* key property: everything recorded is either prime or was declared prime by the test *)
Lemma factor_main_spec pt fuel steps : forall f r, (forall x, In x (f_todo f) -> 0 < x) -> good (fun p => prime_N p \/ pt p = Some true) (f_primes f) -> factor_main pt fuel steps f = Some r ->
  good (fun p => prime_N p \/ pt p = Some true) r /\ prod_powers r = prod_powers (f_primes f) * prodl (f_todo f).
Proof.
  induction steps as [|s IH]; intros f r Hpos G; [discriminate|]. cbn [factor_main]. pose proof (next_spec2 (f_todo f)) as N2. destruct (next_to_factor (f_todo f)) as [[n|] l'].
  2:{ intros E. injection E as <-. destruct N2 as [-> _]. split; auto. lia. }
  destruct N2 as (t & -> & P & Hn & Hin). rewrite <- P. assert (Hn0 : 0 < n) by (apply Hpos, Hin; left; auto). assert (Ht : forall x, In x t -> 0 < x) by (intros; apply Hpos, Hin; right; auto).
  assert (K : forall p f2, (p | n) -> (prime_N p \/ pt p = Some true) -> found_prime_factor (mkF (f_primes f) (n :: t)) p = Some f2 -> factor_main pt fuel s f2 = Some r ->
     good (fun p => prime_N p \/ pt p = Some true) r /\ prod_powers r = prod_powers (f_primes f) * prodl (n :: t)).
  { intros p f2 [c Hc] HQ E2 Er. injection E2 as <-. assert (p <> 0) by (intros ->; lia). assert (Hd : n / p = c) by (rewrite Hc; apply N.div_mul; auto). apply IH in Er; cbn [f_primes f_todo] in *.
    - destruct Er as [G' P']. split; auto. rewrite P', prod_mul_prime. cbn [prodl fold_right]. destruct (N.eqb_spec p n); cbn [negb prodl fold_right]; fold (prodl t); [|rewrite Hd]; nia.
    - intros x. destruct (negb _); cbn [In]; auto. intros [<-|]; auto. rewrite Hd. nia.
    - apply good_mul; auto. }
  destruct (N.ltb_spec n 1000000).
  - destruct (small_factor_spec n ltac:(lia)) as (d & E & Pd & Dd). rewrite E. cbn [obind]. destruct (found_prime_factor _ d) as [f2|] eqn:E2; [|discriminate]. cbn [obind]. intros Er. apply (K d f2); auto.
  - destruct (pt n) as [[]|] eqn:Ept; cbn [obind]; try discriminate.
    + destruct (found_prime_factor _ n) as [f2|] eqn:E2; [|discriminate]. cbn [obind]. intros Er. apply (K n f2); auto. apply N.divide_refl.
    + destruct (rho_outer _ _ _ _) as [d|] eqn:Er; [|discriminate]. cbn [obind]. apply rho_outer_div in Er as ([c Hc] & Hd1 & Hd2). unfold found_factor. cbn [f_todo f_primes obind]. intros E. 
      assert (Hd : n / d = c) by (rewrite Hc; apply N.div_mul; lia). apply IH in E; cbn [f_primes f_todo] in *; auto.
      * destruct E as [G' P']. split; auto. rewrite P', Hd. cbn [prodl fold_right]. fold (prodl t). rewrite Hc. lia.
      * intros x [<-|[<-|Hx]]; auto; [lia|]. rewrite Hd. nia.
Qed.
Lemma factor_partial pt fuel n r : factor pt fuel n = Some r -> match r with None => n = 0 | Some l => 0 < n /\ good (fun p => prime_N p \/ pt p = Some true) l /\ prod_powers l = n end.
Proof.
  unfold factor. destruct (N.eqb_spec n 0) as [->|Hn]; [intros E; injection E as <-; auto|]. destruct (trial_spec n ltac:(lia)) as (m & n' & E & G & P & Hn' & _). rewrite E. cbn [obind].
  destruct (factor_main _ _ _ _) as [l|] eqn:El; [|discriminate]. cbn [obind]. intros H. injection H as <-. apply factor_main_spec in El; cbn [f_primes f_todo] in *.
  - destruct El as [G' P']. split; [lia|]. split; auto. rewrite P'. cbn. lia.
  - intros x [<-|[]]. auto.
  - destruct G. constructor; auto.
Qed.
Lemma factor_small pt n : (forall p, prime_N p -> p < 100020001 -> pt p = Some true) -> 0 < n < 100020001 -> forall fuel, (3 <= fuel)%nat -> exists l, factor pt fuel n = Some (Some l) /\ factorisation_of n l.
Proof.
  intros Hpt [Hn Hlt] fuel Hf. unfold factor. destruct (N.eqb_spec n 0); [lia|]. destruct (trial_spec n ltac:(lia)) as (m & n' & E & G & P & Hn' & F). rewrite E. cbn [obind].
  assert (Hle : n' <= n) by (apply div_le; auto; exists (prod_powers m); lia). destruct fuel as [|[|fuel]]; try lia.
  destruct (N.eq_dec n' 1) as [->|Hne].
  { exists m. cbn [factor_main next_to_factor f_todo N.eqb Pos.eqb f_primes obind]. split; auto. apply good_factorisation; auto. lia. }
  assert (Pn : prime_N n'). { destruct F as [|[|F]]; auto; [contradiction|]. apply (no_small_prime n' 10001); try lia. intros. apply F; lia. }
  assert (R : factor_main pt (S (S fuel)) (S (S fuel)) (mkF m [n']) = Some (mul_prime m n')).
  { set (FF := S (S fuel)) at 1. cbn [factor_main next_to_factor f_todo f_primes]. destruct (N.eqb_spec n' 1); [lia|].
    assert (D : forall s, (do f2 <- found_prime_factor (mkF m [n']) n'; factor_main pt FF (S s) f2) = Some (mul_prime m n')).
    { intros s. unfold found_prime_factor. cbn [f_todo f_primes obind]. rewrite N.eqb_refl. cbn. reflexivity. }
    destruct (N.ltb_spec n' 1000000).
    - destruct (small_factor_spec n' ltac:(lia)) as (d & Ed & Pd & Dd). rewrite Ed. cbn [obind]. assert (d = n') by (destruct Pn as [_ Pn]; destruct (Pn d Dd); auto; destruct Pd; lia). subst d. apply D.
    - rewrite (Hpt n' Pn) by lia. cbn [obind]. apply D. }
  rewrite R. cbn [obind]. eexists. split; [reflexivity|]. apply good_factorisation; [apply good_mul; auto|]. rewrite prod_mul_prime. auto.
Qed.
