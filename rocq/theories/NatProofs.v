(* functions.rs, trial division, prime generator *)
From Coq Require Import NArith ZArith Znumtheory List Bool Lia Sorting.Sorted Wf_nat.
From Verif Require Import RingModel NatSpec NatModel.
Import ListNotations.
Local Open Scope N_scope.

(* ---------- factorial, binomials *)
Lemma factorial_loop_spec f : forall n i, N.of_nat f + N.of_nat i = n + 2 -> (0 < i)%nat -> (N.of_nat i <= n + 1) -> factorial_loop f n (fact_spec (i - 1)) (N.of_nat i) = Some (fact_spec (N.to_nat n)).
Proof.
  induction f as [|f IH]; intros n i H Hi Hn; [lia|]. cbn [factorial_loop]. destruct (N.leb_spec (N.of_nat i) n).
  - replace (fact_spec (i - 1) * N.of_nat i) with (fact_spec (S i - 1)).
    + replace (N.of_nat i + 1) with (N.of_nat (S i)) by lia. apply IH; lia.
    + destruct i as [|i]; [lia|]. replace (S (S i) - 1)%nat with (S i) by lia. replace (S i - 1)%nat with i by lia. cbn [fact_spec]. lia.
  - f_equal. f_equal. lia.
Qed.
Lemma factorial_spec n : factorial n = Some (fact_spec (N.to_nat n)).
Proof. unfold factorial. apply (factorial_loop_spec (S (N.to_nat n)) n 1); lia. Qed.
Lemma fact_pos n : 0 < fact_spec n. Proof. induction n; cbn [fact_spec]; lia. Qed.
Lemma binom_over n : forall k, (n < k)%nat -> binom_spec n k = 0.
Proof. induction n as [|n IH]; intros [|k] H; try lia; cbn; auto. rewrite !IH by lia. reflexivity. Qed.
Lemma binom_n0 n : binom_spec n 0 = 1. Proof. destruct n; reflexivity. Qed.
Lemma binom_nn n : binom_spec n n = 1. Proof. induction n; cbn [binom_spec]; auto. rewrite IHn, binom_over by lia. reflexivity. Qed.
Lemma binom_fact n : forall k, (k <= n)%nat -> binom_spec n k * (fact_spec k * fact_spec (n - k)) = fact_spec n.
Proof.
  induction n as [|n IH]; intros k Hk; [replace k with O by lia; reflexivity|]. destruct k as [|k].
  - cbn [binom_spec]. replace (S n - 0)%nat with (S n) by lia. change (fact_spec 0) with 1. lia.
  - cbn [binom_spec]. replace (S n - S k)%nat with (n - k)%nat by lia. destruct (Nat.eq_dec k n) as [->|Hne].
    + rewrite (binom_over n (S n)) by lia. rewrite binom_nn. replace (n - n)%nat with O by lia. change (fact_spec 0) with 1. lia.
    + pose proof (IH k ltac:(lia)) as H1. pose proof (IH (S k) ltac:(lia)) as H2. replace (n - k)%nat with (S (n - S k)) in * by lia. cbn [fact_spec] in *. nia.
Qed.
Lemma pascal_mid_spec n : forall k m, (k + m = n)%nat -> pascal_mid (map (binom_spec n) (seq k (S m))) = map (binom_spec (S n)) (seq (S k) m).
Proof.
  intros k m. revert k. induction m as [|m IH]; intros k H; [reflexivity|]. specialize (IH (S k) ltac:(lia)).
  cbn [seq map pascal_mid] in *. rewrite IH. reflexivity.
Qed.
Lemma pascal_row_spec a : forall n, pascal_row a (map (binom_spec n) (seq 0 (S n))) = map (binom_spec (n + a)) (seq 0 (S (n + a))).
Proof.
  induction a as [|a IH]; intros n; cbn [pascal_row]; [rewrite Nat.add_0_r; auto|]. replace (n + S a)%nat with (S n + a)%nat by lia. rewrite <- IH. f_equal.
  unfold pascal_next. rewrite (pascal_mid_spec n 0 n) by lia. replace (seq 0 (S (S n))) with (0%nat :: seq 1 n ++ [S n]).
  - cbn [map]. rewrite binom_n0, map_app. cbn [map]. rewrite binom_nn. reflexivity.
  - rewrite (seq_S (S n) 0). reflexivity.
Qed.
Lemma choose_usize_spec a b : choose_usize a b = Some (binom_spec a b).
Proof.
  unfold choose_usize. destruct (Nat.ltb_spec a b); [rewrite binom_over by lia; auto|]. change [1] with (map (binom_spec 0) (seq 0 1)). rewrite pascal_row_spec. cbn [Nat.add].
  rewrite nth_error_map. replace (nth_error (seq 0 (S a)) b) with (Some b); [reflexivity|]. symmetry. rewrite nth_error_nth' with (d := O) by (rewrite seq_length; lia). rewrite seq_nth by lia. reflexivity.
Qed.
Lemma choose_loop_spec a f : forall t m, m <= a -> a - m < N.of_nat f -> exists r, choose_loop f a t m = Some r /\ r * fact_spec (N.to_nat m) = t * fact_spec (N.to_nat a).
Proof.
  induction f as [|f IH]; intros t m Hm Hf; [lia|]. cbn [choose_loop]. destruct (N.ltb_spec m a).
  - destruct (IH (t * (m + 1)) (m + 1)) as (r & E & H'); try lia. exists r. split; auto. replace (N.to_nat (m + 1)) with (S (N.to_nat m)) in H' by lia. cbn [fact_spec] in H'.
    replace (N.of_nat (S (N.to_nat m))) with (m + 1) in H' by lia. apply (N.mul_cancel_l _ _ (m + 1)); nia.
  - exists t. split; auto. replace m with a by lia. reflexivity.
Qed.
Lemma choose_spec a b : choose a b = Some (binom_spec (N.to_nat a) (N.to_nat b)).
Proof.
  unfold choose. destruct (N.ltb_spec a b); [rewrite binom_over by lia; auto|]. destruct (choose_loop_spec a (S (N.to_nat b)) 1 (a - b)) as (t & E & Ht); try lia. rewrite E. cbn [obind].
  rewrite factorial_spec. cbn [obind]. pose proof (fact_pos (N.to_nat b)) as P. destruct (N.eqb_spec (fact_spec (N.to_nat b)) 0); [lia|]. f_equal.
  pose proof (binom_fact (N.to_nat a) (N.to_nat b) ltac:(lia)) as B. replace (N.to_nat a - N.to_nat b)%nat with (N.to_nat (a - b)) in B by lia. rewrite <- B in Ht.
  pose proof (fact_pos (N.to_nat (a - b))) as P2. assert (t = fact_spec (N.to_nat b) * binom_spec (N.to_nat a) (N.to_nat b)). { apply (N.mul_cancel_r _ _ (fact_spec (N.to_nat (a - b)))); [lia|]. rewrite Ht. lia. }
  subst t. rewrite N.mul_comm, N.div_mul; auto.
Qed.

(* ---------- pow *)
Lemma pow_mul_spec p : forall x ans, pow_mul (pos_bits p) (sq_list (length (pos_bits p) - 1) x) ans = ans * x ^ Npos p.
Proof.
  induction p as [p IH|p IH|]; intros x ans; cbn [pos_bits length]; rewrite ?Nat.sub_succ, ?Nat.sub_0_r.
  - destruct (length (pos_bits p)) as [|l] eqn:E; [destruct p; discriminate|]. cbn [sq_list pow_mul]. replace l with (S l - 1)%nat by lia. rewrite IH.
    replace (N.pos p~1) with (1 + 2 * N.pos p) by lia. rewrite N.pow_add_r, N.pow_1_r, N.pow_mul_r. replace (x ^ 2) with (x * x) by (change 2 with (N.succ 1); rewrite N.pow_succ_r', N.pow_1_r; auto). lia.
  - destruct (length (pos_bits p)) as [|l] eqn:E; [destruct p; discriminate|]. cbn [sq_list pow_mul]. replace l with (S l - 1)%nat by lia. rewrite IH.
    replace (N.pos p~0) with (2 * N.pos p) by lia. rewrite N.pow_mul_r. replace (x ^ 2) with (x * x) by (change 2 with (N.succ 1); rewrite N.pow_succ_r', N.pow_1_r; auto). lia.
  - cbn. destruct x; cbn; lia.
Qed.
Lemma pow_spec x n : pow x n = x ^ n.
Proof.
  unfold pow. destruct (N.eqb_spec n 0) as [->|]; [rewrite N.pow_0_r; auto|]. destruct (N.eqb_spec n 1) as [->|]; [rewrite N.pow_1_r; auto|]. destruct n as [|p]; [congruence|].
  unfold bits. rewrite pow_mul_spec. lia.
Qed.

(* ---------- roots *)
Lemma root_loop_spec x n : forall f a b, 0 < n -> a < b -> a ^ n <= x -> x < b ^ n -> b - a <= 2 ^ N.of_nat f ->
  exists r, root_loop (S f) x n a b = Some r /\ r ^ n <= x /\ x < (r + 1) ^ n.
Proof.
  induction f as [|f IH]; intros a b Hn Hab Ha Hb Hl.
  - cbn [root_loop]. change (2 ^ N.of_nat 0) with 1 in Hl. destruct (N.ltb_spec (a + 1) b); [lia|]. exists a. split; auto. split; auto. replace (a + 1) with b by lia. auto.
  - replace (N.of_nat (S f)) with (N.succ (N.of_nat f)) in Hl by lia. rewrite N.pow_succ_r' in Hl. set (P := 2 ^ N.of_nat f) in *.
    remember (S f) as g eqn:Eg. cbn [root_loop]. destruct (N.ltb_spec (a + 1) b).
    + set (m := (a + b) / 2). assert (Hm : 2 * m <= a + b < 2 * m + 2). { pose proof (N.div_mod' (a + b) 2). pose proof (N.mod_lt (a + b) 2 ltac:(lia)) as Hl2. revert H0 Hl2. unfold m. generalize ((a + b) mod 2), ((a + b) / 2). intros; lia. }
      rewrite pow_spec. subst g. destruct (N.leb_spec (m ^ n) x); apply IH; auto; lia.
    + exists a. split; auto. split; auto. replace (a + 1) with b by lia. auto.
Qed.
Lemma size_nat_pow x : x < 2 ^ N.of_nat (N.size_nat x).
Proof. destruct x as [|p]; [reflexivity|]. cbn [N.size_nat]. pose proof (N.size_gt (N.pos p)) as H. replace (N.of_nat (Pos.size_nat p)) with (N.size (N.pos p)); auto.
  clear. cbn [N.size]. induction p; cbn [Pos.size Pos.size_nat]; lia.
Qed.
Lemma nth_root_floor_spec x n : 0 < n -> exists r, nth_root_floor x n = Some r /\ r ^ n <= x /\ x < (r + 1) ^ n.
Proof.
  intros Hn. unfold nth_root_floor. destruct (N.eqb_spec n 0); [lia|]. destruct (N.eqb_spec n 1) as [->|].
  - exists x. rewrite !N.pow_1_r. split; auto. lia.
  - destruct (N.eqb_spec x 0) as [->|].
    + exists 0. split; auto. rewrite N.pow_0_l by auto. rewrite N.add_0_l, N.pow_1_l. lia.
    + replace (N.size_nat x + 1)%nat with (S (N.size_nat x)) by lia. destruct (N.eq_dec x 1) as [->|].
      * exists 1. split; [reflexivity|]. rewrite N.pow_1_l. split; [lia|]. change (1 + 1) with 2. apply (N.le_lt_trans _ (2 ^ 0)); [rewrite N.pow_0_r; lia|]. apply N.pow_lt_mono_r; lia.
      * apply root_loop_spec; auto; try lia.
        -- rewrite N.pow_1_l. lia.
        -- apply (N.lt_le_trans _ (x ^ 2)); [|apply N.pow_le_mono_r; lia]. change 2 with (N.succ 1). rewrite N.pow_succ_r', N.pow_1_r. nia.
        -- pose proof (size_nat_pow x). lia.
Qed.
Lemma root_unique n x r r' : 0 < n -> r ^ n <= x -> x < (r + 1) ^ n -> r' ^ n <= x -> x < (r' + 1) ^ n -> r = r'.
Proof.
  intros Hn H1 H2 H3 H4. assert (r ^ n < (r' + 1) ^ n) by lia. assert (r' ^ n < (r + 1) ^ n) by lia. apply N.pow_lt_mono_l_iff in H; [|lia]. apply N.pow_lt_mono_l_iff in H0; lia.
Qed.
Lemma nth_root_ceil_spec x n : 0 < n -> exists r, nth_root_ceil x n = Some r /\ x <= r ^ n /\ forall s, x <= s ^ n -> r <= s.
Proof.
  intros Hn. unfold nth_root_ceil. destruct (nth_root_floor_spec x n Hn) as (r & -> & H1 & H2). cbn [obind]. rewrite pow_spec. destruct (N.eqb_spec (r ^ n) x) as [E|E]; cbn [negb].
  - exists r. split; auto. split; [lia|]. intros s Hs. rewrite <- E in Hs. apply N.pow_le_mono_l_iff in Hs; lia.
  - exists (r + 1). split; auto. split; [lia|]. intros s Hs. assert (r ^ n < s ^ n) by lia. apply N.pow_lt_mono_l_iff in H; lia.
Qed.

(* ---------- gcd *)
Lemma gcd_loop_spec k : forall f x y, y < 2 ^ N.of_nat k -> (2 * k + 1 <= f)%nat -> gcd_loop f x y = Some (N.gcd x y).
Proof.
  induction k as [|k IH]; intros f x y Hy Hf.
  - change (2 ^ N.of_nat 0) with 1 in Hy. replace y with 0 by lia. destruct f; [lia|]. cbn. rewrite N.gcd_0_r. reflexivity.
  - replace (N.of_nat (S k)) with (N.succ (N.of_nat k)) in Hy by lia. rewrite N.pow_succ_r' in Hy. destruct f as [|[|f]]; try lia. cbn [gcd_loop].
    destruct (N.eqb_spec y 0) as [->|Hy0]; cbn [negb]; [rewrite N.gcd_0_r; auto|]. pose proof (N.mod_lt x y Hy0) as Hr. set (r := x mod y) in *.
    assert (E1 : N.gcd x y = N.gcd y r) by (unfold r; rewrite (N.gcd_comm y), N.gcd_mod by auto; apply N.gcd_comm). rewrite E1.
    destruct (N.eqb_spec r 0) as [E|Hr0]; cbn [negb]; [rewrite E, N.gcd_0_r; auto|]. pose proof (N.mod_lt y r Hr0) as Hr2.
    assert (E2 : N.gcd y r = N.gcd r (y mod r)) by (rewrite (N.gcd_comm r), N.gcd_mod by auto; apply N.gcd_comm). rewrite E2. apply IH; [|lia].
    destruct (N.le_gt_cases r (2 ^ N.of_nat k)); [lia|]. assert (y mod r = y - r). { symmetry. apply (N.mod_unique y r 1); lia. } lia.
Qed.
Lemma gcd_spec x y : gcd x y = Some (N.gcd x y).
Proof. unfold gcd. apply (gcd_loop_spec (N.size_nat y)); [apply size_nat_pow|lia]. Qed.

(* ---------- primes *)
Lemma div_mod0 n d : d <> 0 -> (n mod d = 0 <-> (d | n)).
Proof. intros Hd. apply N.mod_divide. auto. Qed.
Lemma div_le d n : (d | n) -> 0 < n -> d <= n. Proof. intros. apply N.divide_pos_le; auto. Qed.
Lemma no_small_prime n d : 1 < n -> (forall e, 2 <= e -> e < d -> ~ (e | n)) -> n < d * d -> prime_N n.
Proof.
  intros Hn H Hd. split; auto. intros e [q Hq]. destruct (N.eq_dec e 1) as [|He]; auto. right. destruct (N.eq_dec e n) as [|Hen]; auto. exfalso.
  assert (He0 : e <> 0) by (intros ->; lia). assert (Hq0 : q <> 0) by (intros ->; lia). assert (Hq1 : q <> 1) by (intros ->; lia).
  destruct (N.lt_ge_cases e d); [apply (H e); auto; [lia|exists q; auto]|]. destruct (N.lt_ge_cases q d); [apply (H q); auto; [lia|exists e; lia]|]. nia.
Qed.
Lemma prime_no_div n d : prime_N n -> 2 <= d -> d < n -> ~ (d | n).
Proof. intros [Hn H] H2 Hd Hdiv. destruct (H d Hdiv); lia. Qed.
Lemma not_prime_div n d : 2 <= d -> d < n -> (d | n) -> ~ prime_N n.
Proof. intros H2 Hd Hdiv Hp. exact (prime_no_div n d Hp H2 Hd Hdiv). Qed.
Lemma composite_iff n : 1 < n -> (composite_N n <-> exists d, 2 <= d /\ d < n /\ (d | n)).
Proof.
  intros Hn. split.
  - intros (a & b & Ha & Hb & ->). exists a. split; [lia|]. split; [nia|]. exists b. lia.
  - intros (d & H1 & H2 & q & Hq). exists d, q. split; [lia|]. split; [|lia]. destruct q as [|[q|q|]]; try lia.
Qed.
Lemma composite_not_prime n : composite_N n -> ~ prime_N n.
Proof. intros (a & b & Ha & Hb & ->) [H1 H2]. destruct (H2 a) as [|E]; [exists b; lia|lia|]. nia. Qed.
(* the smallest divisor >= 2 *)
Lemma has_prime_factor n : 1 < n -> exists p, prime_N p /\ (p | n).
Proof.
  induction n as [n IH] using (well_founded_induction N.lt_wf_0). intros Hn.
  destruct (N.eq_dec (N.sqrt n) 0) as [|_]; [pose proof (N.sqrt_spec' n); nia|].
  assert (D : (exists d, 2 <= d /\ d < n /\ (d | n)) \/ forall d, 2 <= d -> d < n -> ~ (d | n)).
  { clear IH. assert (G : forall k, (exists d, 2 <= d /\ d < N.of_nat k /\ (d | n)) \/ forall d, 2 <= d -> d < N.of_nat k -> ~ (d | n)).
    { induction k as [|k [H|H]]; [right; intros; lia|left; destruct H as (d & H1 & H2 & H3); exists d; repeat split; auto; lia|].
      destruct (N.lt_ge_cases (N.of_nat k) 2); [right; intros; lia|]. destruct (N.eq_dec (n mod N.of_nat k) 0) as [E|E].
      - left. exists (N.of_nat k). repeat split; auto; try lia. apply div_mod0; auto; lia.
      - right. intros d H2 Hd. destruct (N.eq_dec d (N.of_nat k)) as [->|]; [rewrite <- div_mod0; auto; lia|]. apply H; auto. lia. }
    specialize (G (N.to_nat n)). rewrite N2Nat.id in G. auto. }
  destruct D as [(d & H1 & H2 & H3)|H].
  - destruct (IH d H2 ltac:(lia)) as (p & Hp & Hpd). exists p. split; auto. eapply N.divide_trans; eauto.
  - exists n. split; [|apply N.divide_refl]. split; auto. intros d Hd. assert (d <> 0) by (intros ->; destruct Hd; lia). pose proof (div_le d n Hd ltac:(lia)). destruct (N.eq_dec d 1); auto. right. destruct (N.eq_dec d n); auto. exfalso. apply (H d); auto; lia.
Qed.
Lemma td_loop_spec n : 1 < n -> forall f d, 2 <= d -> N.sqrt n + 1 < N.of_nat f + d -> d <= N.sqrt n + 1 -> (forall e, 2 <= e -> e < d -> ~ (e | n)) ->
  (td_loop f n d = Some PPrime /\ prime_N n) \/ (td_loop f n d = Some PComposite /\ exists d, 2 <= d /\ d < n /\ (d | n)).
Proof.
  intros Hn. pose proof (N.sqrt_spec' n) as Hs. induction f as [|f IH]; intros d Hd Hf Hd2 H; cbn [td_loop].
  - exfalso. lia.
  - destruct (N.leb_spec (d * d) n).
    + assert (Hds : d <= N.sqrt n) by (apply N.lt_succ_r; nia). destruct (N.eqb_spec (n mod d) 0) as [E|E].
      * right. split; auto. apply div_mod0 in E; [|lia]. exists d. repeat split; auto. nia.
      * apply IH; try lia. intros e He1 He2. destruct (N.eq_dec e d) as [->|]; [rewrite <- div_mod0; auto; lia|apply H; auto; lia].
    + left. split; auto. apply (no_small_prime n d); auto.
Qed.
Lemma try_divisors_spec n : exists t, try_divisors n = Some t /\
  match t with PZero => n = 0 | POne => n = 1 | PPrime => prime_N n | PComposite => composite_N n end.
Proof.
  unfold try_divisors. destruct (N.eqb_spec n 0) as [->|]; [eexists; split; [reflexivity|reflexivity]|]. destruct (N.eqb_spec n 1) as [->|]; [eexists; split; [reflexivity|reflexivity]|].
  destruct (td_loop_spec n ltac:(lia) (N.to_nat (N.sqrt n) + 2) 2) as [[E H]|[E H]]; try lia.
  - pose proof (N.sqrt_spec' n). nia.
  - rewrite E. eexists; split; [reflexivity|auto].
  - rewrite E. eexists; split; [reflexivity|]. apply composite_iff; auto. lia.
Qed.
