(* C06-C10, C12, C58-C60: theorems about the natural number functions *)
From Coq Require Import NArith ZArith List Bool Lia Sorting.Sorted Permutation.
From Verif Require Import RingSpec RingModel NatSpec NatModel NatProofs NatBridge NatBridge2 NatProofs2 NatProofs3 NatProofs4 NatProofs5 NatProofs6 NatProofs7.
Import ListNotations.
Local Open Scope N_scope.

(* ---------- C06 *)
Theorem C06_nth_root_floor x n : 1 <= n -> exists r, nth_root_floor x n = Some r /\ r ^ n <= x < (r + 1) ^ n.
Proof. intros Hn. destruct (nth_root_floor_spec x n) as (r & H1 & H2 & H3); [lia|]. eauto. Qed.
Print Assumptions C06_nth_root_floor.
Theorem C06_nth_root_ceil x n : 1 <= n -> exists r, nth_root_ceil x n = Some r /\ x <= r ^ n /\ forall s, x <= s ^ n -> r <= s.
Proof. intros Hn. apply nth_root_ceil_spec. lia. Qed.
Print Assumptions C06_nth_root_ceil.
Theorem C06_sqrt x : sqrt_floor x = Some (N.sqrt x) /\ exists r, sqrt_ceil x = Some r /\ x <= r * r /\ forall s, x <= s * s -> r <= s.
Proof.
  split.
  - unfold sqrt_floor. destruct (nth_root_floor_spec x 2) as (r & -> & H1 & H2); [lia|]. f_equal. symmetry. apply N.sqrt_unique. rewrite !N.pow_2_r in *. lia.
  - destruct (nth_root_ceil_spec x 2) as (r & E & H1 & H2); [lia|]. exists r. rewrite N.pow_2_r in H1. split; auto. split; auto. intros s Hs. apply H2. rewrite N.pow_2_r. auto.
Qed.
Print Assumptions C06_sqrt.
(* the precondition is the documented one: n = 0 panics *)
Example C06_zero x : nth_root_floor x 0 = None. Proof. reflexivity. Qed.
Example C06_ex : nth_root_floor 1000 3 = Some 10 /\ nth_root_floor 999 3 = Some 9 /\ nth_root_ceil 1001 3 = Some 11 /\ nth_root_floor (2 ^ 200) 7 = Some 398893554. Proof. vm_compute. auto. Qed.

(* ---------- C07 *)
Theorem C07_factorial n : factorial n = Some (fact_spec (N.to_nat n)).
Proof. apply factorial_spec. Qed.
Print Assumptions C07_factorial.
Theorem C07_choose a b : choose a b = Some (binom_spec (N.to_nat a) (N.to_nat b)).
Proof. apply choose_spec. Qed.
Print Assumptions C07_choose.
Theorem C07_choose_usize a b : choose_usize a b = Some (binom_spec a b).
Proof. apply choose_usize_spec. Qed.
Print Assumptions C07_choose_usize.
Theorem C07_choose_factorials n k : k <= n -> exists c a b d, choose n k = Some c /\ factorial n = Some a /\ factorial k = Some b /\ factorial (n - k) = Some d /\ c * (b * d) = a.
Proof.
  intros H. rewrite choose_spec, !factorial_spec. do 4 eexists. do 4 (split; [reflexivity|]). rewrite <- (binom_fact (N.to_nat n) (N.to_nat k)) by lia. replace (N.to_nat (n - k)) with (N.to_nat n - N.to_nat k)%nat by lia. reflexivity.
Qed.
Print Assumptions C07_choose_factorials.
Example C07_ex : factorial 10 = Some 3628800 /\ choose 10 3 = Some 120 /\ choose 3 10 = Some 0 /\ choose_usize 10 10 = Some 1. Proof. vm_compute. auto. Qed.

(* ---------- C08: the first i items are exactly the primes up to the last of them, in increasing order; no call to next() diverges *)
Theorem C08_prime_generator i : exists F l, (forall fuel, (F <= fuel)%nat -> pg_take fuel i pg_new = Some l) /\ length l = i /\ StronglySorted N.lt l /\
  (forall p, In p l -> prime_N p) /\ (forall p q, In q l -> prime_N p -> p < q -> In p l).
Proof.
  destruct (take_spec i pg_new PG_new) as (F & l & H1 & H2 & H3 & H4 & H5). exists F, l. split; auto. split; auto. split; auto. split; [intros p Hp; apply H4; auto|].
  intros p q Hq Hp Hlt. apply (H5 p q); auto. cbn. destruct Hp; lia.
Qed.
Print Assumptions C08_prime_generator.
(* and therefore every prime is eventually produced *)
Theorem C08_complete p : prime_N p -> exists F i l, (forall fuel, (F <= fuel)%nat -> pg_take fuel i pg_new = Some l) /\ In p l.
Proof.
  intros Hp. destruct (C08_prime_generator (S (N.to_nat p))) as (F & l & H1 & H2 & H3 & H4 & H5). exists F, (S (N.to_nat p)), l. split; auto.
  (* a strictly increasing list of p+1 naturals has an element >= p *)
  assert (E : exists q, In q l /\ p <= q).
  { assert (G : forall l, StronglySorted N.lt l -> forall b, (forall x, In x l -> b <= x) -> l <> [] -> exists q, In q l /\ b + N.of_nat (length l) <= q + 1).
    { clear. induction 1 as [|x l Hl IH Hx]; intros b Hb Hne; [congruence|]. destruct l as [|y l]; [exists x; split; [left; auto|]; specialize (Hb x (or_introl eq_refl)); cbn; lia|].
      rewrite Forall_forall in Hx. specialize (Hb x (or_introl eq_refl)). destruct (IH (b + 1)) as (q & Hq & Hlen); [intros z Hz; specialize (Hx z Hz); lia|congruence|]. exists q. split; [right; auto|]. cbn [length] in *. lia. }
    destruct (G l H3 0) as (q & Hq & Hlen); [intros; lia|intros ->; cbn in H2; lia|]. exists q. split; auto. rewrite H2 in Hlen. lia. }
  destruct E as (q & Hq & Hle). destruct (N.eq_dec p q) as [->|]; auto. apply (H5 p q); auto. lia.
Qed.
Print Assumptions C08_complete.
Example C08_ex : pg_take 10 6 pg_new = Some [2; 3; 5; 7; 11; 13]. Proof. reflexivity. Qed.

(* ---------- C09 *)
Theorem C09_try_divisors n : exists t, try_divisors n = Some t /\
  match t with PZero => n = 0 | POne => n = 1 | PPrime => prime_N n | PComposite => composite_N n end.
Proof. apply try_divisors_spec. Qed.
Print Assumptions C09_try_divisors.
(* the four answers exclude each other, so the answer is determined *)
Theorem C09_exclusive n : ~ prime_N 0 /\ ~ prime_N 1 /\ ~ composite_N 0 /\ ~ composite_N 1 /\ ~ (prime_N n /\ composite_N n).
Proof.
  split; [intros [H _]; lia|]. split; [intros [H _]; lia|]. split; [intros (a & b & H1 & H2 & H3); nia|]. split; [intros (a & b & H1 & H2 & H3); nia|]. intros [H1 H2]. apply (composite_not_prime n); auto.
Qed.
Print Assumptions C09_exclusive.
Example C09_ex : try_divisors 97 = Some PPrime /\ try_divisors 91 = Some PComposite /\ try_divisors 49 = Some PComposite. Proof. vm_compute. auto. Qed.

(* ---------- C10 *)
(* with bases in the documented range 2..=n-2 (here even 1..n-1), a prime is never declared composite *)
Theorem C10_miller_rabin_sound n bases r : (forall a, In a bases -> 1 <= a < n) -> miller_rabin n bases = Some (inl r) ->
  match r with PZero => n = 0 | POne => n = 1 | PPrime => prime_N n | PComposite => composite_N n end.
Proof.
  intros Hb H. apply miller_rabin_ok in H; auto. destruct r; auto. subst n. destruct (try_divisors_spec 2) as (t & E & H). vm_compute in E. injection E as <-. auto.
Qed.
Print Assumptions C10_miller_rabin_sound.
(* it always answers, and on an odd n > 2 exactly according to the strong-probable-prime condition for the given bases *)
Theorem C10_miller_rabin_exact n bases : 2 < n -> n mod 2 = 1 -> (forall a, In a bases -> a < n) ->
  (miller_rabin n bases = Some (inr tt) /\ forall a, In a bases -> strong_probable_prime n a) \/
  (miller_rabin n bases = Some (inl PComposite) /\ exists a, In a bases /\ ~ strong_probable_prime n a).
Proof. apply miller_rabin_iff. Qed.
Print Assumptions C10_miller_rabin_exact.
Theorem C10_miller_rabin_small bases : miller_rabin 0 bases = Some (inl PZero) /\ miller_rabin 1 bases = Some (inl POne) /\ miller_rabin 2 bases = Some (inl PPrime) /\
  forall n, 2 < n -> n mod 2 = 0 -> miller_rabin n bases = Some (inl PComposite).
Proof.
  do 3 (split; [reflexivity|]). intros n Hn E. unfold miller_rabin. rewrite E. destruct (N.eqb_spec n 0); [lia|]. destruct (N.eqb_spec n 1); [lia|]. destruct (N.eqb_spec n 2); [lia|]. reflexivity.
Qed.
Print Assumptions C10_miller_rabin_small.
(* "whatever the bases" is false without the documented range: a base divisible by n makes a prime composite *)
Theorem C10_any_bases_refuted : exists n bases, prime_N n /\ miller_rabin n bases = Some (inl PComposite).
Proof. exists 7, [7]. split; [|vm_compute; auto]. destruct (try_divisors_spec 7) as (t & E & H). vm_compute in E. injection E as <-. auto. Qed.
Print Assumptions C10_any_bases_refuted.
Example C10_ex : miller_rabin 104729 [2; 3; 5] = Some (inr tt) /\ miller_rabin 2047 [2] = Some (inr tt) /\ miller_rabin 2047 [2; 3] = Some (inl PComposite). Proof. vm_compute. auto. Qed.

(* ---------- C12 *)
(* whatever the primality test does, a returned map has distinct keys and positive exponents, multiplies to n, and each key is prime or was accepted by the test *)
Theorem C12_factor_sound pt fuel n r : factor pt fuel n = Some r ->
  match r with
  | None => n = 0
  | Some l => 0 < n /\ NoDup (map fst l) /\ (forall p k, In (p, k) l -> 0 < k /\ (prime_N p \/ pt p = Some true)) /\ prod_powers l = n
  end.
Proof.
  intros H. apply factor_partial in H. destruct r as [l|]; auto. destruct H as (H0 & [G1 G2 G3] & P). split; auto. split; auto. split; auto. intros p k Hin. split; [apply (G2 p k); auto|]. apply G3. apply (in_map fst) in Hin. auto.
Qed.
Print Assumptions C12_factor_sound.
(* with a sound primality test, whatever is returned is the prime factorisation *)
Theorem C12_factor_correct pt fuel n l : (forall p, pt p = Some true -> prime_N p) -> factor pt fuel n = Some (Some l) -> factorisation_of n l.
Proof.
  intros Hpt H. apply C12_factor_sound in H as (_ & H1 & H2 & H3). split; auto. split; auto. intros p k Hin. destruct (H2 p k Hin) as [Hk [|E]]; auto.
Qed.
Print Assumptions C12_factor_correct.
(* unconditionally, with the real test: exact and total below 10001^2 *)
Theorem C12_factor_small_exact aks n : 0 < n < 100020001 -> forall fuel, (3 <= fuel)%nat -> exists l, factor (is_prime aks) fuel n = Some (Some l) /\ factorisation_of n l.
Proof.
  intros Hn. apply factor_small; auto. intros p Pp Hlt. unfold is_prime. rewrite (primality_prime aks p Pp); [reflexivity|]. unfold mr_limit. lia.
Qed.
Print Assumptions C12_factor_small_exact.
(* every single attempt of Pollard's rho terminates and finds a divisor > 1 of n (possibly n itself, when the next start value is tried) *)
Theorem C12_rho_attempt n x : 1 < n -> exists F, forall fuel, (F <= fuel)%nat -> exists d, rho_inner fuel n x x = Some d /\ (d | n) /\ 1 < d.
Proof. intros Hn. destruct (rho_attempt n Hn x) as (F & H). exists F. intros fuel Hf. destruct (H fuel Hf) as (d & E). exists d. split; auto. apply (rho_inner_div fuel n x x d E). Qed.
Print Assumptions C12_rho_attempt.
Theorem C12_factor_zero pt fuel : factor pt fuel 0 = Some None.
Proof. reflexivity. Qed.
Print Assumptions C12_factor_zero.
(* the factorisation is unique, so the result is determined up to the order of the hash map *)
Theorem C12_divisors_are_keys n l p : factorisation_of n l -> (In p (map fst l) <-> prime_N p /\ (p | n)).
Proof. intros F. split; [apply (in_divides n l p F)|intros [H1 H2]; apply (fact_divides n l p F); auto]. Qed.
Print Assumptions C12_divisors_are_keys.
(* primality_test: total below the deterministic Miller-Rabin limit; primes are always recognised, Composite is always right, everything is exact below 10^6,
   and up to the limit the only possible error is a composite that is a strong probable prime to the thirteen fixed bases *)
Theorem C12_primality_test aks n : n < mr_limit -> exists t, primality_test aks n = Some t /\
  match t with
  | PZero => n = 0 | POne => n = 1 | PComposite => composite_N n
  | PPrime => prime_N n \/ (1000000 <= n /\ forall a, In a mr_fixed_bases -> strong_probable_prime n a)
  end.
Proof.
  intros Hn. destruct (primality_mid aks n Hn) as (t & E & H). exists t. split; auto. destruct t; auto. destruct H as [|[H1 H2]]; auto. right. split; auto.
  destruct (N.eq_dec (n mod 2) 0) as [E0|E0]; [pose proof (proj2 (proj2 (proj2 (C10_miller_rabin_small mr_fixed_bases))) n ltac:(lia) E0); congruence|].
  destruct (C10_miller_rabin_exact n mr_fixed_bases) as [[_ H]|[H _]]; auto; [lia| |intros a Ha; apply (mr_fixed_ok n ltac:(lia) a Ha)|congruence].
  pose proof (N.mod_lt n 2 ltac:(lia)) as Hm. revert E0 Hm. generalize (n mod 2). intros; lia.
Qed.
Print Assumptions C12_primality_test.
Theorem C12_primes_recognised aks p : prime_N p -> p < mr_limit -> primality_test aks p = Some PPrime /\ is_prime aks p = Some true.
Proof. intros H1 H2. unfold is_prime. rewrite (primality_prime aks p H1 H2). auto. Qed.
Print Assumptions C12_primes_recognised.
Example C12_ex : factor (is_prime (fun _ => None)) 20 360 = Some (Some [(2, 3); (3, 2); (5, 1)]) /\ factor (is_prime (fun _ => None)) 20 99999989 = Some (Some [(99999989, 1)]).
Proof. vm_compute. auto. Qed.
(* 10007 * 10009 needs the Pollard rho step *)
Example C12_ex_rho : factor (is_prime (fun _ => None)) 400 100160063 = Some (Some [(10009, 1); (10007, 1)]) \/ factor (is_prime (fun _ => None)) 400 100160063 = Some (Some [(10007, 1); (10009, 1)]).
Proof. vm_compute. auto. Qed.

(* ---------- C58 is_power_test *)
Theorem C58_is_power_test n : exists F, forall fuel, (F <= fuel)%nat -> exists t, is_power_test fuel n = Some t /\
  match t with
  | PwZero => n = 0 | PwOne => n = 1
  | PwPower a k => 1 < n /\ a ^ k = n /\ 2 <= k
  | PwNo => 1 < n /\ forall a k, 2 <= k -> a ^ k <> n
  end.
Proof.
  destruct (is_power_test_spec n) as (F & H). exists F. intros fuel Hf. destruct (H fuel Hf) as (t & E & Ht). exists t. split; auto. destruct t; auto. destruct Ht as (H1 & H2 & H3). split; auto. split; auto. destruct H3; lia.
Qed.
Print Assumptions C58_is_power_test.
Example C58_ex : is_power_test 30 64 = Some (PwPower 8 2) /\ is_power_test 30 243 = Some (PwPower 3 5) /\ is_power_test 30 72 = Some PwNo. Proof. vm_compute. auto. Qed.

(* ---------- C59 gcd, pow, bitcount *)
Theorem C59_gcd x y : exists g, gcd x y = Some g /\ (g | x) /\ (g | y) /\ forall d, (d | x) -> (d | y) -> (d | g).
Proof. exists (N.gcd x y). rewrite gcd_spec. split; auto. split; [apply N.gcd_divide_l|]. split; [apply N.gcd_divide_r|]. intros. apply N.gcd_greatest; auto. Qed.
Print Assumptions C59_gcd.
Theorem C59_pow x n : pow x n = x ^ n.
Proof. apply pow_spec. Qed.
Print Assumptions C59_pow.
Theorem C59_bitcount n : n < 2 ^ N.of_nat (bitcount n) /\ forall k, n < 2 ^ k -> N.of_nat (bitcount n) <= k.
Proof.
  unfold bitcount. rewrite length_bits. split; [apply N.size_gt|]. intros k Hk. destruct (N.eq_dec n 0) as [->|Hn]; [cbn; lia|]. rewrite N.size_log2 by auto.
  destruct (N.le_gt_cases (N.succ (N.log2 n)) k); auto. exfalso. pose proof (N.log2_spec n ltac:(lia)) as [L _]. assert (2 ^ k <= 2 ^ N.log2 n) by (apply N.pow_le_mono_r; lia). lia.
Qed.
Print Assumptions C59_bitcount.
Example C59_ex : gcd 84 36 = Some 12 /\ gcd 0 5 = Some 5 /\ gcd 0 0 = Some 0 /\ pow 3 13 = 1594323 /\ bitcount 255 = 8%nat. Proof. vm_compute. auto 10. Qed.

(* ---------- C60 Factored: expand, euler_totient, is_primitive_root.  The list is the hash map in any order *)
Theorem C60_expand n m : factorisation_of n m -> expand m = n.
Proof. intros (_ & _ & H). rewrite expand_spec. auto. Qed.
Print Assumptions C60_expand.
Theorem C60_euler_totient n m : factorisation_of n m -> euler_totient m = totient_spec n.
Proof. apply euler_totient_spec. Qed.
Print Assumptions C60_euler_totient.
Theorem C60_is_primitive_root fac n m x l : factorisation_of n m -> 1 < n -> fac (totient_spec n) = Some (Some l) -> factorisation_of (totient_spec n) l ->
  exists r, is_primitive_root fac m x = Some r /\
    match r with
    | NonUnit => N.gcd x n <> 1
    | RYes => N.gcd x n = 1 /\ mult_order n x (totient_spec n)
    | RNo => N.gcd x n = 1 /\ ~ mult_order n x (totient_spec n)
    end.
Proof. intros. apply (is_primitive_root_spec fac n m x l); auto. Qed.
Print Assumptions C60_is_primitive_root.
Lemma totient_lt n : 1 < n -> totient_spec n < n.
Proof.
  intros Hn. unfold totient_spec. assert (H : (length (filter (fun x => (N.gcd (N.of_nat x) n =? 1)%N) (seq 1 (N.to_nat n))) < N.to_nat n)%nat); [|lia].
  replace (N.to_nat n) with (S (N.to_nat n - 1)) at 1 by lia. rewrite seq_S, filter_app, app_length. cbn [filter]. replace (N.of_nat (1 + (N.to_nat n - 1))) with n by lia. rewrite N.gcd_diag.
  destruct (N.eqb_spec n 1); [lia|]. cbn [length]. assert (F : forall f (l : list nat), (length (filter f l) <= length l)%nat) by (intros f; induction l as [|a l IH]; cbn; [lia|]; destruct (f a); cbn; lia).
  match goal with |- (length (filter ?f ?l) + 0 < _)%nat => pose proof (F f l) as HF end. rewrite seq_length in HF. lia.
Qed.
(* for n below 10001^2 the whole computation is unconditional: the factorisations are the ones `factor` returns *)
Theorem C60_is_primitive_root_small aks n x : 1 < n < 100020001 -> forall fuel, (3 <= fuel)%nat -> exists m r, factor (is_prime aks) fuel n = Some (Some m) /\
  is_primitive_root (factor (is_prime aks) fuel) m x = Some r /\
    match r with
    | NonUnit => N.gcd x n <> 1
    | RYes => N.gcd x n = 1 /\ mult_order n x (totient_spec n)
    | RNo => N.gcd x n = 1 /\ ~ mult_order n x (totient_spec n)
    end.
Proof.
  intros Hn fuel Hf. destruct (C12_factor_small_exact aks n ltac:(lia) fuel Hf) as (m & E & Fm). exists m. pose proof (totient_pos n ltac:(lia)) as H0. pose proof (totient_lt n ltac:(lia)) as H1.
  destruct (C12_factor_small_exact aks (totient_spec n) ltac:(lia) fuel Hf) as (l & El & Fl). destruct (C60_is_primitive_root (factor (is_prime aks) fuel) n m x l) as (r & Er & Hr); auto; [lia|]. exists r. auto.
Qed.
Print Assumptions C60_is_primitive_root_small.
Example C60_ex : euler_totient [(2, 3); (3, 2); (5, 1)] = 96 /\ is_primitive_root (factor (is_prime (fun _ => None)) 20) [(7, 1)] 3 = Some RYes /\
  is_primitive_root (factor (is_prime (fun _ => None)) 20) [(7, 1)] 2 = Some RNo /\ is_primitive_root (factor (is_prime (fun _ => None)) 20) [(3, 2)] 6 = Some NonUnit.
Proof. vm_compute. auto. Qed.
