(* prime generator, power test, Miller-Rabin, primality_test *)
From Coq Require Import NArith ZArith Znumtheory Zpow_facts List Bool Lia Sorting.Sorted Permutation.
From Verif Require Import RingSpec RingModel NatSpec NatModel NatProofs NatBridge.
Import ListNotations.
Local Open Scope N_scope.

Record PGinv (g : prime_gen) : Prop := {
  pi_2 : 2 <= pg_n g;
  pi_sorted : StronglySorted N.lt (pg_primes g);
  pi_all : forall p, In p (pg_primes g) <-> prime_N p /\ p < pg_n g }.
Lemma PG_new : PGinv pg_new.
Proof. constructor; cbn; [lia|constructor|]. intros p. split; [intros []|intros [[H _] H2]; lia]. Qed.
Lemma div_by_smaller g : PGinv g -> (existsb (fun p => pg_n g mod p =? 0) (pg_primes g) = true <-> ~ prime_N (pg_n g)).
Proof.
  intros I. pose proof (pi_2 g I). rewrite existsb_exists. split.
  - intros (p & Hp & E). apply N.eqb_eq in E. apply (pi_all g I) in Hp as [P1 P2]. apply div_mod0 in E; [|destruct P1; lia]. apply (not_prime_div _ p); auto. destruct P1; lia.
  - intros Hnp. destruct (has_prime_factor (pg_n g)) as (p & Hp & Hd); [lia|]. exists p. split; [|apply N.eqb_eq, div_mod0; auto; destruct Hp; lia].
    apply (pi_all g I). split; auto. pose proof (div_le p _ Hd ltac:(lia)). destruct (N.eq_dec p (pg_n g)) as [E|]; [|lia]. subst p. contradiction.
Qed.
Lemma sorted_app_one l x : StronglySorted N.lt l -> (forall y, In y l -> y < x) -> StronglySorted N.lt (l ++ [x]).
Proof.
  induction 1 as [|y l Hl IH Hy]; intros H; cbn; [repeat constructor|]. constructor; [apply IH; intros; apply H; cbn; auto|]. apply Forall_app. split; auto. constructor; auto. apply H. cbn; auto.
Qed.
Lemma next_spec f : forall g q, PGinv g -> prime_N q -> pg_n g <= q -> q - pg_n g < N.of_nat f ->
  exists p g', pg_next f g = Some (p, g') /\ PGinv g' /\ prime_N p /\ pg_n g <= p /\ p <= q /\ pg_n g' = p + 1 /\ (forall r, prime_N r -> pg_n g <= r -> p <= r).
Proof.
  induction f as [|f IH]; intros g q I Hq Hle Hf; [lia|]. cbn [pg_next]. destruct (existsb _ _) eqn:E.
  - apply (div_by_smaller g I) in E. assert (Hne : pg_n g <> q) by (intros Heq; rewrite Heq in E; contradiction).
    assert (I1 : PGinv (mkPG (pg_n g + 1) (pg_primes g))).
    { constructor; cbn [pg_n pg_primes]; [pose proof (pi_2 g I); lia|apply I|]. intros p. rewrite (pi_all g I). split; intros [H1 H2]; split; auto; [lia|]. destruct (N.eq_dec p (pg_n g)) as [Ep|]; [rewrite Ep in H1; contradiction|lia]. }
    destruct (IH _ q I1 Hq) as (p & g' & H1 & H2 & H3 & H4 & H5 & H6 & H7); cbn [pg_n] in *; try lia. exists p, g'. repeat (split; [auto; try lia|]).
    intros r Hr Hle'. apply H7; auto. destruct (N.eq_dec r (pg_n g)) as [Er|]; [rewrite Er in Hr; contradiction|lia].
  - assert (P : prime_N (pg_n g)). { pose proof (pi_2 g I). destruct (try_divisors_spec (pg_n g)) as (t & _ & H'). destruct t; cbn in H'; try lia; auto. apply composite_not_prime in H'. apply (div_by_smaller g I) in H'. congruence. }
    exists (pg_n g), (mkPG (pg_n g + 1) (pg_primes g ++ [pg_n g])). split; auto. split; [|split; [exact P|]; split; [lia|]; split; [lia|]; split; [reflexivity|]; intros; lia].
    constructor; cbn [pg_n pg_primes].
    + pose proof (pi_2 g I); lia.
    + apply sorted_app_one; [apply I|]. intros y Hy. apply (pi_all g I) in Hy. tauto.
    + intros p. rewrite in_app_iff, (pi_all g I). cbn. split.
      * intros [[H1 H2]|[<-|[]]]; split; auto; lia.
      * intros [H1 H2]. destruct (N.eq_dec p (pg_n g)); [right; left; auto|left; split; auto; lia].
Qed.
Lemma next_mono f : forall g r, pg_next f g = Some r -> forall f', (f <= f')%nat -> pg_next f' g = Some r.
Proof. induction f as [|f IH]; intros g r; [discriminate|]. intros H [|f'] Hf; [lia|]. revert H. cbn [pg_next]. destruct (existsb _ _); auto. intros H. apply (IH _ _ H). lia. Qed.
Lemma take_spec i : forall g, PGinv g -> exists F l, (forall f, (F <= f)%nat -> pg_take f i g = Some l) /\ length l = i /\ StronglySorted N.lt l /\
  (forall p, In p l -> prime_N p /\ pg_n g <= p) /\ (forall p q, In q l -> prime_N p -> pg_n g <= p -> p < q -> In p l).
Proof.
  induction i as [|i IH]; intros g I; [exists O, []; split; [reflexivity|]; split; [reflexivity|]; split; [constructor|]; split; [intros ? []|intros ? ? []]|].
  destruct (primes_unbounded (pg_n g)) as (q & Hq1 & Hq2). destruct (next_spec (S (N.to_nat q)) g q I Hq2) as (p & g' & E & I' & Hp & H1 & H2 & H3 & H4); try lia.
  destruct (IH g' I') as (F & l & E' & L & So & Pr & Co). exists (S (N.to_nat q) + F)%nat, (p :: l). split; [|split; [|split; [|split]]].
  - intros f Hf. cbn [pg_take]. rewrite (next_mono _ _ _ E f) by lia. cbn [obind]. rewrite E' by lia. reflexivity.
  - cbn. lia.
  - constructor; auto. apply Forall_forall. intros x Hx. apply Pr in Hx as [_ Hx]. lia.
  - intros x [<-|Hx]; auto. apply Pr in Hx as [Hx1 Hx2]. split; auto. lia.
  - intros x y Hy Hx Hle Hlt. destruct (N.eq_dec x p) as [->|]; [left; auto|]. right. specialize (H4 x Hx Hle). destruct Hy as [<-|Hy]; [lia|]. apply (Co x y); auto. lia.
Qed.

(* ---------- is_power_test *)
Lemma length_bits n : N.of_nat (length (bits n)) = N.size n.
Proof. destruct n as [|p]; [reflexivity|]. cbn [bits N.size]. induction p; cbn [pos_bits length Pos.size]; lia. Qed.
Lemma power_loop_spec fuel n max_k Q : 1 < n -> N.size n <= max_k -> prime_N Q -> max_k < Q -> Q < N.of_nat fuel ->
  forall steps g, PGinv g -> (forall q b, prime_N q -> q < pg_n g -> b ^ q <> n) -> pg_n g <= Q -> max_k + 2 < N.of_nat steps + pg_n g -> 0 < N.of_nat steps ->
  exists t, power_loop fuel steps n max_k g = Some t /\ match t with PwPower a k => a ^ k = n /\ prime_N k | PwNo => forall a k, 2 <= k -> a ^ k <> n | _ => False end.
Proof.
  intros Hn Hm HQ HQm HQf. induction steps as [|steps IH]; intros g I Hg HgQ Hs Hs0; [lia|]. cbn [power_loop].
  destruct (next_spec fuel g Q I HQ HgQ) as (p & g' & E & I' & Hp & H1 & H2 & H3 & H4); [lia|]. rewrite E. cbn [obind]. destruct (N.ltb_spec max_k p).
  - eexists. split; [reflexivity|]. cbn. intros a k Hk Hak.
    destruct (has_prime_factor k ltac:(lia)) as (q & Hq & c & Hc). apply (Hg q (a ^ c) Hq).
    + assert (Hkb : k < N.size n). { assert (Ha : 2 <= a). { destruct (N.lt_ge_cases a 2); [|lia]. assert (a = 0 \/ a = 1) as [->| ->] by lia; [rewrite N.pow_0_l in Hak by lia; lia|rewrite N.pow_1_l in Hak; lia]. }
        pose proof (N.size_gt n). assert (Hlt : 2 ^ k < 2 ^ N.size n). { apply (N.le_lt_trans _ n); auto. rewrite <- Hak. apply N.pow_le_mono_l; auto. } apply N.pow_lt_mono_r_iff in Hlt; lia. }
      assert (q <= k). { apply div_le; [exists c; auto|lia]. } destruct (N.lt_ge_cases q (pg_n g)); auto. specialize (H4 q Hq ltac:(lia)). lia.
    + rewrite <- N.pow_mul_r. rewrite <- Hc. auto.
  - destruct (nth_root_floor_spec n p) as (a & Ea & R1 & R2); [destruct Hp; lia|]. rewrite Ea. cbn [obind]. rewrite pow_spec. destruct (N.eqb_spec n (a ^ p)) as [En|En].
    + eexists. split; [reflexivity|]. cbn. auto.
    + apply IH; auto; try lia.
      * intros q b Hq Hlt. destruct (N.lt_ge_cases q (pg_n g)); [apply Hg; auto|]. specialize (H4 q Hq ltac:(lia)). assert (q = p) by lia. subst q. intros Hb.
        assert (a = b). { apply (root_unique p n); auto; [destruct Hp; lia|lia|]. rewrite <- Hb. apply N.pow_lt_mono_l; [destruct Hp; lia|lia]. } subst b. congruence.
Qed.
Lemma is_power_test_spec n : exists F, forall fuel, (F <= fuel)%nat -> exists t, is_power_test fuel n = Some t /\
  match t with PwZero => n = 0 | PwOne => n = 1 | PwPower a k => 1 < n /\ a ^ k = n /\ prime_N k | PwNo => 1 < n /\ forall a k, 2 <= k -> a ^ k <> n end.
Proof.
  destruct (primes_unbounded (N.of_nat (bitcount n + 1) + n)) as (Q & H1 & H2). exists (S (N.to_nat Q) + 5)%nat. intros fuel Hf. unfold is_power_test.
  destruct (N.eqb_spec n 0) as [->|]; [eexists; split; [reflexivity|reflexivity]|]. destruct (N.eqb_spec n 1) as [->|]; [eexists; split; [reflexivity|reflexivity]|].
  unfold bitcount in *. pose proof (length_bits n) as Lb.
  destruct (power_loop_spec fuel n (N.of_nat (length (bits n) + 1)) Q ltac:(lia) ltac:(lia) H2 ltac:(lia) ltac:(lia) fuel pg_new PG_new) as (t & E & Ht); cbn [pg_new pg_n]; try lia.
  - intros q b [Hq _] Hlt. lia.
  - exists t. split; auto. destruct t; auto; try tauto; split; auto; lia.
Qed.

(* ---------- Miller-Rabin *)
Section MR.
Variable n : N.
Hypothesis Hn : 2 < n.
Local Open Scope Z_scope.
Notation m := (Z.of_N n).
Lemma rmul_mod (x y : Z) : @rmul (mod_ring n) x y = (x * y) mod m.
Proof. cbn. unfold q_rem, rem, Z_quorem. unfold is_zero; cbn. destruct (Z.eqb_spec m 0); [lia|]. reflexivity. Qed.
Lemma pow_loop_mod p : forall x ans, @pow_loop (mod_ring n) (pos_bits p) (@squares (mod_ring n) (length (pos_bits p) - 1) x) ans = (ans * x ^ Zpos p) mod m.
Proof.
  induction p as [p IH|p IH|]; intros x ans; cbn [pos_bits length]; rewrite ?Nat.sub_succ, ?Nat.sub_0_r.
  - destruct (length (pos_bits p)) as [|l] eqn:E; [destruct p; discriminate|]. cbn [squares pow_loop]. replace l with (S l - 1)%nat by lia. rewrite IH, !rmul_mod.
    rewrite Z.mul_mod, Z.mod_mod, <- (Zpower_mod _ (Zpos p)), <- Z.mul_mod by lia. f_equal. replace (Z.pos p~1) with (1 + 2 * Z.pos p) by lia. rewrite Z.pow_add_r, Z.pow_1_r, Z.pow_mul_r by lia. replace (x ^ 2) with (x * x) by lia. lia.
  - destruct (length (pos_bits p)) as [|l] eqn:E; [destruct p; discriminate|]. cbn [squares pow_loop]. replace l with (S l - 1)%nat by lia. rewrite IH, !rmul_mod.
    rewrite Z.mul_mod, <- (Zpower_mod _ (Zpos p)), <- Z.mul_mod by lia. f_equal. replace (Z.pos p~0) with (2 * Z.pos p) by lia. rewrite Z.pow_mul_r by lia. replace (x ^ 2) with (x * x) by lia. lia.
  - cbn [squares pow_loop length Nat.sub]. rewrite rmul_mod. f_equal. lia.
Qed.
Lemma nat_pow_mod a d : 0 <= a < m -> (0 < d)%N -> @nat_pow (mod_ring n) a d = a ^ Z.of_N d mod m.
Proof.
  intros Ha Hd. unfold nat_pow. destruct (N.eqb_spec d 0); [lia|]. destruct (N.eqb_spec d 1) as [->|]; [change (Z.of_N 1) with 1; rewrite Z.pow_1_r, Z.mod_small; auto|]. destruct d as [|p]; [lia|].
  unfold bits. rewrite pow_loop_mod. cbn [r1 quotient_ops Z_ops]. rewrite Z.mul_1_l. reflexivity.
Qed.
Hypothesis P : prime_N n.
Lemma primeZ : prime m.
Proof.
  apply prime_alt. split; [lia|]. intros d Hd Hdiv. destruct P as [_ Q]. destruct (Q (Z.to_N d)) as [E|E]; [|lia|lia]. destruct Hdiv as [c Hc]. exists (Z.to_N c). apply N2Z.inj. rewrite N2Z.inj_mul, !Z2N.id by nia. auto.
Qed.
Lemma mr_squares_prime s : forall x, 0 < x < m -> mr_squares n s x = Some (x ^ (2 ^ Z.of_nat s) mod m).
Proof.
  induction s as [|s IH]; intros x Hx; cbn [mr_squares]; [change (2 ^ Z.of_nat 0) with 1; rewrite Z.pow_1_r, Z.mod_small; auto; lia|]. rewrite rmul_mod.
  assert (C : ((x * x) mod m =? 1) && negb (x =? 1) && negb (x =? m - 1) = false).
  { destruct (Z.eqb_spec ((x * x) mod m) 1) as [E|]; auto. destruct (Z.eqb_spec x 1) as [|E1]; auto. destruct (Z.eqb_spec x (m - 1)) as [|E2]; auto. exfalso.
    assert (D : (m | (x - 1) * (x + 1))). { apply Z.mod_divide; [lia|]. replace ((x - 1) * (x + 1)) with (x * x - 1) by lia. rewrite Zminus_mod, E. rewrite (Z.mod_small 1) by lia. reflexivity. }
    apply prime_mult in D; [|apply primeZ]. destruct D as [D|D]; apply Z.divide_pos_le in D; lia. }
  rewrite C. assert (Hy : 0 < (x * x) mod m < m).
  { pose proof (Z.mod_pos_bound (x * x) m ltac:(lia)). assert ((x * x) mod m <> 0); [|lia]. intros E. apply Z.mod_divide in E; [|lia]. apply prime_mult in E; [|apply primeZ]. destruct E as [E|E]; apply Z.divide_pos_le in E; lia. }
  rewrite IH by auto. f_equal. rewrite <- Zpower_mod by lia. replace (Z.of_nat (S s)) with (1 + Z.of_nat s) by lia. rewrite Z.pow_add_r, Z.pow_1_r, Z.pow_mul_r by lia. replace (x ^ 2) with (x * x) by lia. reflexivity.
Qed.
Lemma pow_to_N a (d : N) : (0 < a)%N -> (Z.of_N a ^ Z.of_N d) mod m = Z.of_N ((a ^ d) mod n).
Proof. intros Ha. rewrite N2Z.inj_mod, N2Z.inj_pow by lia. reflexivity. Qed.
Lemma prime_pow_div x k : 0 <= k -> (m | x ^ k) -> (m | x).
Proof.
  intros Hk. pattern k. apply natlike_ind; auto; clear k Hk.
  - intros H. apply Z.divide_1_r_nonneg in H; lia.
  - intros k Hk IH H. rewrite Z.pow_succ_r in H by auto. apply prime_mult in H; [|apply primeZ]. destruct H; auto.
Qed.
Lemma mr_bases_prime s d : (n - 1 = 2 ^ N.of_nat s * d)%N -> forall bases, (forall a, In a bases -> 1 <= a < n)%N -> mr_bases n s d bases = inr tt.
Proof.
  intros Hsd. assert (Hd : (0 < d)%N) by nia. induction bases as [|a bases IH]; intros Hb; cbn [mr_bases]; auto. assert (Ha : (1 <= a < n)%N) by (apply Hb; left; auto).
  rewrite nat_pow_mod by lia. assert (Hnd : ~ (n | a)%N) by (intros H; apply div_le in H; lia).
  assert (Hx : 0 < (Z.of_N a ^ Z.of_N d) mod m < m).
  { pose proof (Z.mod_pos_bound (Z.of_N a ^ Z.of_N d) m ltac:(lia)). assert ((Z.of_N a ^ Z.of_N d) mod m <> 0); [|lia]. intros E. apply Z.mod_divide in E; [|lia].
    apply Hnd. apply (prime_pow_div _ (Z.of_N d) ltac:(lia)) in E. destruct E as [c Hc]. exists (Z.to_N c). nia. }
  rewrite mr_squares_prime by auto. rewrite <- Zpower_mod, <- Z.pow_mul_r by lia. replace (Z.of_N d * 2 ^ Z.of_nat s) with (Z.of_N (n - 1)).
  - rewrite pow_to_N, fermat_N by (auto; lia). cbn [negb Z.of_N Z.eqb Pos.eqb]. apply IH. intros; apply Hb; right; auto.
  - rewrite Hsd, N2Z.inj_mul, N2Z.inj_pow. replace (Z.of_N (N.of_nat s)) with (Z.of_nat s) by lia. change (Z.of_N 2) with 2. lia.
Qed.
End MR.
