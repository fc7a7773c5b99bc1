(* C11: the search for s succeeds when n is prime *)
From Coq Require Import NArith List Bool Lia Arith.
From Verif Require Import RingModel NatSpec NatModel NatProofs NatBridge NatBridge2 NatProofs2 NatProofs3 NatProofs4 NatProofs5 AksModel AksProofs AksProofs3 AksProofs4.
Import ListNotations.
Local Open Scope N_scope.

Section Search.
Variables (lhs : N -> option N) (L : N -> N) (rhs : N).
Hypothesis HL : forall s, lhs s = Some (L s).
Hypothesis Hne : forall s, L s <> rhs.
Lemma shrink_ok : forall step s, 2 ^ N.of_nat (S step) <= s -> rhs < L s -> L (s - 2 ^ N.of_nat (S step)) < rhs ->
  exists s', aks_shrink lhs rhs step s = Some s' /\ rhs < L s' /\ 1 <= s' /\ L (s' - 1) < rhs.
Proof.
  induction step as [|k IH]; intros s Hs H1 H2; cbn [aks_shrink]; cbv zeta.
  - change (2 ^ N.of_nat 0) with 1. change (2 ^ N.of_nat 1) with 2 in *. destruct (N.ltb_spec s 1); [lia|]. rewrite HL. cbn [obind].
    destruct (N.compare_spec (L (s - 1)) rhs) as [E|E|E]; [elim (Hne _ E)|exists s; repeat split; auto; lia|exists (s - 1); repeat split; auto; try lia]. replace (s - 1 - 1) with (s - 2) by lia. auto.
  - rewrite Nat2N.inj_succ, N.pow_succ_r in Hs, H2 by lia. set (p := 2 ^ N.of_nat (S k)) in *. assert (0 < p) by (apply N.neq_0_lt_0, N.pow_nonzero; lia). destruct (N.ltb_spec s p); [lia|]. rewrite HL. cbn [obind].
    destruct (N.compare_spec (L (s - p)) rhs) as [E|E|E]; [elim (Hne _ E)|apply IH; auto; fold p; lia|apply IH; fold p; auto; [lia|]]. replace (s - p - p) with (s - 2 * p) by lia. auto.
Qed.
Variable bnd : N.
Hypothesis Hb : forall s, bnd <= s -> rhs < L s.
Lemma grow_ok : forall fuel step s, (step = O -> L (s + 1) < rhs) -> (step <> O -> L s < rhs) -> bnd < N.of_nat fuel + s ->
  exists s', aks_grow fuel lhs rhs step s = Some s' /\ rhs < L s' /\ 1 <= s' /\ L (s' - 1) < rhs.
Proof.
  induction fuel as [|f IH]; intros step s H0 H1 Hf; cbn [aks_grow].
  - exfalso. destruct step; [specialize (H0 eq_refl); specialize (Hb (s + 1))|specialize (H1 ltac:(lia)); specialize (Hb s)]; lia.
  - cbv zeta. rewrite HL. cbn [obind]. assert (P : 0 < 2 ^ N.of_nat step) by (apply N.neq_0_lt_0, N.pow_nonzero; lia). destruct (N.compare_spec (L (s + 2 ^ N.of_nat step)) rhs) as [E|E|E]; [elim (Hne _ E)| |].
    + apply IH; [discriminate|auto|lia].
    + destruct step as [|k]; [change (2 ^ N.of_nat 0) with 1 in E; specialize (H0 eq_refl); lia|]. apply shrink_ok; auto; [lia|]. rewrite N.add_sub. apply H1. lia.
Qed.
End Search.

Lemma binom_pos n : forall k, (k <= n)%nat -> 0 < binom_spec n k.
Proof. induction n as [|n IH]; intros [|k] H; cbn [binom_spec]; try lia. specialize (IH k). lia. Qed.
Lemma binom_ge n : forall k, (1 <= k)%nat -> (k < n)%nat -> N.of_nat n <= binom_spec n k.
Proof.
  induction n as [|n IH]; intros [|k] H1 H2; try lia. cbn [binom_spec]. destruct k as [|k].
  - rewrite binom_n0. destruct (Nat.eq_dec n 1) as [->|]; [cbn; lia|]. specialize (IH 1%nat). lia.
  - pose proof (binom_pos n (S (S k))). pose proof (IH (S k)). lia.
Qed.
Lemma prime_div_fact p n : prime_N p -> (p | fact_spec n) -> p <= N.of_nat n.
Proof.
  intros Hp. induction n as [|n IH]; cbn [fact_spec]; intros D.
  - apply div_le in D; [|lia]. destruct Hp; lia.
  - apply euclid_N in D as [D|D]; auto; [apply div_le in D; lia|apply IH in D; lia].
Qed.
Lemma prime_div_binom p n k : prime_N p -> (k <= n)%nat -> (p | binom_spec n k) -> p <= N.of_nat n.
Proof. intros Hp Hk D. apply prime_div_fact; auto. rewrite <- (binom_fact n k Hk). apply N.divide_mul_l. auto. Qed.
Lemma prime_div_pow p n e : prime_N p -> prime_N n -> (p | n ^ e) -> p = n.
Proof.
  intros Hp Hn. rewrite <- (N2Nat.id e). induction (N.to_nat e) as [|k IH]; intros D.
  - change (n ^ N.of_nat 0) with 1 in D. apply div_le in D; [destruct Hp; lia|lia].
  - rewrite Nat2N.inj_succ, N.pow_succ_r in D by lia. apply euclid_N in D as [D|D]; auto. destruct (proj2 Hn p D) as [E|E]; auto. destruct Hp; lia.
Qed.

Section R.
Variables (n r : N).
Hypothesis Hn : prime_N n.
Hypothesis Hr : prime_N r.
Hypothesis Hrn : r < n.
Definition LL (s : N) : N :=
  if 2 * s <? aks_i r then 0
  else binom_spec (N.to_nat (2 * s)) (N.to_nat (aks_i r)) * binom_spec (N.to_nat (aks_d r)) (N.to_nat (aks_i r)) *
       binom_spec (N.to_nat (2 * s - aks_i r)) (N.to_nat (aks_j r)) * binom_spec (N.to_nat (aks_phi r - 1 - aks_d r)) (N.to_nat (aks_j r)).
Lemma lhsE s : aks_lhs r s = Some (LL s).
Proof. unfold aks_lhs, LL. cbv zeta. destruct (2 * s <? aks_i r); auto. rewrite !choose_spec. reflexivity. Qed.
Lemma odd_d : 5 <= r -> aks_phi r = 2 * aks_d r /\ 2 <= aks_d r.
Proof.
  intros H5. unfold aks_d, aks_phi. assert (Hm : r mod 2 <> 0). { intros E. apply div_mod0 in E; [|lia]. apply (prime_no_div r 2 Hr); auto; lia. }
  pose proof (N.div_mod r 2 ltac:(lia)). pose proof (N.mod_lt r 2 ltac:(lia)). set (q := r / 2) in *. set (m := r mod 2) in *. assert (E : r - 1 = q * 2) by lia. clearbody q m. rewrite E, N.div_mul by lia. lia.
Qed.
Lemma ij_spec : 5 <= r -> aks_i r = 475 * aks_phi r / 1000 /\ aks_j r = aks_i r /\ 1 <= aks_i r /\ aks_i r < aks_d r /\ (3 <= aks_d r -> 2 <= aks_i r).
Proof.
  intros H5. destruct (odd_d H5) as (E & D2). unfold aks_i, aks_j. cbv zeta. rewrite E. set (d := aks_d r) in *.
  set (q := 475 * (2 * d) / 1000). pose proof (N.div_mod (475 * (2 * d)) 1000 ltac:(lia)) as DM. pose proof (N.mod_lt (475 * (2 * d)) 1000 ltac:(lia)) as ML. fold q in DM. clearbody q. set (m := _ mod _) in *. clearbody m.
  assert (q < d) by lia. assert (1 <= q) by lia. destruct (N.ltb_spec d q); [lia|]. destruct (N.ltb_spec (2 * d - 1 - d) q); [lia|]. repeat split; auto. intros. lia.
Qed.
Lemma rhsE : exists e, aks_rhs n r = Some (n ^ e) /\ (r = 5 -> e = 1) /\ (5 <= r -> 1 <= e).
Proof.
  unfold aks_rhs. destruct (nth_root_ceil_spec (aks_phi r / 3) 2) as (e & E & H1 & H2); [lia|]. rewrite E. cbn [obind]. rewrite pow_spec. exists e. split; auto. split.
  - intros Er. rewrite Er in H1, H2. change (aks_phi 5 / 3) with 1 in *. specialize (H2 1 ltac:(rewrite N.pow_1_l; lia)). destruct (N.eq_dec e 0) as [->|]; [rewrite N.pow_0_l in H1 by lia; lia|lia].
  - intros H5. destruct (N.eq_dec e 0) as [->|]; [|lia]. rewrite N.pow_0_l in H1 by lia. unfold aks_phi in H1. assert (1 <= (r - 1) / 3) by (apply N.div_le_lower_bound; lia). lia.
Qed.
Lemma search_s dbg : exists F, forall fuel, (F <= fuel)%nat -> exists s, aks_s dbg fuel n r = Some s.
Proof.
  assert (R2 : 1 < r) by apply Hr. destruct (N.lt_ge_cases r 5) as [R5|R5].
  - (* r = 2 or 3 *) exists 3%nat. intros [|fuel] Hf; [lia|]. unfold aks_s. assert (r = 2 \/ r = 3 \/ r = 4) as [E|[E|E]] by lia; [| |exfalso; apply (prime_no_div r 2 Hr); [lia|lia|rewrite E; exists 2; reflexivity]].
    + rewrite E. unfold aks_rhs. change (nth_root_ceil (aks_phi 2 / 3) 2) with (Some 0). cbn [obind]. rewrite pow_spec, N.pow_0_r. cbn [aks_grow]. cbv zeta. change (aks_lhs 2 (0 + 2 ^ N.of_nat 0)) with (Some 1). cbn [obind]. change (1 ?= 1) with Eq. cbn [obind].
      change (0 + 2 ^ N.of_nat 0) with 1. destruct dbg; [|eauto]. change (aks_lhs 2 1) with (Some 1). cbn [obind]. change (1 <? 1) with false. cbn. eauto.
    + rewrite E. unfold aks_rhs. change (nth_root_ceil (aks_phi 3 / 3) 2) with (Some 0). cbn [obind]. rewrite pow_spec, N.pow_0_r. cbn [aks_grow]. cbv zeta. change (aks_lhs 3 (0 + 2 ^ N.of_nat 0)) with (Some 1). cbn [obind]. change (1 ?= 1) with Eq. cbn [obind].
      change (0 + 2 ^ N.of_nat 0) with 1. destruct dbg; [|eauto]. change (aks_lhs 3 1) with (Some 1). cbn [obind]. change (1 <? 1) with false. cbn. eauto.
  - destruct (odd_d R5) as (Ephi & D2). destruct (ij_spec R5) as (_ & Ej & I1 & I2 & I3). destruct rhsE as (e & Erhs & E5 & E1). specialize (E1 R5).
    set (rhs := n ^ e) in *. assert (Hne : forall s, LL s <> rhs).
    { intros s Es. assert (Hrhs : 0 < rhs) by (apply N.neq_0_lt_0, N.pow_nonzero; destruct Hn; lia). unfold LL in Es. destruct (2 * s <? aks_i r); [lia|].
      pose proof (binom_ge (N.to_nat (aks_d r)) (N.to_nat (aks_i r)) ltac:(lia) ltac:(lia)) as G. destruct (has_prime_factor (binom_spec (N.to_nat (aks_d r)) (N.to_nat (aks_i r))) ltac:(lia)) as (q & Hq & Dq).
      pose proof (prime_div_binom q (N.to_nat (aks_d r)) (N.to_nat (aks_i r)) Hq ltac:(lia) Dq). assert (q = n). { apply (prime_div_pow q n e); auto. fold rhs. rewrite <- Es. apply N.divide_mul_l, N.divide_mul_l, N.divide_mul_r. auto. }
      subst q. unfold aks_d, aks_phi in *. assert (Hd : (r - 1) / 2 <= r - 1) by (apply N.div_le_upper_bound; lia). set (q := (r - 1) / 2) in *. clearbody q. lia. }
    assert (H1 : LL 1 < rhs).
    { unfold LL. destruct (N.lt_ge_cases (aks_d r) 3) as [D3|D3].
      - assert (Ed : aks_d r = 2) by lia. assert (Er : r = 5) by (unfold aks_phi in Ephi; lia). rewrite Er. unfold rhs. rewrite (E5 Er), N.pow_1_r.
        change (_ < n) with (4 < n). lia.
      - assert (Hrhs : 0 < rhs) by (apply N.neq_0_lt_0, N.pow_nonzero; destruct Hn; lia). specialize (I3 D3). destruct (N.ltb_spec (2 * 1) (aks_i r)); [auto|].
        rewrite (binom_over (N.to_nat (2 * 1 - aks_i r))) by lia. rewrite N.mul_0_r, N.mul_0_l. auto. }
    assert (Hb : forall s, rhs + aks_d r <= s -> rhs < LL s).
    { intros s Hs. unfold LL. destruct (N.ltb_spec (2 * s) (aks_i r)); [lia|].
      pose proof (binom_ge (N.to_nat (2 * s)) (N.to_nat (aks_i r)) ltac:(lia) ltac:(lia)) as G1. pose proof (binom_pos (N.to_nat (aks_d r)) (N.to_nat (aks_i r)) ltac:(lia)) as G2.
      pose proof (binom_pos (N.to_nat (2 * s - aks_i r)) (N.to_nat (aks_j r)) ltac:(lia)) as G3. pose proof (binom_pos (N.to_nat (aks_phi r - 1 - aks_d r)) (N.to_nat (aks_j r)) ltac:(lia)) as G4.
      set (a := binom_spec (N.to_nat (2 * s)) _) in *. set (b := binom_spec (N.to_nat (aks_d r)) _) in *. set (c := binom_spec (N.to_nat (2 * s - aks_i r)) _) in *. set (d := binom_spec (N.to_nat (aks_phi r - 1 - aks_d r)) _) in *. clearbody a b c d. apply (N.lt_le_trans _ a); [lia|]. rewrite <- !N.mul_assoc. assert (1 <= b * (c * d)) by nia. nia. }
    exists (N.to_nat (rhs + aks_d r) + 1)%nat. intros fuel Hf. unfold aks_s. rewrite Erhs. cbn [obind].
    destruct (grow_ok (aks_lhs r) LL rhs lhsE Hne (rhs + aks_d r) Hb fuel 0 0) as (s & Eg & S1 & S2 & S3); [intros; auto|lia|lia|]. rewrite Eg. cbn [obind].
    destruct dbg; [|eauto]. rewrite !lhsE. cbn [obind]. destruct (N.ltb_spec (LL s) rhs); [lia|]. destruct (1 <? s); [|eauto]. apply N.ltb_lt in S3. rewrite S3. eauto.
Qed.
End R.

Lemma next_new f : pg_next (S f) pg_new = Some (2, mkPG 3 [2]). Proof. reflexivity. Qed.
Lemma next_3 f : pg_next (S f) (mkPG 3 [2]) = Some (3, mkPG 4 [2; 3]). Proof. reflexivity. Qed.
Lemma find_2 fac f : is_primitive_root fac [(3, 1)] 2 = Some RYes -> aks_find_r fac (10 + f) (10 + f) 2 (aks_r0 2) pg_new = Some (inr 3).
Proof.
  intros Et. assert (R : aks_r0 2 = 3) by (vm_compute; reflexivity). rewrite R. remember (9 + f)%nat as k eqn:Ek. replace (10 + f)%nat with (S k) by lia.
  cbn [aks_find_r]. rewrite next_new. cbn [obind]. change (2 <? 3) with true. cbn iota. destruct k as [|k2]; [lia|]. cbn [aks_find_r]. rewrite next_3. cbn [obind]. change (3 <? 3) with false. cbn iota. rewrite Et. reflexivity.
Qed.
Lemma search_2 dbg f : exists s, aks_s dbg (10 + f) 2 3 = Some s.
Proof.
  remember (9 + f)%nat as k eqn:Ek. replace (10 + f)%nat with (S k) by lia. unfold aks_s. assert (A : aks_rhs 2 3 = Some 1) by (vm_compute; reflexivity). assert (B : aks_lhs 3 1 = Some 1) by (vm_compute; reflexivity). assert (D : 0 + 2 ^ N.of_nat 0 = 1) by reflexivity.
  rewrite A. cbn [obind aks_grow]. cbv zeta. rewrite D, B. cbn [obind]. change (1 ?= 1) with Eq. cbn [obind]. destruct dbg; [|eauto]. rewrite B. cbn. eauto.
Qed.
Theorem aks_prime n fac : prime_N n -> fac_right fac n -> exists F, forall fuel dbg, (F <= fuel)%nat -> aks dbg fac fuel n = Some PPrime.
Proof.
  intros Hn Hf. assert (N1 : 1 < n) by apply Hn. destruct (is_power_test_spec n) as (F1 & P1).
  assert (Main : exists F, forall fuel dbg, (F <= fuel)%nat -> exists t, aks dbg fac fuel n = Some t).
  2:{ destruct Main as (F & H). exists F. intros fuel dbg Hfu. destruct (H fuel dbg Hfu) as (t & E). rewrite E. f_equal. apply (aks_prime_only dbg fac fuel n t Hn E). }
  assert (Rest : forall fuel dbg r s, is_power_test fuel n = Some PwNo -> aks_find_r fac fuel fuel n (aks_r0 n) pg_new = Some (inr r) -> prime_N r -> N.gcd n r = 1 -> aks_s dbg fuel n r = Some s -> aks dbg fac fuel n = Some PPrime).
  { intros fuel dbg r s E0 E1 Pr G Es. unfold aks. rewrite E0. cbn [obind]. rewrite E1. cbn [obind]. rewrite Es. cbn [obind]. apply (tail_prime dbg n r s Hn Pr G). }
  assert (Pw : forall fuel, (F1 <= fuel)%nat -> is_power_test fuel n = Some PwNo). { intros fuel Hfu. destruct (P1 fuel Hfu) as (t & E & _). rewrite E. f_equal. apply (power_sound fuel n t Hn E). }
  destruct (N.eq_dec n 2) as [E2|N2].
  - (* n = 2: r = 3 *) exists (F1 + 10)%nat. intros fuel dbg Hfu. exists PPrime. assert (exists f, fuel = (10 + f)%nat) as (f & Ef) by (exists (fuel - 10)%nat; lia).
    assert (P3 : prime_N 3). { destruct (try_divisors_spec 3) as (t & E & H). vm_compute in E. injection E as <-. auto. }
    destruct (Hf 2) as (l & El & Fl); [lia|]. destruct (is_primitive_root_spec fac 3 [(3, 1)] 2 l) as (t & Et & Ht).
    { split; [repeat constructor; intros []|]. split; [intros p k [[= <- <-]|[]]; split; auto; lia|]. reflexivity. } { rewrite (totient_prime 3 P3). exact El. } { rewrite (totient_prime 3 P3). exact Fl. } { lia. }
    assert (Ft : t = RYes). { destruct t; auto; exfalso; [apply Ht; reflexivity|]. destruct Ht as (_ & Ht). apply Ht. rewrite (totient_prime 3 P3). split; [lia|]. split; [reflexivity|]. intros j Hj. destruct (N.eq_dec j 1) as [->|]; [vm_compute; discriminate|lia]. }
    subst t. assert (Efi : aks_find_r fac fuel fuel 2 (aks_r0 2) pg_new = Some (inr 3)).
    { rewrite Ef. apply find_2. exact Et. }
    assert (exists s, aks_s dbg fuel 2 3 = Some s) as (s & Es).
    { rewrite Ef. apply search_2. }
    subst n. apply (Rest fuel dbg 3 s); auto. apply Pw. lia.
  - destruct (r0_le n ltac:(lia)) as (R0 & R3).
    (* the prime found does not depend on the fuel *)
    assert (Hfind : forall fuel, (N.to_nat n < fuel)%nat -> aks_find_r fac fuel fuel n (aks_r0 n) pg_new = Some (inl PPrime) \/ exists r, aks_find_r fac fuel fuel n (aks_r0 n) pg_new = Some (inr r) /\ prime_N r /\ N.gcd n r = 1 /\ aks_r0 n <= r /\ r < n).
    { intros fuel Hfu. apply find_ok; auto; [lia|apply PG_new|cbn; lia|cbn; lia]. }
    assert (Fs : exists F3, forall r, prime_N r -> r < n -> forall fuel dbg, (F3 <= fuel)%nat -> exists s, aks_s dbg fuel n r = Some s).
    { assert (G : forall k : nat, exists F3, forall r, prime_N r -> r < n -> r < N.of_nat k -> forall fuel dbg, (F3 <= fuel)%nat -> exists s, aks_s dbg fuel n r = Some s).
      - induction k as [|k (F3 & IH)]; [exists O; lia|]. destruct (prime_dec (N.of_nat k)) as [Pk|Pk].
        + destruct (N.lt_ge_cases (N.of_nat k) n) as [Lk|Lk]; [|exists F3; intros r Pr Lr Lr'; apply IH; auto; lia].
          destruct (search_s n (N.of_nat k) Hn Pk Lk true) as (Ft & HT). destruct (search_s n (N.of_nat k) Hn Pk Lk false) as (Ff & HF). exists (F3 + Ft + Ff)%nat. intros r Pr Lr Lr' fuel dbg Hfu.
          destruct (N.eq_dec r (N.of_nat k)) as [->|]; [destruct dbg; [apply HT|apply HF]; lia|apply IH; auto; lia].
        + exists F3. intros r Pr Lr Lr'. apply IH; auto. destruct (N.eq_dec r (N.of_nat k)) as [->|]; [contradiction|lia].
      - destruct (G (N.to_nat n)) as (F3 & H). exists F3. intros r Pr Lr. apply H; auto. lia. }
    destruct Fs as (F3 & HF3). exists (F1 + F3 + S (N.to_nat n))%nat. intros fuel dbg Hfu. exists PPrime.
    destruct (Hfind fuel ltac:(lia)) as [E1|(r & E1 & Pr & G & L1 & L2)].
    + unfold aks. rewrite Pw by lia. cbn [obind]. rewrite E1. reflexivity.
    + destruct (HF3 r Pr L2 fuel dbg ltac:(lia)) as (s & Es). apply (Rest fuel dbg r s); auto. apply Pw. lia.
Qed.
