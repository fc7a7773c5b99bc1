(* Miller-Rabin answers exactly according to the strong probable prime condition *)
From Coq Require Import NArith ZArith Zpow_facts List Bool Lia.
From Verif Require Import RingSpec RingModel NatSpec NatModel NatProofs NatProofs2 NatProofs3.
Import ListNotations.
Section MR.
Variable n : N.
Hypothesis Hn : (2 < n)%N.
Local Open Scope Z_scope.
Notation m := (Z.of_N n).
Lemma mr_squares_iff s : forall x, 0 <= x < m -> (mr_squares n s x = Some 1 <-> x = 1 \/ exists r, (r < s)%nat /\ x ^ (2 ^ Z.of_nat r) mod m = m - 1) .
Proof.
  induction s as [|s IH]; intros x Hx; cbn [mr_squares].
  - split; [intros E; injection E; auto|]. intros [->|(r & Hr & _)]; [auto|lia].
  - rewrite rmul_mod by auto. set (y := (x * x) mod m). assert (Hy : 0 <= y < m) by (apply Z.mod_pos_bound; lia).
    assert (Sh : forall r, x ^ (2 ^ Z.of_nat (S r)) mod m = y ^ (2 ^ Z.of_nat r) mod m).
    { intros r. unfold y. rewrite <- Zpower_mod by lia. replace (Z.of_nat (S r)) with (1 + Z.of_nat r) by lia. rewrite Z.pow_add_r, Z.pow_1_r, Z.pow_mul_r by lia. replace (x ^ 2) with (x * x) by lia. reflexivity. }
    destruct (Z.eqb_spec y 1) as [Ey|Ey]; [destruct (Z.eqb_spec x 1) as [Ex|Ex]; [|destruct (Z.eqb_spec x (m - 1)) as [Ex2|Ex2]]|]; cbn [andb negb].
    + rewrite IH by auto. split; [left; auto|]. intros _. left; auto.
    + rewrite IH by auto. split; [|left; auto]. intros _. right. exists O. split; [lia|]. change (2 ^ Z.of_nat 0) with 1. rewrite Z.pow_1_r, Z.mod_small; lia.
    + split; [discriminate|]. intros [|(r & Hr & E)]; [contradiction|]. exfalso. destruct r as [|r]; [change (2 ^ Z.of_nat 0) with 1 in E; rewrite Z.pow_1_r, Z.mod_small in E; lia|].
      rewrite Sh, Ey, Z.pow_1_l, Z.mod_small in E; lia.
    + rewrite IH by auto. split.
      * intros [|(r & Hr & E)]; [contradiction|]. right. exists (S r). split; [lia|]. rewrite Sh. auto.
      * intros [->|(r & Hr & E)]; [exfalso; apply Ey; unfold y; rewrite Z.mod_small; lia|]. destruct r as [|r]; [|right; exists r; split; [lia|rewrite <- Sh; auto]].
        exfalso. apply Ey. change (2 ^ Z.of_nat 0) with 1 in E. rewrite Z.pow_1_r, Z.mod_small in E by lia. unfold y. rewrite E. replace ((m - 1) * (m - 1)) with (1 + (m - 2) * m) by lia. rewrite Z.mod_add by lia. apply Z.mod_small. lia.
Qed.
Lemma powN a d : (Z.of_N a ^ Z.of_N d) mod m = Z.of_N ((a ^ d) mod n).
Proof. rewrite N2Z.inj_mod, N2Z.inj_pow by lia. reflexivity. Qed.
Lemma mr_base_iff s d a : (0 < d)%N -> (a < n)%N ->
  (mr_squares n s (@nat_pow (mod_ring n) (Z.of_N a) d) = Some 1 <-> (a ^ d mod n = 1 \/ exists r, r < N.of_nat s /\ a ^ (2 ^ r * d) mod n = n - 1)%N).
Proof.
  intros Hd Ha. rewrite nat_pow_mod by lia. rewrite mr_squares_iff by (apply Z.mod_pos_bound; lia). rewrite powN. split.
  - intros [E|(r & Hr & E)]; [left; lia|]. right. exists (N.of_nat r). split; [lia|]. rewrite <- powN, <- Zpower_mod, <- Z.pow_mul_r in E by lia.
    replace (Z.of_N d * 2 ^ Z.of_nat r) with (Z.of_N (2 ^ N.of_nat r * d)) in E by (rewrite N2Z.inj_mul, N2Z.inj_pow, nat_N_Z; change (Z.of_N 2) with 2; lia). rewrite powN in E. lia.
  - intros [E|(r & Hr & E)]; [left; lia|]. right. exists (N.to_nat r). split; [lia|]. rewrite <- powN, <- Zpower_mod, <- Z.pow_mul_r by lia.
    replace (Z.of_N d * 2 ^ Z.of_nat (N.to_nat r)) with (Z.of_N (2 ^ r * d)) by (rewrite N2Z.inj_mul, N2Z.inj_pow, N_nat_Z; change (Z.of_N 2) with 2; lia). rewrite powN. lia.
Qed.
End MR.
Local Open Scope N_scope.
Definition round_ok n s d a := a ^ d mod n = 1 \/ exists r, r < N.of_nat s /\ a ^ (2 ^ r * d) mod n = n - 1.
Lemma mr_bases_cases n s d bases : 2 < n -> 0 < d -> (forall a, In a bases -> a < n) ->
  (mr_bases n s d bases = inr tt /\ forall a, In a bases -> round_ok n s d a) \/ (mr_bases n s d bases = inl PComposite /\ exists a, In a bases /\ ~ round_ok n s d a).
Proof.
  intros Hn Hd. induction bases as [|a l IH]; intros Hb; cbn [mr_bases]; [left; split; [auto|intros a []]|].
  assert (Ha : a < n) by (apply Hb; left; auto). assert (Hl : forall a, In a l -> a < n) by (intros; apply Hb; right; auto). specialize (IH Hl). pose proof (mr_base_iff n Hn s d a Hd Ha) as B. fold (round_ok n s d a) in B.
  destruct (mr_squares _ _ _) as [x|]; [destruct (Z.eqb_spec x 1) as [->|Hx]|]; cbn [negb].
  - destruct IH as [[E H]|[E (b & H1 & H2)]]; rewrite E; [left|right]; split; auto.
    + intros b [<-|Hb']; [apply B; auto|auto].
    + exists b. split; [right; auto|auto].
  - right. split; auto. exists a. split; [left; auto|]. intros C. apply B in C. congruence.
  - right. split; auto. exists a. split; [left; auto|]. intros C. apply B in C. congruence.
Qed.
Lemma odd_part_unique s : forall d s' d', 2 ^ s * d = 2 ^ s' * d' -> d mod 2 = 1 -> d' mod 2 = 1 -> s = s' /\ d = d'.
Proof.
  assert (T : forall u, (2 * u) mod 2 = 0) by (intros u; rewrite N.mul_comm; apply N.mod_mul; lia).
  induction s as [|s IH] using N.peano_ind; intros d s' d' E Hd Hd'; destruct (N.eq_dec s' 0) as [->|Hs'].
  - rewrite !N.pow_0_r in E. split; auto. lia.
  - exfalso. replace s' with (N.succ (N.pred s')) in E by lia. rewrite N.pow_0_r, N.pow_succ_r', N.mul_1_l, <- N.mul_assoc in E. rewrite E, T in Hd. discriminate.
  - exfalso. rewrite N.pow_0_r, N.pow_succ_r', N.mul_1_l, <- N.mul_assoc in E. rewrite <- E, T in Hd'. discriminate.
  - replace s' with (N.succ (N.pred s')) in E by lia. rewrite !N.pow_succ_r', <- !N.mul_assoc in E. apply N.mul_cancel_l in E; [|lia]. destruct (IH _ _ _ E Hd Hd'). split; lia.
Qed.
Lemma miller_rabin_iff n bases : 2 < n -> n mod 2 = 1 -> (forall a, In a bases -> a < n) ->
  (miller_rabin n bases = Some (inr tt) /\ forall a, In a bases -> strong_probable_prime n a) \/ (miller_rabin n bases = Some (inl PComposite) /\ exists a, In a bases /\ ~ strong_probable_prime n a).
Proof.
  intros Hn Ho Hb. unfold miller_rabin. destruct (N.eqb_spec n 0); [lia|]. destruct (N.eqb_spec n 1); [lia|]. destruct (N.eqb_spec n 2); [lia|]. destruct (N.eqb_spec (n mod 2) 0) as [E|E]; [congruence|]. clear E.
  pose proof (size_nat_pow n). destruct (split2_spec (N.size_nat n) 0 (n - 1)) as (s & d & E1 & E2 & E3); [lia|lia|]. rewrite E1. cbn [obind]. change (2 ^ N.of_nat 0) with 1 in E2. rewrite N.mul_1_l in E2.
  assert (Hd : 0 < d) by (destruct (N.eq_dec d 0) as [->|]; [discriminate|lia]).
  assert (Eq : forall a, strong_probable_prime n a <-> round_ok n s d a).
  { intros a. split; [|intros C; exists (N.of_nat s), d; auto]. intros (s' & d' & H1 & H2 & H3). rewrite E2 in H1. destruct (odd_part_unique _ _ _ _ H1 E3 H2) as [<- <-]. auto. }
  destruct (mr_bases_cases n s d bases Hn Hd Hb) as [[E H']|[E (a & H1 & H2)]]; rewrite E; [left|right]; split; auto.
  - intros a Ha. apply Eq; auto.
  - exists a. split; auto. rewrite Eq. auto.
Qed.
