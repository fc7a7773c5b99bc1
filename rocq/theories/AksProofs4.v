(* C11: the AKS test answers Prime on every prime *)
From Coq Require Import NArith List Bool Lia Arith.
From Verif Require Import RingModel NatSpec NatModel NatProofs NatBridge NatBridge2 NatProofs2 NatProofs3 NatProofs4 NatProofs5 AksModel AksProofs AksProofs3.
Import ListNotations.
Local Open Scope N_scope.

Lemma next_sound f g p g' : PGinv g -> pg_next f g = Some (p, g') -> prime_N p /\ PGinv g' /\ pg_n g' = p + 1.
Proof.
  intros I E. destruct (primes_unbounded (pg_n g)) as (q & Hq1 & Hq2).
  destruct (next_spec (f + S (N.to_nat q)) g q I Hq2) as (p' & g2 & E' & I' & Hp & _ & _ & Hg & _); try lia.
  rewrite (next_mono _ _ _ E) in E' by lia. injection E' as <- <-. auto.
Qed.
Lemma power_loop_sound fuel n m : prime_N n -> forall steps g t, PGinv g -> power_loop fuel steps n m g = Some t -> t = PwNo.
Proof.
  intros Hn. induction steps as [|s IH]; intros g t I; cbn [power_loop]; [discriminate|].
  destruct (pg_next fuel g) as [(k & g')|] eqn:E; cbn [obind]; [|discriminate]. destruct (next_sound _ _ _ _ I E) as (Pk & I' & _).
  destruct (m <? k); [intros [= <-]; auto|]. destruct (nth_root_floor n k) as [a|]; cbn [obind]; [|discriminate]. rewrite pow_spec.
  destruct (N.eqb_spec n (a ^ k)) as [En|]; [|apply IH; auto]. exfalso. destruct Hn as (H1 & H2). assert (Hk : 1 < k) by apply Pk.
  assert (D : (a | n)). { exists (a ^ (k - 1)). rewrite En at 1. replace k with (N.succ (k - 1)) at 1 by lia. rewrite N.pow_succ_r by lia. ring. }
  destruct (H2 a D) as [->| ->]; [rewrite N.pow_1_l in En; lia|]. rewrite <- (N.pow_1_r n) in En at 1. apply N.pow_inj_r in En; lia.
Qed.
Lemma power_sound fuel n t : prime_N n -> is_power_test fuel n = Some t -> t = PwNo.
Proof. intros Hn. unfold is_power_test. destruct Hn as (H1 & H2). destruct (N.eqb_spec n 0); [lia|]. destruct (N.eqb_spec n 1); [lia|]. apply power_loop_sound; [split; auto|apply PG_new]. Qed.

Lemma prime_gcd n r : prime_N n -> N.gcd n r = 1 \/ (n | r).
Proof. intros (H1 & H2). destruct (H2 (N.gcd n r) (N.gcd_divide_l _ _)) as [E|E]; auto. right. rewrite <- E at 1. apply N.gcd_divide_r. Qed.
Lemma expand_prime r : expand [(r, 1)] = r. Proof. rewrite expand_spec. cbn [prod_powers]. rewrite N.pow_1_r. lia. Qed.
Lemma find_sound fac fuel n r0 : prime_N n -> forall steps g t, PGinv g -> aks_find_r fac fuel steps n r0 g = Some t ->
  match t with inl t => t = PPrime | inr r => prime_N r /\ N.gcd n r = 1 end.
Proof.
  intros Hn. induction steps as [|s IH]; intros g t I; cbn [aks_find_r]; [discriminate|].
  destruct (pg_next fuel g) as [(r & g')|] eqn:E; cbn [obind]; [|discriminate]. destruct (next_sound _ _ _ _ I E) as (Pr & I' & _).
  destruct (r <? r0); [apply IH; auto|]. unfold is_primitive_root. rewrite expand_prime, gcd_spec. cbn [obind].
  destruct (N.eqb_spec (N.gcd n r) 1) as [G|G]; cbn [negb].
  - destruct (fac _) as [[l|]|]; cbn [obind]; try discriminate. destruct (existsb _ l); [apply IH; auto|intros [= <-]; auto].
  - intros [= <-]. destruct (prime_gcd n r Hn) as [|D]; [contradiction|]. destruct Pr as (R1 & R2). destruct (R2 n D) as [->| ->]; [destruct Hn; lia|]. rewrite N.eqb_refl. auto.
Qed.

(* ---------- after the search for s *)
Lemma gcds_prime n : prime_N n -> forall xs, (aks_gcds n xs = Some None /\ forall x, In x xs -> N.gcd n x = 1) \/ aks_gcds n xs = Some (Some PPrime).
Proof.
  intros Hn. induction xs as [|x xs IH]; cbn [aks_gcds]; [left; split; auto; intros ? []|]. rewrite gcd_spec. cbn [obind].
  destruct (N.eqb_spec (N.gcd n x) 1) as [G|G]; cbn [negb].
  - destruct IH as [(E & H)|E]; rewrite E; [left|right; auto]. split; auto. intros y [<-|Hy]; auto.
  - right. destruct (proj2 Hn (N.gcd n x) (N.gcd_divide_l _ _)) as [|E]; [contradiction|]. rewrite E, N.eqb_refl. destruct (try_divisors_spec n) as (t & Et & Ht). rewrite Et. cbn [obind].
    destruct t; auto; try (destruct Hn; lia). apply composite_not_prime in Ht. contradiction.
Qed.
Lemma in_set s b : In b (aks_set s) <-> 2 <= b /\ b < s + 2.
Proof.
  unfold aks_set. rewrite in_map_iff. split.
  - intros (k & <- & Hk). apply in_seq in Hk. lia.
  - intros H. exists (N.to_nat (b - 2)). split; [lia|]. apply in_seq. lia.
Qed.
Lemma set_lt n s b : 1 < n -> (forall x, In x (aks_set s) -> N.gcd n x = 1) -> In b (aks_set s) -> b < n.
Proof.
  intros Hn H Hb. destruct (N.lt_ge_cases b n); auto. exfalso. apply in_set in Hb. assert (In n (aks_set s)) by (apply in_set; lia). apply H in H1. rewrite N.gcd_diag in H1. lia.
Qed.
Lemma bitcount_gt x : x < 2 ^ N.of_nat (bitcount x).
Proof. unfold bitcount. rewrite length_bits. apply N.size_gt. Qed.
Lemma all_true f l : (forall b, In b l -> f b = Some true) -> aks_all f l = Some true.
Proof. induction l as [|b l IH]; intros H; cbn [aks_all]; auto. rewrite H by (left; auto). cbn [obind]. apply IH. intros; apply H; right; auto. Qed.
Lemma tail_prime dbg n r s : prime_N n -> prime_N r -> N.gcd n r = 1 ->
  (let S := aks_set s in
          do t1 <- aks_gcds n S;
          match t1 with
          | Some t => Some t
          | None =>
              do t2 <- aks_gcds n (aks_prods S);
              match t2 with
              | Some t => Some t
              | None =>
                  do t3 <- aks_gcds n (aks_diffs S);
                  match t3 with
                  | Some t => Some t
                  | None =>
                      if existsb (fun b => negb (powmod (b mod n) (n - 1) n =? 1)) S then Some PComposite
                      else
                        do c <- aks_all (aks_congruence dbg n (N.to_nat r) (N.of_nat (bitcount (n * n * r)))) S;
                        Some (if c then PPrime else PComposite)
                  end
              end
          end) = Some PPrime.
Proof.
  intros Hn Hr G. cbv zeta. assert (H1 : 1 < n) by apply Hn. assert (R1 : 1 < r) by apply Hr.
  destruct (gcds_prime n Hn (aks_set s)) as [(E & Hs)|E]; rewrite E; cbn [obind]; auto.
  destruct (gcds_prime n Hn (aks_prods (aks_set s))) as [(E2 & _)|E2]; rewrite E2; cbn [obind]; auto.
  destruct (gcds_prime n Hn (aks_diffs (aks_set s))) as [(E3 & _)|E3]; rewrite E3; cbn [obind]; auto.
  destruct (existsb _ _) eqn:Ex.
  - exfalso. apply existsb_exists in Ex as (b & Hb & Ex).
    assert (D : ~ (n | b)). { intros D. pose proof (Hs b Hb) as Gb. pose proof (N.gcd_greatest n b n (N.divide_refl n) D) as D'. rewrite Gb in D'. apply div_le in D'; lia. }
    rewrite powmod_spec in Ex by lia. rewrite pow_mod_base in Ex by lia. rewrite (fermat_N n b Hn D) in Ex. discriminate.
  - rewrite all_true; auto. intros b Hb. apply congruence_prime; auto.
    + apply (ssrbool.introT ssrnat.ltP). lia.
    + rewrite N2Nat.id. apply bitcount_gt.
    + apply (set_lt n s b); auto.
    + rewrite N2Nat.id. intros E0. apply div_mod0 in E0; [|lia]. pose proof (N.gcd_greatest n r r E0 (N.divide_refl r)) as D'. rewrite G in D'. apply div_le in D'; lia.
Qed.
Theorem aks_prime_only dbg fac fuel n t : prime_N n -> aks dbg fac fuel n = Some t -> t = PPrime.
Proof.
  intros Hn. unfold aks. destruct (is_power_test fuel n) as [t0|] eqn:E0; cbn [obind]; [|discriminate]. rewrite (power_sound _ _ _ Hn E0).
  destruct (aks_find_r _ _ _ _ _ _) as [rr|] eqn:E1; cbn [obind]; [|discriminate]. apply (find_sound fac fuel n _ Hn fuel pg_new rr PG_new) in E1. destruct rr as [t'|r]; [intros [= <-]; auto|]. destruct E1 as (Pr & G).
  destruct (aks_s dbg fuel n r) as [s|]; cbn [obind]; [|discriminate]. intros E. pose proof (tail_prime dbg n r s Hn Pr G) as T. cbv zeta in T, E. rewrite T in E. injection E as <-. auto.
Qed.

(* ---------- the search for r and s succeeds *)
Lemma r0_le n : 3 <= n -> aks_r0 n <= n /\ 3 <= aks_r0 n.
Proof.
  intros Hn. unfold aks_r0. cbv zeta. set (a := N.of_nat (bitcount n) - 1). assert (Ha : 2 ^ a <= n).
  { subst a. unfold bitcount. rewrite length_bits. destruct n as [|q]; [lia|]. pose proof (N.size_le (Npos q)). rewrite N.succ_double_spec in H.
    assert (S : N.size (Npos q) = N.succ (N.size (Npos q) - 1)). { assert (0 < N.size (Npos q)) by reflexivity. lia. } rewrite S in H at 1. rewrite N.pow_succ_r in H by lia. lia. }
  assert (L : forall k : nat, N.of_nat k * N.of_nat k <= 4 * 2 ^ N.of_nat k).
  { induction k as [|k IH]; [cbn; lia|]. rewrite Nat2N.inj_succ, N.pow_succ_r by lia. pose proof (N.pow_gt_lin_r 2 (N.of_nat k) ltac:(lia)). nia. }
  specialize (L (N.to_nat a)). rewrite N2Nat.id in L. assert (a * a / 100 <= n). { apply N.div_le_upper_bound; lia. }
  destruct (N.ltb_spec (a * a / 100) 3); lia.
Qed.
Definition fac_right (fac : N -> option (option fmap)) (n : N) : Prop := forall m, 0 < m <= n -> exists l, fac m = Some (Some l) /\ factorisation_of m l.
Lemma totient_prime r : prime_N r -> totient_spec r = r - 1.
Proof.
  intros H. assert (F : factorisation_of r [(r, 1)]). { split; [repeat constructor; intros []|]. split; [intros p k [[= <- <-]|[]]; split; auto; lia|]. cbn [prod_powers]. rewrite N.pow_1_r. lia. }
  rewrite <- (totient_formula r _ F). cbn [tot_prod]. change (1 - 1) with 0. rewrite N.pow_0_r. lia.
Qed.
Lemma root_prime fac r n : prime_N r -> (exists l, fac (r - 1) = Some (Some l) /\ factorisation_of (r - 1) l) -> exists t, is_primitive_root fac [(r, 1)] n = Some t.
Proof.
  intros H (l & E & Hl). assert (F : factorisation_of r [(r, 1)]). { split; [repeat constructor; intros []|]. split; [intros p k [[= <- <-]|[]]; split; auto; lia|]. cbn [prod_powers]. rewrite N.pow_1_r. lia. }
  rewrite <- (totient_prime r H) in E, Hl. destruct (is_primitive_root_spec fac r _ n l F E Hl) as (t & Et & _); [apply H|]. eauto.
Qed.
Lemma find_ok fac fuel n r0 : prime_N n -> r0 <= n -> fac_right fac n -> n < N.of_nat fuel -> forall steps g, PGinv g -> pg_n g <= n -> n - pg_n g < N.of_nat steps ->
  aks_find_r fac fuel steps n r0 g = Some (inl PPrime) \/ exists r, aks_find_r fac fuel steps n r0 g = Some (inr r) /\ prime_N r /\ N.gcd n r = 1 /\ r0 <= r /\ r < n.
Proof.
  intros Hn H0 Hf Hfu. induction steps as [|s IH]; intros g I Hg Hs; [lia|]. cbn [aks_find_r].
  destruct (next_spec fuel g n I Hn Hg) as (r & g' & E & I' & Pr & L1 & L2 & Eg & _); [lia|]. rewrite E. cbn [obind].
  assert (R1 : 1 < r) by apply Pr.
  destruct (N.ltb_spec r r0) as [L|L]; [apply IH; auto; lia|].
  destruct (root_prime fac r n Pr) as (t & Et); [apply Hf; lia|]. rewrite Et. cbn [obind].
  unfold is_primitive_root in Et. rewrite expand_prime, gcd_spec in Et. cbn [obind] in Et.
  destruct (N.eqb_spec (N.gcd n r) 1) as [G|G]; cbn [negb] in Et.
  - assert (r <> n) by (intros ->; rewrite N.gcd_diag in G; destruct Hn; lia).
    destruct t; [| |right; exists r; repeat split; auto; try apply Pr; lia].
    + destruct (fac _) as [[l|]|]; cbn [obind] in Et; try discriminate. destruct (existsb _ l); discriminate.
    + apply IH; auto; lia.
  - injection Et as <-. left. destruct (prime_gcd n r Hn) as [|D]; [contradiction|]. destruct Pr as (_ & R2). destruct (R2 n D) as [->| ->]; [destruct Hn; lia|]. rewrite N.eqb_refl. auto.
Qed.
