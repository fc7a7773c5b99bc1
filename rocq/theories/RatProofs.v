(* p-adic valuations and rounding *)
From Coq Require Import QArith Qround Qpower Qfield ZArith Znumtheory NArith List Bool Lia Lqa.
From Verif Require Import NatSpec RatSpec RatModel NatProofs NatProofs4.
Import ListNotations.
Local Open Scope Q_scope.

(* ---------- the loop *)
Lemma val_loop_spec p : (2 <= p)%N -> forall f n k, (0 < n)%N -> (N.size_nat n < f)%nat -> exists j, val_loop f p n k = Some (k + Z.of_N j)%Z /\ (p ^ j | n)%N /\ ~ (p ^ (j + 1) | n)%N.
Proof.
  intros Hp. induction f as [|f IH]; intros n k Hn Hf; [lia|]. cbn [val_loop]. destruct (N.eqb_spec (n mod p) 0) as [E|E].
  - pose proof (size_half n p Hp Hn E) as Hs. apply N.mod_divide in E as [c Hc]; [|lia]. assert (Hq : (n / p = c)%N) by (rewrite Hc; apply N.div_mul; lia). rewrite Hq in *.
    destruct (IH c (k + 1)%Z) as (j & E & D & ND); [destruct (N.eq_dec c 0) as [->|]; lia|lia|]. exists (j + 1)%N. split; [rewrite E; f_equal; lia|]. rewrite Hc. split.
    + rewrite N.pow_add_r, N.pow_1_r. apply N.mul_divide_mono_r. auto.
    + rewrite N.pow_add_r, N.pow_1_r. intros C. apply N.mul_divide_cancel_r in C; [contradiction|lia].
  - exists 0%N. split; [f_equal; lia|]. rewrite N.pow_0_r. split; [exists n; lia|]. change (0 + 1)%N with 1%N. rewrite N.pow_1_r. rewrite <- N.mod_divide by lia. auto.
Qed.
Lemma nat_val_spec p n : (2 <= p)%N -> (0 < n)%N -> exists j, padic_nat_valuation p n = Some (Finite (Z.of_N j)) /\ (p ^ j | n)%N /\ ~ (p ^ (j + 1) | n)%N.
Proof.
  intros Hp Hn. unfold padic_nat_valuation. destruct (N.eqb_spec n 0); [lia|]. destruct (val_loop_spec p Hp (S (N.size_nat n)) n 0 Hn ltac:(lia)) as (j & E & H). exists j. rewrite E. split; auto.
Qed.
Lemma exact_power p j n : (2 <= p)%N -> (p ^ j | n)%N -> ~ (p ^ (j + 1) | n)%N -> exists c, (n = c * p ^ j /\ ~ (p | c))%N.
Proof.
  intros Hp [c Hc] ND. exists c. split; auto. intros [d Hd]. apply ND. exists d. rewrite N.pow_add_r, N.pow_1_r, Hc, Hd. lia.
Qed.
Lemma not_div_Z p c : ~ (p | c)%N -> ~ (Z.of_N p | Z.of_N c)%Z.
Proof. intros H [d Hd]. apply H. destruct (N.eq_dec p 0) as [->|Hp]; [exists 0%N; lia|]. exists (Z.to_N d). nia. Qed.
(* ---------- uniqueness *)
Lemma primeZ' p : prime_N p -> prime (Z.of_N p).
Proof.
  intros [H1 H2]. apply prime_alt. split; [lia|]. intros d Hd Hdiv. destruct (H2 (Z.to_N d)) as [E|E]; [|lia|lia]. destruct Hdiv as [c Hc]. exists (Z.to_N c). apply N2Z.inj. rewrite N2Z.inj_mul, !Z2N.id by nia. auto.
Qed.
Lemma Qpow_nz p k : (2 <= p)%N -> ~ Qpower (inject_Z (Z.of_N p)) k == 0.
Proof. intros Hp. apply Qpower_not_0. intros E. unfold Qeq in E. cbn in E. lia. Qed.
Lemma inject_nz a : (a <> 0)%Z -> ~ inject_Z a == 0. Proof. intros H E. apply H. unfold Qeq in E. cbn in E. lia. Qed.
Lemma not_div_nz q b : ~ (q | b)%Z -> b <> 0%Z. Proof. intros H ->. apply H. apply Z.divide_0_r. Qed.
Lemma Qpow_nat p k : (0 <= k)%Z -> Qpower (inject_Z (Z.of_N p)) k == inject_Z (Z.of_N p ^ k).
Proof. intros Hk. symmetry. apply Zpower_Qpower. auto. Qed.
Lemma val_unique_le p r k l : prime_N p -> has_valuation p r k -> has_valuation p r l -> (k <= l)%Z -> k = l.
Proof.
  intros Pp (a & b & Ha & Hb & E1) (c & d & Hc & Hd & E2) Hle. assert (Hp : (2 <= p)%N) by (destruct Pp; lia). destruct (Z.eq_dec k l) as [|Hne]; auto. exfalso.
  (* a * d = c * b * p^(l-k) *)
  assert (E : inject_Z (a * d) == inject_Z (c * b * Z.of_N p ^ (l - k))).
  { rewrite !inject_Z_mult, <- Qpow_nat by lia. pose proof (Qpow_nz p k Hp) as Pk. pose proof (inject_nz b (not_div_nz _ _ Hb)) as Nb. pose proof (inject_nz d (not_div_nz _ _ Hd)) as Nd.
    assert (Es : Qpower (inject_Z (Z.of_N p)) l == Qpower (inject_Z (Z.of_N p)) k * Qpower (inject_Z (Z.of_N p)) (l - k)).
    { rewrite <- Qpower_plus by (intros E; unfold Qeq in E; cbn in E; lia). replace (k + (l - k))%Z with l by lia. reflexivity. }
    rewrite Es in E2. set (P := Qpower (inject_Z (Z.of_N p)) k) in *. set (M := Qpower (inject_Z (Z.of_N p)) (l - k)) in *.
    assert (F : inject_Z a * inject_Z d * P == inject_Z c * inject_Z b * M * P).
    { transitivity (r * inject_Z b * inject_Z d); [rewrite E1; ring|]. transitivity (r * inject_Z d * inject_Z b); [ring|]. rewrite E2. ring. }
    apply Qmult_inj_r in F; auto. }
  unfold Qeq in E. cbn in E. rewrite !Z.mul_1_r in E. assert (D : (Z.of_N p | a * d)%Z). { rewrite E. apply Z.divide_mul_r. exists (Z.of_N p ^ (l - k - 1))%Z. rewrite Z.mul_comm, <- Z.pow_succ_r by lia. f_equal. lia. }
  apply prime_mult in D; [|apply primeZ'; auto]. destruct D; contradiction.
Qed.
Lemma val_unique p r k l : prime_N p -> has_valuation p r k -> has_valuation p r l -> k = l.
Proof. intros Pp H1 H2. destruct (Z.le_ge_cases k l) as [H|H]; [apply (val_unique_le p r k l)|symmetry; apply (val_unique_le p r l k)]; auto. Qed.
Lemma has_val_nz p r k : (2 <= p)%N -> has_valuation p r k -> ~ r == 0.
Proof.
  intros Hp (a & b & Ha & Hb & E) Hr. rewrite Hr, Qmult_0_l in E. symmetry in E. apply Qmult_integral in E. destruct E as [E|E]; [apply (inject_nz a (not_div_nz _ _ Ha)); auto|apply (Qpow_nz p k Hp); auto].
Qed.
Lemma has_val_eq p r s k : r == s -> has_valuation p r k -> has_valuation p s k.
Proof. intros E (a & b & H1 & H2 & H3). exists a, b. rewrite <- E. auto. Qed.
(* ---------- existence: the function computes it *)
Lemma rat_val_spec p r : prime_N p -> (padic_rat_valuation p r = Some Infinity /\ r == 0) \/ (exists k, padic_rat_valuation p r = Some (Finite k) /\ has_valuation p r k).
Proof.
  intros Pp. assert (Hp : (2 <= p)%N) by (destruct Pp; lia). unfold padic_rat_valuation. pose proof (Qred_correct r) as Hr. generalize dependent (Qred r). intros q Hr. destruct (N.eq_dec (Z.abs_N (Qnum q)) 0) as [E|E].
  - rewrite E. cbn. left. split; auto. rewrite <- Hr. unfold Qeq. cbn. lia.
  - right. destruct (nat_val_spec p (Z.abs_N (Qnum q)) Hp ltac:(lia)) as (j & -> & D1 & N1). destruct (nat_val_spec p (Npos (Qden q)) Hp ltac:(lia)) as (i & -> & D2 & N2). cbn [unwrap_int].
    exists (Z.of_N j - Z.of_N i)%Z. split; auto. apply (has_val_eq p q r); auto. clear r Hr.
    destruct (exact_power p j _ Hp D1 N1) as (c & Hc & Nc). destruct (exact_power p i _ Hp D2 N2) as (d & Hd & Nd).
    exists (Z.sgn (Qnum q) * Z.of_N c)%Z, (Z.of_N d). split; [|split; [apply not_div_Z; auto|]].
    + intros C. apply (not_div_Z p c Nc). destruct C as [e He]. exists (Z.sgn (Qnum q) * e)%Z. assert (Z.sgn (Qnum q) * Z.sgn (Qnum q) = 1)%Z by (destruct (Qnum q); cbn in *; lia). nia.
    + rewrite Qpower_minus by (intros C; unfold Qeq in C; cbn in C; lia). rewrite !Qpow_nat by lia.
      assert (Pi : (Z.of_N p ^ Z.of_N i <> 0)%Z) by (apply Z.pow_nonzero; lia). pose proof (inject_nz _ Pi) as NP.
      assert (Hn : (Qnum q = Z.sgn (Qnum q) * Z.of_N c * Z.of_N p ^ Z.of_N j)%Z). { rewrite <- Z.mul_assoc. replace (Z.of_N c * Z.of_N p ^ Z.of_N j)%Z with (Z.abs (Qnum q)); [symmetry; rewrite Z.mul_comm; apply Z.abs_sgn|]. rewrite <- N2Z.inj_pow, <- N2Z.inj_mul, <- Hc. lia. }
      assert (Hde : (Zpos (Qden q) = Z.of_N d * Z.of_N p ^ Z.of_N i)%Z). { rewrite <- N2Z.inj_pow, <- N2Z.inj_mul, <- Hd. reflexivity. }
      assert (Eq0 : q == inject_Z (Qnum q) / inject_Z (Zpos (Qden q))) by (rewrite <- Qmake_Qdiv; destruct q; reflexivity).
      transitivity (inject_Z (Qnum q) / inject_Z (Zpos (Qden q)) * inject_Z (Z.of_N d)); [apply Qmult_comp; [exact Eq0|reflexivity]|]. rewrite Hn at 1. rewrite Hde, !inject_Z_mult. field. split; auto. apply inject_nz. apply (not_div_nz (Z.of_N p)). apply not_div_Z; auto.
Qed.
Lemma rat_val_iff p r k : prime_N p -> (padic_rat_valuation p r = Some (Finite k) <-> has_valuation p r k).
Proof.
  intros Pp. assert (Hp : (2 <= p)%N) by (destruct Pp; lia). destruct (rat_val_spec p r Pp) as [[E H]|(j & E & H)]; rewrite E; split; intros C; try discriminate.
  - exfalso. apply (has_val_nz p r k Hp C H).
  - injection C as <-. auto.
  - f_equal. f_equal. apply (val_unique p r); auto.
Qed.
Lemma rat_val_inf p r : prime_N p -> (padic_rat_valuation p r = Some Infinity <-> r == 0).
Proof.
  intros Pp. assert (Hp : (2 <= p)%N) by (destruct Pp; lia). destruct (rat_val_spec p r Pp) as [[E H]|(j & E & H)]; rewrite E; split; intros C; auto; try discriminate. exfalso. apply (has_val_nz p r j Hp H C).
Qed.
Lemma has_val_mul p r s k l : prime_N p -> has_valuation p r k -> has_valuation p s l -> has_valuation p (r * s) (k + l).
Proof.
  intros Pp (a & b & Ha & Hb & E1) (c & d & Hc & Hd & E2). exists (a * c)%Z, (b * d)%Z. split; [|split].
  - intros C. apply prime_mult in C; [|apply primeZ'; auto]. tauto.
  - intros C. apply prime_mult in C; [|apply primeZ'; auto]. tauto.
  - rewrite !inject_Z_mult, Qpower_plus by (intros E; unfold Qeq in E; cbn in E; destruct Pp; lia).
    transitivity ((r * inject_Z b) * (s * inject_Z d)); [ring|]. rewrite E1, E2. ring.
Qed.
Lemma int_val p (e : Z) : prime_N p -> e <> 0%Z -> exists j, (0 <= j)%Z /\ has_valuation p (inject_Z e) j.
Proof.
  intros Pp He. assert (Hp : (2 <= p)%N) by (destruct Pp; lia). destruct (nat_val_spec p (Z.abs_N e) Hp ltac:(lia)) as (j & _ & D1 & N1). destruct (exact_power p j _ Hp D1 N1) as (c & Hc & Nc).
  exists (Z.of_N j). split; [lia|]. exists (Z.sgn e * Z.of_N c)%Z, 1%Z. split; [|split].
  - intros [f Hf]. apply (not_div_Z p c Nc). exists (Z.sgn e * f)%Z. assert (Z.sgn e * Z.sgn e = 1)%Z by (destruct e; cbn in *; lia). nia.
  - intros [f Hf]. assert (Z.of_N p = 1 \/ Z.of_N p = -1)%Z by (apply Z.divide_1_r; exists f; auto). lia.
  - rewrite Qpow_nat by lia. rewrite Qmult_1_r, <- inject_Z_mult. assert (H : (e = Z.sgn e * Z.of_N c * Z.of_N p ^ Z.of_N j)%Z); [|rewrite <- H; reflexivity].
    rewrite <- Z.mul_assoc. replace (Z.of_N c * Z.of_N p ^ Z.of_N j)%Z with (Z.abs e); [symmetry; rewrite Z.mul_comm; apply Z.abs_sgn|]. rewrite <- N2Z.inj_pow, <- N2Z.inj_mul, <- Hc. lia.
Qed.
Lemma has_val_div_int p r (b : Z) k : prime_N p -> ~ (Z.of_N p | b)%Z -> has_valuation p (r * inject_Z b) k -> has_valuation p r k.
Proof.
  intros Pp Nb (a & d & Ha & Hd & E). exists a, (b * d)%Z. split; auto. split; [intros C; apply prime_mult in C; [|apply primeZ'; auto]; tauto|]. rewrite inject_Z_mult, Qmult_assoc. auto.
Qed.
Lemma has_val_add p r s k l : prime_N p -> has_valuation p r k -> has_valuation p s l -> (k <= l)%Z -> r + s == 0 \/ exists j, has_valuation p (r + s) j /\ (k <= j)%Z /\ ((k < l)%Z -> j = k).
Proof.
  intros Pp (a & b & Ha & Hb & E1) (c & d & Hc & Hd & E2) Hle. assert (Hp : (2 <= p)%N) by (destruct Pp; lia).
  set (e := (a * d + c * b * Z.of_N p ^ (l - k))%Z).
  assert (Es : (r + s) * inject_Z (b * d) == inject_Z e * Qpower (inject_Z (Z.of_N p)) k).
  { unfold e. rewrite inject_Z_plus, !inject_Z_mult, <- Qpow_nat by lia.
    assert (Ep : Qpower (inject_Z (Z.of_N p)) l == Qpower (inject_Z (Z.of_N p)) k * Qpower (inject_Z (Z.of_N p)) (l - k)).
    { rewrite <- Qpower_plus by (intros E; unfold Qeq in E; cbn in E; lia). replace (k + (l - k))%Z with l by lia. reflexivity. }
    transitivity ((r * inject_Z b) * inject_Z d + (s * inject_Z d) * inject_Z b); [ring|]. rewrite E1, E2, Ep. ring. }
  assert (Nbd : ~ (Z.of_N p | b * d)%Z) by (intros C; apply prime_mult in C; [|apply primeZ'; auto]; tauto).
  destruct (Z.eq_dec e 0) as [H0|H0].
  - left. rewrite H0, Qmult_0_l in Es. apply Qmult_integral in Es. destruct Es as [|Es]; auto. exfalso. apply (inject_nz _ (not_div_nz _ _ Nbd)); auto.
  - right. assert (Vk : has_valuation p (Qpower (inject_Z (Z.of_N p)) k) k).
    { exists 1%Z, 1%Z. assert (~ (Z.of_N p | 1)%Z) by (intros C; apply Z.divide_1_r in C; lia). split; auto. split; auto. ring. }
    destruct (int_val p e Pp H0) as (j & Hj & Vj). exists (j + k)%Z. split; [|split; [lia|]].
    + apply (has_val_div_int p _ (b * d)); auto. apply (has_val_eq p (inject_Z e * Qpower (inject_Z (Z.of_N p)) k)); [symmetry; auto|]. apply has_val_mul; auto.
    + intros Hlt. assert (Ve : has_valuation p (inject_Z e) 0).
      { exists e, 1%Z. split; [|split; [intros C; apply Z.divide_1_r in C; lia|cbn; ring]]. intros C. unfold e in C. rewrite Z.add_comm in C. apply Z.divide_add_cancel_r in C.
        - apply prime_mult in C; [|apply primeZ'; auto]. tauto.
        - apply Z.divide_mul_r. exists (Z.of_N p ^ (l - k - 1))%Z. rewrite Z.mul_comm, <- Z.pow_succ_r by lia. f_equal. lia. }
      pose proof (val_unique p _ j 0 Pp Vj Ve). lia.
Qed.
Lemma rat_val_add p r s v w : prime_N p -> padic_rat_valuation p r = Some v -> padic_rat_valuation p s = Some w ->
  exists u, padic_rat_valuation p (r + s) = Some u /\ (val_cmp (match val_cmp v w with Gt => w | _ => v end) u <> Gt) /\ (val_cmp v w = Lt -> u = v) /\ (val_cmp v w = Gt -> u = w).
Proof.
  assert (Sym : forall r s v w, prime_N p -> padic_rat_valuation p r = Some (Finite v) -> padic_rat_valuation p s = Some (Finite w) -> (v <= w)%Z ->
    exists u, padic_rat_valuation p (r + s) = Some u /\ match u with Infinity => v = w | Finite z => (v <= z)%Z /\ ((v < w)%Z -> z = v) end).
  { clear. intros r s v w Pp H1 H2 Hle. apply rat_val_iff in H1; auto. apply rat_val_iff in H2; auto. destruct (has_val_add p r s v w Pp H1 H2 Hle) as [E|(j & Vj & H3 & H4)].
    - exists Infinity. split; [apply rat_val_inf; auto|]. destruct (Z.eq_dec v w); auto. exfalso.
      assert (Es : s == - (r)) by (rewrite <- (Qplus_0_l (- r)), <- E; ring). assert (V2 : has_valuation p s v).
      { destruct H1 as (a & b & Ha & Hb & E1). exists (- a)%Z, b. split; [intros C; apply Ha; apply Z.divide_opp_r; auto|]. split; auto. rewrite Es, inject_Z_opp. transitivity (- (r * inject_Z b)); [ring|]. rewrite E1. ring. }
      pose proof (val_unique p s v w Pp V2 H2). lia.
    - exists (Finite j). split; [apply rat_val_iff; auto|]. auto. }
  intros Pp H1 H2. destruct v as [|v], w as [|w]; cbn [val_cmp].
  - exists Infinity. split; [|cbn; split; [discriminate|split; discriminate]]. apply rat_val_inf in H1; auto. apply rat_val_inf in H2; auto. apply rat_val_inf; auto. rewrite H1, H2. ring.
  - exists (Finite w). split; [|cbn; rewrite Z.compare_refl; split; [discriminate|split; [discriminate|auto]]]. apply rat_val_inf in H1; auto. apply rat_val_iff; auto. apply (has_val_eq p s); [rewrite H1; ring|]. apply rat_val_iff; auto.
  - exists (Finite v). split; [|cbn; rewrite Z.compare_refl; split; [discriminate|split; [auto|discriminate]]]. apply rat_val_inf in H2; auto. apply rat_val_iff; auto. apply (has_val_eq p r); [rewrite H2; ring|]. apply rat_val_iff; auto.
  - destruct (Z.compare_spec v w) as [->|Hlt|Hlt].
    + destruct (Sym r s w w Pp H1 H2 ltac:(lia)) as (u & E & Hu). exists u. split; auto. split; [|split; discriminate]. destruct u as [|z]; cbn; [discriminate|]. destruct Hu as [Hu _]. destruct (Z.compare_spec w z); try discriminate; lia.
    + destruct (Sym r s v w Pp H1 H2 ltac:(lia)) as (u & E & Hu). exists u. split; auto. destruct u as [|z]; [lia|]. destruct Hu as [Hu1 Hu2]. rewrite (Hu2 Hlt). cbn. rewrite Z.compare_refl. split; [discriminate|split; [auto|discriminate]].
    + destruct (Sym s r w v Pp H2 H1 ltac:(lia)) as (u & E & Hu). exists u. split.
      * destruct u as [|z]; [apply rat_val_inf; auto; apply rat_val_inf in E; auto; rewrite Qplus_comm; auto|apply rat_val_iff; auto; apply rat_val_iff in E; auto; apply (has_val_eq p (s + r)); auto; ring].
      * destruct u as [|z]; [lia|]. destruct Hu as [Hu1 Hu2]. rewrite (Hu2 Hlt). cbn. rewrite Z.compare_refl. split; [discriminate|split; [discriminate|auto]].
Qed.
