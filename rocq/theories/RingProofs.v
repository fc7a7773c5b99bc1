(* Lemmas about generic rings, Euclid, quotients *)
From Coq Require Import List Arith NArith ZArith Bool Lia Setoid Morphisms Ring Ring_theory.
From Verif Require Import RingSpec RingModel.
Import ListNotations.
Open Scope rs_scope.

Section R.
Context (R : ring_ops) (L : ring_laws R).
Notation T := (T R).
Definition eqv (a b : T) : Prop := a == b.
Arguments eqv : simpl never.
Instance eqv_equiv : Equivalence eqv.
Proof. destruct L. split; red; unfold eqv; eauto. Qed.
Instance add_proper : Proper (eqv ==> eqv ==> eqv) (@radd R).
Proof. destruct L. repeat red; unfold eqv; auto. Qed.
Instance mul_proper : Proper (eqv ==> eqv ==> eqv) (@rmul R).
Proof. destruct L. repeat red; unfold eqv; auto. Qed.
Instance neg_proper : Proper (eqv ==> eqv) (@rneg R).
Proof. destruct L. repeat red; unfold eqv; auto. Qed.

Lemma rth : ring_theory (@r0 R) r1 radd rmul (fun a b => a + - b) rneg eqv.
Proof.
  destruct L. split; unfold eqv; auto.
Qed.
Lemma rext : ring_eq_ext radd rmul rneg eqv.
Proof. split; try exact add_proper; try exact mul_proper; exact neg_proper. Qed.
Add Ring RR : rth (setoid eqv_equiv rext).

Lemma eqv_dec (a b : T) : {eqv a b} + {~ eqv a b}.
Proof. unfold eqv. destruct (req a b); [left|right]; congruence. Qed.
Lemma neqv a b : a =/= b <-> ~ eqv a b.
Proof. unfold eqv. destruct (req a b); split; congruence. Qed.
Lemma is_zero_true a : is_zero a = true -> eqv a r0.
Proof. intros H; exact H. Qed.
Lemma is_zero_false a : is_zero a = false <-> ~ eqv a r0.
Proof. unfold is_zero. rewrite <- neqv. tauto. Qed.

(* ---------- divisibility *)
Lemma rdvd_ref a : @rdvd R a a.
Proof. exists r1. fold (eqv a (a * r1)). ring. Qed.
Lemma rdvd_trans a b c : @rdvd R a b -> rdvd b c -> rdvd a c.
Proof. intros [x Hx] [y Hy]. exists (x * y). fold (eqv b (a * x)) in Hx. fold (eqv c (b * y)) in Hy.
  fold (eqv c (a * (x * y))). rewrite Hy, Hx. ring. Qed.
Lemma rdvd_0 a : @rdvd R a r0.
Proof. exists r0. fold (eqv r0 (a * r0)). ring. Qed.
Lemma rdvd_add a b c : @rdvd R a b -> rdvd a c -> rdvd a (b + c).
Proof. intros [x Hx] [y Hy]. exists (x + y). fold (eqv b (a * x)) in Hx. fold (eqv c (a * y)) in Hy.
  fold (eqv (b + c) (a * (x + y))). rewrite Hy, Hx. ring. Qed.
Lemma rdvd_mul_l a b c : @rdvd R a b -> rdvd a (c * b).
Proof. intros [x Hx]. exists (c * x). fold (eqv b (a * x)) in Hx. fold (eqv (c * b) (a * (c * x))). rewrite Hx. ring. Qed.
Lemma rdvd_mul_r a b c : @rdvd R a b -> rdvd a (b * c).
Proof. intros [x Hx]. exists (x * c). fold (eqv b (a * x)) in Hx. fold (eqv (b * c) (a * (x * c))). rewrite Hx. ring. Qed.
Lemma rdvd_ext a a' b b' : eqv a a' -> eqv b b' -> @rdvd R a b -> rdvd a' b'.
Proof. intros Ha Hb [x Hx]. exists x. fold (eqv b (a * x)) in Hx. fold (eqv b' (a' * x)). rewrite <- Ha, <- Hb. exact Hx. Qed.
Instance rdvd_proper : Proper (eqv ==> eqv ==> iff) (@rdvd R).
Proof. intros a a' Ha b b' Hb. split; apply rdvd_ext; auto; symmetry; auto. Qed.
Instance runit_proper : Proper (eqv ==> iff) (@runit R).
Proof. intros a a' Ha. unfold runit. split; intros [c Hc]; exists c.
  - fold (eqv (a' * c) r1). rewrite <- Ha. exact Hc.
  - fold (eqv (a * c) r1). rewrite Ha. exact Hc. Qed.
Lemma runit_1 : @runit R r1.
Proof. exists r1. fold (eqv (r1 * r1) r1). ring. Qed.
Lemma runit_mul a b : @runit R a -> runit b -> runit (a * b).
Proof. intros [x Hx] [y Hy]. exists (x * y). fold (eqv (a * x) r1) in Hx. fold (eqv (b * y) r1) in Hy.
  fold (eqv (a * b * (x * y)) r1). transitivity ((a * x) * (b * y)); [ring|]. rewrite Hx, Hy. ring. Qed.
Lemma is_gcd_ext g g' a a' b b' : eqv g g' -> eqv a a' -> eqv b b' -> @is_gcd R g a b -> is_gcd g' a' b'.
Proof. intros Hg Ha Hb (H1 & H2 & H3). repeat split.
  - rewrite <- Hg, <- Ha; auto. - rewrite <- Hg, <- Hb; auto.
  - intros d. rewrite <- Hg, <- Ha, <- Hb; auto. Qed.

(* ---------- powers *)
Instance npow_proper : Proper (eqv ==> eq ==> eqv) (@npow R).
Proof. intros a a' Ha n n' <-. induction n as [|n IH]; cbn; [reflexivity|]. apply mul_proper; auto. Qed.
Lemma npow_add (a : T) m n : eqv (npow a (m + n)) (npow a m * npow a n).
Proof. induction m as [|m IH]; cbn [npow Nat.add]; [ring|]. rewrite IH. ring. Qed.
Lemma npow_mul_base (a b : T) n : eqv (npow (a * b) n) (npow a n * npow b n).
Proof. induction n as [|n IH]; cbn; [ring|]. rewrite IH. ring. Qed.
Lemma npow_sq (a : T) n : eqv (npow (a * a) n) (npow a (n + n)).
Proof. rewrite npow_mul_base, npow_add. reflexivity. Qed.

Lemma squares_len e (a : T) : length (squares e a) = S e.
Proof. revert a; induction e as [|e IH]; intros a; cbn; auto. Qed.
Lemma pow_loop_spec p : forall (a ans : T),
  eqv (pow_loop (pos_bits p) (squares (length (pos_bits p) - 1) a) ans) (ans * npow a (Pos.to_nat p)).
Proof.
  induction p as [p IH|p IH|]; intros a ans; cbn [pos_bits length].
  - assert (Hl : exists k, length (pos_bits p) = S k) by (destruct p; cbn; eauto).
    destruct Hl as [k Hk]. rewrite Hk in *. cbn [Nat.sub squares pow_loop].
    specialize (IH (a * a) (ans * a)). cbn in IH. rewrite Nat.sub_0_r in IH. rewrite IH. rewrite npow_sq.
    replace (Pos.to_nat p~1) with (S (Pos.to_nat p + Pos.to_nat p)) by lia. cbn [npow]. ring.
  - assert (Hl : exists k, length (pos_bits p) = S k) by (destruct p; cbn; eauto).
    destruct Hl as [k Hk]. rewrite Hk in *. cbn [Nat.sub squares pow_loop].
    specialize (IH (a * a) ans). cbn in IH. rewrite Nat.sub_0_r in IH. rewrite IH. rewrite npow_sq.
    replace (Pos.to_nat p~0) with (Pos.to_nat p + Pos.to_nat p)%nat by lia. reflexivity.
  - change (Pos.to_nat 1) with 1%nat; cbn. ring.
Qed.
Lemma nat_pow_ok (a : T) n : eqv (nat_pow a n) (npow a (N.to_nat n)).
Proof.
  unfold nat_pow. destruct (N.eqb_spec n 0) as [->|H0]; [reflexivity|].
  destruct (N.eqb_spec n 1) as [->|H1]; [change (N.to_nat 1) with 1%nat; cbn; ring|].
  destruct n as [|p]; [lia|]. cbn [bits N.to_nat]. rewrite pow_loop_spec. ring.
Qed.

(* ---------- from_nat, from_int *)
Lemma nmul_add m n (a : T) : eqv (nmul (m + n) a) (nmul m a + nmul n a).
Proof. induction m as [|m IH]; cbn; [ring|]. rewrite IH. ring. Qed.
Instance nmul_proper : Proper (eq ==> eqv ==> eqv) (@nmul R).
Proof. intros n n' <- a a' Ha. induction n as [|n IH]; cbn; [reflexivity|]. apply add_proper; auto. Qed.
Lemma nmul_dbl n (a : T) : eqv (nmul n (a * (r1 + r1))) (nmul (n + n) a).
Proof. rewrite nmul_add. induction n as [|n IH]; cbn; [ring|]. rewrite IH. ring. Qed.
Lemma nmul_mul m n : eqv (@nmul R (m * n) r1) (nmul m r1 * nmul n r1).
Proof. induction m as [|m IH]; cbn; [ring|]. rewrite nmul_add, IH. ring. Qed.
Lemma from_nat_loop_spec p : forall (v ans : T),
  eqv (from_nat_loop (pos_bits p) (r1 + r1) v ans) (ans + nmul (Pos.to_nat p) v).
Proof.
  induction p as [p IH|p IH|]; intros v ans; cbn [pos_bits from_nat_loop].
  - rewrite IH, nmul_dbl. replace (Pos.to_nat p~1) with (S (Pos.to_nat p + Pos.to_nat p)) by lia. cbn [nmul]. ring.
  - rewrite IH, nmul_dbl. replace (Pos.to_nat p~0) with (Pos.to_nat p + Pos.to_nat p)%nat by lia. reflexivity.
  - change (Pos.to_nat 1) with 1%nat; cbn. ring.
Qed.
Lemma from_nat_ok n : eqv (@from_nat R n) (nmul (N.to_nat n) r1).
Proof.
  unfold from_nat. destruct (N.eqb_spec n 0) as [->|H0]; [reflexivity|].
  destruct (N.eqb_spec n 1) as [->|H1]; [change (N.to_nat 1) with 1%nat; cbn; ring|].
  destruct n as [|p]; [lia|]. cbn [bits N.to_nat]. rewrite from_nat_loop_spec. ring.
Qed.
Lemma from_int_ok z : eqv (@from_int R z) (zmul z).
Proof.
  unfold from_int. destruct z as [|p|p]; cbn [Z.ltb Z.compare Z.abs_N]; rewrite from_nat_ok; cbn; reflexivity.
Qed.
Lemma zmul_sub m n : eqv (@zmul R (Z.of_nat m - Z.of_nat n)) (nmul m r1 + - nmul n r1).
Proof.
  destruct (le_lt_dec n m) as [H|H].
  - assert (E : (Z.of_nat m - Z.of_nat n = Z.of_nat (m - n))%Z) by lia. rewrite E. clear E.
    assert (E : eqv (@zmul R (Z.of_nat (m - n))) (nmul (m - n) r1)).
    { destruct (m - n)%nat eqn:Ek; [reflexivity|]. cbn [Z.of_nat zmul]. rewrite SuccNat2Pos.id_succ. reflexivity. }
    rewrite E. replace m with ((m - n) + n)%nat at 2 by lia. rewrite nmul_add. ring.
  - assert (E : (Z.of_nat m - Z.of_nat n = - Z.of_nat (S (n - m - 1)))%Z) by lia. rewrite E. clear E.
    cbn [Z.of_nat Z.opp zmul]. rewrite SuccNat2Pos.id_succ.
    replace n with (m + S (n - m - 1))%nat at 2 by lia. rewrite nmul_add. ring.
Qed.
Lemma z_as_diff z : exists m n, z = (Z.of_nat m - Z.of_nat n)%Z.
Proof. exists (Z.to_nat z), (Z.to_nat (- z)). lia. Qed.
Lemma zmul_add x y : eqv (@zmul R (x + y)) (zmul x + zmul y).
Proof.
  destruct (z_as_diff x) as (a & b & ->), (z_as_diff y) as (c & d & ->). rewrite !zmul_sub.
  replace (Z.of_nat a - Z.of_nat b + (Z.of_nat c - Z.of_nat d))%Z with (Z.of_nat (a + c) - Z.of_nat (b + d))%Z by lia.
  rewrite zmul_sub, !nmul_add. ring.
Qed.
Lemma zmul_mul x y : eqv (@zmul R (x * y)) (zmul x * zmul y).
Proof.
  destruct (z_as_diff x) as (a & b & ->), (z_as_diff y) as (c & d & ->). rewrite !zmul_sub.
  replace ((Z.of_nat a - Z.of_nat b) * (Z.of_nat c - Z.of_nat d))%Z with (Z.of_nat (a * c + b * d) - Z.of_nat (a * d + b * c))%Z by lia.
  rewrite zmul_sub, !nmul_add, !nmul_mul. ring.
Qed.
Lemma zmul_opp x : eqv (@zmul R (- x)) (- zmul x).
Proof. destruct x; cbn; [ring|reflexivity|ring]. Qed.
Lemma zmul_1 : eqv (@zmul R 1) r1.
Proof. unfold zmul. change (Pos.to_nat 1) with 1%nat; cbn. ring. Qed.
Lemma zmul_0_inv : char_zero R -> forall z, eqv (@zmul R z) r0 -> z = 0%Z.
Proof.
  intros Hc [|p|p] H; auto; exfalso; cbn in H.
  - apply Hc in H. lia.
  - assert (H' : eqv (nmul (Pos.to_nat p) r1) r0). { transitivity (- - @nmul R (Pos.to_nat p) r1); [ring|]. rewrite H. ring. }
    apply Hc in H'. lia.
Qed.
Lemma zmul_inj : char_zero R -> forall x y, eqv (@zmul R x) (zmul y) -> x = y.
Proof.
  intros Hc x y H. assert (x - y = 0)%Z; [|lia]. apply zmul_0_inv; auto.
  unfold Z.sub. rewrite zmul_add, zmul_opp, H. ring.
Qed.

(* ---------- integer iterator *)
Definition nth_int (i : nat) : Z := if Nat.even i then (- Z.of_nat (Nat.div2 i))%Z else Z.of_nat (Nat.div2 (S i)).
Lemma nth_int_S i : nth_int (S i) = if (0 <? nth_int i)%Z then (- nth_int i)%Z else (1 - nth_int i)%Z.
Proof.
  unfold nth_int. rewrite Nat.even_succ, <- Nat.negb_even. destruct (Nat.even i) eqn:E.
  - cbn [negb]. pose proof (Nat.div2_double (Nat.div2 i)). 
    apply Nat.even_spec in E as [k ->]. rewrite Nat.div2_double.
    assert (E2 : Nat.div2 (S (S (2 * k))) = S k) by (cbn [Nat.div2]; rewrite Nat.div2_double; auto). rewrite E2.
    destruct (Z.ltb_spec 0 (- Z.of_nat k)); lia.
  - cbn [negb]. rewrite <- Nat.negb_odd in E. apply negb_false_iff in E. apply Nat.odd_spec in E as [k ->].
    assert (E2 : Nat.div2 (S (2 * k + 1)) = S k). { replace (S (2 * k + 1)) with (2 * S k)%nat by lia. apply Nat.div2_double. }
    rewrite E2. destruct (Z.ltb_spec 0 (Z.of_nat (S k))); lia.
Qed.
Lemma int_iter_take_spec m : forall i, @int_iter_take R m (nth_int i) = map (fun j => from_int (nth_int j)) (seq i m).
Proof.
  induction m as [|m IH]; intros i; cbn [int_iter_take seq map]; [reflexivity|].
  unfold int_iter_next. rewrite <- nth_int_S, IH. reflexivity.
Qed.
Lemma nth_int_inj i j : nth_int i = nth_int j -> i = j.
Proof.
  unfold nth_int. intros H.
  assert (Hev : forall i, Nat.even i = true -> i = (2 * Nat.div2 i)%nat).
  { intros k Hk. apply Nat.even_spec in Hk as [q ->]. rewrite Nat.div2_double. lia. }
  assert (Hod : forall i, Nat.even i = false -> S i = (2 * Nat.div2 (S i))%nat).
  { intros k Hk. apply Hev. rewrite Nat.even_succ, <- Nat.negb_even, Hk. reflexivity. }
  destruct (Nat.even i) eqn:Ei, (Nat.even j) eqn:Ej.
  - apply Hev in Ei, Ej. lia.
  - apply Hev in Ei. apply Hod in Ej. lia.
  - apply Hod in Ei. apply Hev in Ej. lia.
  - apply Hod in Ei, Ej. lia.
Qed.
Lemma nth_int_surj z : exists i, nth_int i = z.
Proof.
  unfold nth_int. destruct (Z_le_gt_dec z 0) as [H|H].
  - exists (2 * Z.to_nat (- z))%nat. rewrite Nat.even_mul. cbn [Nat.even orb]. rewrite Nat.div2_double. lia.
  - exists (2 * Z.to_nat z - 1)%nat. assert (E : S (2 * Z.to_nat z - 1) = (2 * Z.to_nat z)%nat) by lia.
    assert (Nat.even (2 * Z.to_nat z - 1) = false).
    { rewrite <- (negb_involutive (Nat.even _)), Nat.negb_even, <- Nat.even_succ, E, Nat.even_mul. reflexivity. }
    rewrite H0, E, Nat.div2_double. lia.
Qed.

(* ---------- integral domains *)
Section Dom.
Context (div : div_op R) (D : idom_laws R div).

Lemma cancel (a x y : T) : ~ eqv a r0 -> eqv (a * x) (a * y) -> eqv x y.
Proof.
  intros Ha H. assert (E : eqv (a * (x + - y)) r0). { transitivity (a * x + - (a * y)); [ring|]. rewrite H. ring. }
  destruct (id_nozerodiv _ _ D _ _ E) as [E'|E']; [contradiction|].
  fold (eqv (x + - y) r0) in E'. transitivity ((x + - y) + y); [ring|]. rewrite E'. ring.
Qed.
Lemma div_spec (a b : T) :
  match div a b with
  | DivOk q => ~ eqv b r0 /\ eqv a (q * b)
  | DivideByZero => eqv b r0
  | NotDivisible => ~ eqv b r0 /\ ~ rdvd b a
  end.
Proof.
  assert (Hz : div a b <> DivideByZero -> ~ eqv b r0).
  { intros H E. apply H. apply (div_zero _ _ D). exact E. }
  destruct (div a b) eqn:E.
  - split; [apply Hz; congruence|]. eapply div_ok; eauto.
  - apply (div_zero _ _ D) in E. exact E.
  - split; [apply Hz; congruence|]. eapply div_not; eauto.
Qed.
Lemma div_exists (a b : T) : ~ eqv b r0 -> rdvd b a -> exists q, div a b = DivOk q /\ eqv a (q * b).
Proof.
  intros Hb Hd. pose proof (div_spec a b) as H. destruct (div a b) as [q| |]; [exists q; tauto|tauto|tauto].
Qed.
Lemma one_ne_zero : ~ eqv (@r1 R) r0.
Proof. apply neqv. apply (id_nontrivial _ _ D). Qed.
Lemma unit_ne_zero (u : T) : runit u -> ~ eqv u r0.
Proof. intros [c Hc] H. apply one_ne_zero. fold (eqv (u * c) r1) in Hc. rewrite <- Hc, H. ring. Qed.
Lemma div_unit (a u : T) : runit u -> exists q, div a u = DivOk q /\ eqv a (q * u).
Proof. intros Hu. apply div_exists; [apply unit_ne_zero; auto|]. destruct Hu as [c Hc]. exists (c * a).
  fold (eqv (u * c) r1) in Hc. fold (eqv a (u * (c * a))). transitivity (u * c * a); [rewrite Hc; ring|ring]. Qed.
Lemma is_unit_ok (a : T) : is_unit div a = true <-> runit a.
Proof.
  unfold is_unit. split.
  - intros H. pose proof (div_spec r1 a) as Hd. destruct (div r1 a) as [q| |]; try discriminate.
    destruct Hd as [_ Hd]. exists q. fold (eqv (a * q) r1). rewrite Hd. ring.
  - intros Hu. destruct (div_unit r1 a Hu) as (q & -> & _). reflexivity.
Qed.
Lemma divisible_ok (a b : T) : divisible div a b = true <-> ~ eqv b r0 /\ rdvd b a.
Proof.
  unfold divisible. split.
  - intros H. pose proof (div_spec a b) as Hd. destruct (div a b) as [q| |]; try discriminate.
    destruct Hd as [H1 Hd]. split; auto. exists q. fold (eqv a (b * q)). rewrite Hd. ring.
  - intros [H1 H2]. destruct (div_exists a b H1 H2) as (q & -> & _). reflexivity.
Qed.
Lemma mutual_assoc (a b : T) : rdvd a b -> rdvd b a -> rassoc a b.
Proof.
  intros [x Hx] [y Hy]. fold (eqv b (a * x)) in Hx. fold (eqv a (b * y)) in Hy.
  destruct (eqv_dec a r0) as [E|E].
  - exists r1. split; [apply runit_1|]. fold (eqv a (r1 * b)). rewrite Hx, E. ring.
  - exists y. split.
    + exists x. fold (eqv (y * x) r1). apply (cancel a); auto. transitivity (b * y); [|rewrite <- Hy; ring]. rewrite Hx. ring.
    + fold (eqv a (y * b)). rewrite Hy at 1. ring.
Qed.
Lemma assoc_dvd (a b : T) : rassoc a b -> rdvd a b /\ rdvd b a.
Proof.
  intros (u & [v Hv] & Hu). fold (eqv (u * v) r1) in Hv. fold (eqv a (u * b)) in Hu. split.
  - exists v. fold (eqv b (a * v)). rewrite Hu. transitivity (u * v * b); [rewrite Hv; ring|ring].
  - exists u. fold (eqv a (b * u)). rewrite Hu. ring.
Qed.
Lemma are_associate_ok (a b : T) : are_associate div a b = true <-> rdvd a b /\ rdvd b a.
Proof.
  unfold are_associate. destruct (req a r0) eqn:Ea; destruct (req b r0) eqn:Eb; cbn [andb].
  - split; auto. intros _. fold (eqv a r0) in Ea. fold (eqv b r0) in Eb. rewrite Ea, Eb. split; apply rdvd_ref.
  - rewrite andb_true_iff, !divisible_ok. fold (eqv a r0) in Ea. split; [tauto|]. intros [[x Hx] _].
    fold (eqv b (a * x)) in Hx. apply neqv in Eb. exfalso; apply Eb. rewrite Hx, Ea. ring.
  - rewrite andb_true_iff, !divisible_ok. fold (eqv b r0) in Eb. split; [tauto|]. intros [_ [x Hx]].
    fold (eqv a (b * x)) in Hx. apply neqv in Ea. exfalso; apply Ea. rewrite Hx, Eb. ring.
  - rewrite andb_true_iff, !divisible_ok. apply neqv in Ea, Eb. tauto.
Qed.

Lemma int_pow_ok (a : T) (n : Z) :
  ((0 <= n)%Z -> exists b, int_pow div a n = Some (Some b) /\ eqv b (npow a (Z.to_nat n))) /\
  ((n < 0)%Z -> runit a -> exists b, int_pow div a n = Some (Some b) /\ eqv (b * npow a (Z.to_nat (- n))) r1) /\
  ((n < 0)%Z -> ~ runit a -> a =/= r0 -> int_pow div a n = Some None).
Proof.
  unfold int_pow. destruct (Z.eqb_spec n 0) as [->|Hn].
  - repeat split; try lia. intros _. exists r1. split; [reflexivity|]. reflexivity.
  - destruct (is_zero a) eqn:Ea.
    + apply is_zero_true in Ea. split; [|split].
      * intros H. exists r0. split; [reflexivity|]. destruct (Z.to_nat n) eqn:E; [lia|]. cbn. rewrite Ea. ring.
      * intros _ Hu. exfalso. apply (unit_ne_zero a); auto.
      * intros _ _ H. apply neqv in H. contradiction.
    + apply is_zero_false in Ea. destruct (Z.ltb_spec 0 n) as [Hp|Hp].
      * split; [|split; lia]. intros _. eexists. split; [reflexivity|]. rewrite nat_pow_ok.
        replace (N.to_nat (Z.abs_N n)) with (Z.to_nat n) by lia. reflexivity.
      * split; [lia|]. unfold inv. pose proof (div_spec r1 a) as Hd. split.
        -- intros _ Hu. destruct (div_unit r1 a Hu) as (q & -> & Hq). eexists. split; [reflexivity|].
           rewrite nat_pow_ok. replace (N.to_nat (Z.abs_N n)) with (Z.to_nat (- n)) by lia.
           rewrite <- npow_mul_base, <- Hq. generalize (Z.to_nat (- n)). intros k. induction k as [|k IH]; cbn; [reflexivity|]. rewrite IH. ring.
        -- intros _ Hu _. destruct (div r1 a) as [q| |]; auto.
           ++ exfalso. apply Hu. exists q. destruct Hd as [_ Hd]. fold (eqv (a * q) r1). rewrite Hd. ring.
           ++ contradiction.
Qed.

(* ---------- favourite associates, gcds *)
Section Fav.
Context (ffa : ffa_op R) (F : ffa_laws R ffa).

Lemma fav_idem (a : T) : eqv (snd (ffa (snd (ffa a)))) (snd (ffa a)).
Proof.
  apply (ffa_assoc _ _ F). destruct (ffa_unit _ _ F a) as [v Hv]. pose proof (ffa_eq _ _ F a) as He.
  set (u := fst (ffa a)) in *. set (s := snd (ffa a)) in *. fold (eqv (u * v) r1) in Hv. fold (eqv a (u * s)) in He.
  exists v. split; [exists u; fold (eqv (v * u) r1); rewrite <- Hv; ring|]. fold (eqv s (v * a)). rewrite He.
  transitivity (u * v * s); [rewrite Hv; ring|ring].
Qed.
Lemma fav_dvd (a : T) : rdvd (snd (ffa a)) a /\ rdvd a (snd (ffa a)).
Proof.
  destruct (ffa_unit _ _ F a) as [v Hv]. pose proof (ffa_eq _ _ F a) as He.
  set (u := fst (ffa a)) in *. set (s := snd (ffa a)) in *. fold (eqv (u * v) r1) in Hv. fold (eqv a (u * s)) in He. split.
  - exists u. fold (eqv a (s * u)). rewrite He. ring.
  - exists v. fold (eqv s (a * v)). rewrite He. transitivity (u * v * s); [rewrite Hv; ring|ring].
Qed.
Lemma fav_gcd (g a b : T) : is_gcd g a b -> is_gcd (snd (ffa g)) a b.
Proof.
  destruct (fav_dvd g) as [H1 H2]. intros (Ha & Hb & Hg). repeat split.
  - eapply rdvd_trans; eauto. - eapply rdvd_trans; eauto.
  - intros d Hda Hdb. apply rdvd_trans with g; auto.
Qed.

Section Gcd.
Context (gcd : T -> T -> T) (G : gcd_laws R ffa gcd).
Lemma gcd_list_ok_aux l : forall g, is_gcd_list (fold_left gcd l g) (g :: l).
Proof.
  induction l as [|x l IH]; intros g; cbn [fold_left].
  - split; [intros y [<-|[]]; apply rdvd_ref|]. intros d H. apply H. left; auto.
  - destruct (IH (gcd g x)) as [H1 H2]. destruct (G g x) as [(Ha & Hb & Hg) _]. split.
    + intros y [<-|[<-|Hy]].
      * eapply rdvd_trans; [apply H1; left; auto|auto].
      * eapply rdvd_trans; [apply H1; left; auto|auto].
      * apply H1. right; auto.
    + intros d Hd. apply H2. intros y [<-|Hy]; [apply Hg|]; apply Hd; [left|right; left|right; right]; auto.
Qed.
Lemma gcd_list_ok l : is_gcd_list (gcd_list gcd l) l.
Proof.
  destruct (gcd_list_ok_aux l r0) as [H1 H2]. split.
  - intros x Hx. apply H1. right; auto.
  - intros d Hd. apply H2. intros x [<-|Hx]; auto. apply rdvd_0.
Qed.
Lemma gcd_list_fav l : l <> [] -> eqv (snd (ffa (gcd_list gcd l))) (gcd_list gcd l).
Proof.
  destruct l as [|x l] using rev_ind; [congruence|]. intros _. unfold gcd_list. rewrite fold_left_app. cbn. apply G.
Qed.
Lemma gcd_nonzero (x y : T) : ~ (eqv x r0 /\ eqv y r0) -> ~ eqv (gcd x y) r0.
Proof.
  intros H E. destruct (G x y) as [([a Ha] & [b Hb] & _) _]. apply H.
  fold (eqv x (gcd x y * a)) in Ha. fold (eqv y (gcd x y * b)) in Hb. rewrite E in Ha, Hb.
  split; [rewrite Ha|rewrite Hb]; ring.
Qed.
Lemma lcm_ok (x y : T) : exists m, lcm div gcd x y = Some m /\ is_lcm m x y.
Proof.
  unfold lcm. destruct (is_zero x && is_zero y) eqn:E.
  - apply andb_true_iff in E as [Ex Ey]. apply is_zero_true in Ex, Ey. exists r0. split; [reflexivity|].
    split; [apply rdvd_0|]. split; [apply rdvd_0|]. intros d Hd _. rewrite <- Ex. auto.
  - assert (Hz : ~ (eqv x r0 /\ eqv y r0)).
    { intros [Hx Hy]. apply andb_false_iff in E as [E|E]; apply is_zero_false in E; contradiction. }
    pose proof (gcd_nonzero x y Hz) as Hg0.
    destruct (G x y) as [([a Ha] & [b Hb] & Hg) _]. set (g := gcd x y) in *.
    fold (eqv x (g * a)) in Ha. fold (eqv y (g * b)) in Hb.
    destruct (div_exists (x * y) g Hg0) as (m & -> & Hm).
    { exists (a * y). fold (eqv (x * y) (g * (a * y))). rewrite Ha. ring. }
    exists m. split; [reflexivity|].
    assert (Hma : eqv m (x * b)). { apply (cancel g); auto. transitivity (x * y); [rewrite Hm; ring|]. rewrite Hb. ring. }
    assert (Hmb : eqv m (y * a)). { apply (cancel g); auto. transitivity (x * y); [rewrite Hm; ring|]. rewrite Ha. ring. }
    split; [exists b; exact Hma|]. split; [exists a; exact Hmb|].
    intros d [s Hs] [t Ht]. fold (eqv d (x * s)) in Hs. fold (eqv d (y * t)) in Ht.
    destruct (eqv_dec d r0) as [Ed|Ed]; [rewrite Ed; apply rdvd_0|].
    (* h = gcd(d x, d y) = d e with e | x, y *)
    destruct (G (d * x) (d * y)) as [([p Hp] & [q Hq] & Hh) _]. set (h := gcd (d * x) (d * y)) in *.
    fold (eqv (d * x) (h * p)) in Hp. fold (eqv (d * y) (h * q)) in Hq.
    destruct (Hh d) as [e He]; [apply rdvd_mul_r, rdvd_ref|apply rdvd_mul_r, rdvd_ref|].
    fold (eqv h (d * e)) in He.
    destruct (Hg e) as [k Hk].
    { exists p. fold (eqv x (e * p)). apply (cancel d); auto. rewrite Hp, He. ring. }
    { exists q. fold (eqv y (e * q)). apply (cancel d); auto. rewrite Hq, He. ring. }
    fold (eqv g (e * k)) in Hk.
    destruct (Hh (x * y)) as [w Hw].
    { rewrite Ht. exists t. fold (eqv (y * t * x) (x * y * t)). ring. }
    { rewrite Hs. exists s. fold (eqv (x * s * y) (x * y * s)). ring. }
    fold (eqv h (x * y * w)) in Hw.
    (* g d = k h = k x y w = g m k w *)
    exists (k * w). fold (eqv d (m * (k * w))). apply (cancel g); auto.
    transitivity (k * h); [rewrite He, Hk; ring|]. rewrite Hw, Hm. ring.
Qed.
Lemma is_lcm_dvd (m a b d : T) : is_lcm m a b -> (rdvd m d <-> rdvd a d /\ rdvd b d).
Proof. intros (H1 & H2 & H3). split; [intros H; split; eapply rdvd_trans; eauto|]. intros [? ?]; auto. Qed.
Lemma lcm_loop_ok l : forall acc, exists m, lcm_loop div gcd acc l = Some m /\ is_lcm_list m (acc :: l).
Proof.
  induction l as [|x l IH]; intros acc; cbn [lcm_loop].
  - exists acc. split; [reflexivity|]. split; [intros y [<-|[]]; apply rdvd_ref|]. intros d Hd; apply Hd; left; auto.
  - destruct (lcm_ok acc x) as (m1 & -> & H). destruct (IH m1) as (m & -> & H1 & H2). exists m. split; [reflexivity|].
    pose proof (H1 m1 (or_introl eq_refl)) as Hm. apply (is_lcm_dvd _ _ _ _ H) in Hm as [Hm1 Hm2]. split.
    + intros y [<-|[<-|Hy]]; auto. apply H1; right; auto.
    + intros d Hd. apply H2. intros y [<-|Hy]; [|apply Hd; right; right; auto].
      apply (is_lcm_dvd _ _ _ _ H). split; apply Hd; [left|right; left]; auto.
Qed.
Lemma lcm_list_ok l : exists m, lcm_list div gcd l = Some m /\ is_lcm_list m l.
Proof.
  destruct (lcm_loop_ok l r1) as (m & Hm & H1 & H2). exists m. split; [exact Hm|]. split.
  - intros x Hx; apply H1; right; auto.
  - intros d Hd. apply H2. intros x [<-|Hx]; auto. exists d. fold (eqv d (r1 * d)). ring.
Qed.
End Gcd.

Section Bez.
Context (xgcd : T -> T -> T * T * T) (X : xgcd_laws R xgcd).
Lemma rdot_app l1 : forall l2 m1 m2, length l1 = length m1 -> eqv (@rdot R (l1 ++ l2) (m1 ++ m2)) (rdot l1 m1 + rdot l2 m2).
Proof.
  induction l1 as [|x l1 IH]; intros l2 [|y m1] m2 H; try discriminate; cbn; [ring|].
  rewrite IH by (cbn in H; congruence). ring.
Qed.
Lemma rdot_map c l : forall m, eqv (@rdot R (map (fun x => c * x) l) m) (c * rdot l m).
Proof. induction l as [|x l IH]; intros [|y m]; cbn; try ring. rewrite IH. ring. Qed.
Lemma is_gcd_list_app g1 g2 g l1 l2 : is_gcd_list g1 l1 -> is_gcd_list g2 l2 -> @is_gcd R g g1 g2 -> is_gcd_list g (l1 ++ l2).
Proof.
  intros [A1 A2] [B1 B2] (C1 & C2 & C3). split.
  - intros x Hx. apply in_app_or in Hx as [Hx|Hx]; [apply rdvd_trans with g1|apply rdvd_trans with g2]; auto.
  - intros d Hd. apply C3; [apply A2|apply B2]; intros x Hx; apply Hd; apply in_or_app; auto.
Qed.
Lemma xgcd_list_ok fuel : forall l, length l < fuel ->
  exists g cs, xgcd_list div ffa xgcd fuel l = Some (g, cs) /\ length cs = length l /\
    is_gcd_list g l /\ eqv (rdot cs l) g.
Proof.
  induction fuel as [|fuel IH]; intros l Hl; [lia|]. cbn [xgcd_list].
  destruct l as [|e0 [|e1 [|e2 l]]].
  - exists r0, []. repeat split; try reflexivity; [intros x []|]. intros d _. apply rdvd_0.
  - pose proof (ffa_unit _ _ F e0) as Hu. pose proof (ffa_eq _ _ F e0) as He. pose proof (fav_dvd e0) as [Hd1 Hd2].
    destruct (ffa e0) as [u s] eqn:E. cbn [fst snd] in *. unfold inv. destruct (div_unit r1 u Hu) as (v & -> & Hv).
    exists s, [v]. repeat split.
    + intros x [<-|[]]; auto.
    + intros d H. eapply rdvd_trans; [apply H; left; reflexivity|auto].
    + cbn. fold (eqv e0 (u * s)) in He. change (eqv (v * e0 + r0) s). rewrite He. transitivity (v * u * s); [ring|]. rewrite <- Hv. ring.
  - pose proof (X e0 e1) as Hx. destruct (xgcd e0 e1) as [[g x] y]. destruct Hx as [(H1 & H2 & H3) Hx].
    exists g, [x; y]. repeat split.
    + intros z [<-|[<-|[]]]; auto.
    + intros d H. apply H3; apply H; [left|right; left]; auto.
    + cbn. fold (eqv g (x * e0 + y * e1)) in Hx. rewrite Hx. ring.
  - set (ll := e0 :: e1 :: e2 :: l) in *. set (k := Nat.div2 (length ll)).
    assert (Hk1 : k < length ll) by (apply Nat.lt_div2; cbn; lia).
    assert (Hk0 : 0 < k) by (unfold k; cbn; lia).
    destruct (IH (firstn k ll)) as (g1 & c1 & -> & L1 & G1 & E1). { rewrite firstn_length. lia. }
    destruct (IH (skipn k ll)) as (g2 & c2 & -> & L2 & G2 & E2). { rewrite skipn_length. lia. }
    pose proof (X g1 g2) as Hx. destruct (xgcd g1 g2) as [[g x] y]. destruct Hx as [Hg Hx].
    eexists _, _. split; [reflexivity|]. split; [|split].
    + rewrite app_length, !map_length, L1, L2, firstn_length, skipn_length. lia.
    + rewrite <- (firstn_skipn k ll). eapply is_gcd_list_app; eauto.
    + rewrite <- (firstn_skipn k ll) at 1. rewrite rdot_app, !rdot_map, E1, E2 by (rewrite map_length; auto).
      symmetry. exact Hx.
Qed.
End Bez.

Section Euc.
Context (norm : T -> option N) (quorem : T -> T -> option (T * T)) (E : euclid_laws R norm quorem).
Definition nrm (y : T) : nat := match norm y with None => 0 | Some n => S (N.to_nat n) end.
Lemma quorem_some (a b : T) : ~ eqv b r0 -> exists q r, quorem a b = Some (q, r) /\ eqv a (q * b + r) /\ (nrm r < nrm b)%nat.
Proof.
  intros Hb. destruct (quorem a b) as [[q r]|] eqn:Eq.
  - exists q, r. split; [reflexivity|]. split; [eapply quorem_ok; eauto|]. unfold nrm.
    destruct (norm b) as [n|] eqn:En; [|apply (norm_zero _ _ _ E) in En; contradiction].
    destruct (norm r) as [k|] eqn:Ek; [|lia]. pose proof (quorem_lt _ _ _ E _ _ _ _ _ _ Eq En Ek). lia.
  - apply (quorem_zero _ _ _ E) in Eq. contradiction.
Qed.
Lemma gcd_step (x y q r g : T) : eqv x (q * y + r) -> is_gcd g y r -> is_gcd g x y.
Proof.
  intros Hx (H1 & H2 & H3). repeat split; auto.
  - rewrite Hx. apply rdvd_add; auto. apply rdvd_mul_l; auto.
  - intros d Hdx Hdy. apply H3; auto.
    assert (Hr : eqv r (x + - q * y)). { rewrite Hx. ring. }
    rewrite Hr. apply rdvd_add; auto. apply rdvd_mul_l; auto.
Qed.
Lemma euclidean_gcd_ok fuel : forall x y, nrm y < fuel ->
  exists g, euclidean_gcd ffa quorem fuel x y = Some (snd (ffa g)) /\ is_gcd g x y.
Proof.
  induction fuel as [|fuel IH]; intros x y Hf; [lia|]. cbn [euclidean_gcd].
  destruct (is_zero y) eqn:Ey; cbn [negb].
  - apply is_zero_true in Ey. exists x. split; [reflexivity|]. repeat split; [apply rdvd_ref| |auto]. rewrite Ey. apply rdvd_0.
  - unfold rem. rewrite Ey. cbn [negb]. apply is_zero_false in Ey.
    destruct (quorem_some x y Ey) as (q & r & -> & Hx & Hn). destruct (IH y r) as (g & -> & Hg); [lia|].
    exists g. split; [reflexivity|]. eapply gcd_step; eauto.
Qed.
Lemma xgcd_loop_ok x0 y0 fuel : forall x y pa a pb b, nrm y < fuel ->
  eqv x (pa * x0 + pb * y0) -> eqv y (a * x0 + b * y0) ->
  exists gg g a' b', xgcd_loop div ffa quorem fuel x y pa a pb b = Some (g, a', b') /\
    g = snd (ffa gg) /\ is_gcd gg x y /\ eqv g (a' * x0 + b' * y0) /\
    euclidean_gcd ffa quorem fuel x y = Some g.
Proof.
  induction fuel as [|fuel IH]; intros x y pa a pb b Hf Hx Hy; [lia|]. cbn [xgcd_loop euclidean_gcd].
  destruct (is_zero y) eqn:Ey; cbn [negb].
  - pose proof (ffa_unit _ _ F x) as Hu. pose proof (ffa_eq _ _ F x) as He.
    destruct (ffa x) as [u s] eqn:Ef. cbn [fst snd] in *.
    destruct (div_unit pa u Hu) as (a' & -> & Ha'). destruct (div_unit pb u Hu) as (b' & -> & Hb').
    exists x, s, a', b'. rewrite Ef. repeat split; try reflexivity; auto.
    + apply rdvd_ref.
    + apply is_zero_true in Ey. rewrite Ey. apply rdvd_0.
    + fold (eqv x (u * s)) in He. apply (cancel u); [apply unit_ne_zero; auto|]. rewrite <- He, Hx, Ha', Hb'. ring.
  - unfold rem. rewrite Ey. cbn [negb]. apply is_zero_false in Ey.
    destruct (quorem_some x y Ey) as (q & r & -> & Hq & Hn).
    destruct (IH y r a (pa + - (q * a)) b (pb + - (q * b))) as (gg & g & a' & b' & -> & Hg & Hgg & Hb & Hgcd); [lia|auto| |].
    { assert (Hr : eqv r (x + - (q * y))). { rewrite Hq at 1. ring. } rewrite Hr, Hx, Hy. ring. }
    exists gg, g, a', b'. split; [reflexivity|]. split; [exact Hg|]. split; [exact (gcd_step x y q r gg Hq Hgg)|]. split; [exact Hb|exact Hgcd].
Qed.
Lemma euclidean_xgcd_ok fuel x y : nrm y < fuel ->
  exists g a b, euclidean_xgcd div ffa quorem fuel x y = Some (g, a, b) /\
    euclidean_gcd ffa quorem fuel x y = Some g /\
    is_gcd g x y /\ eqv (snd (ffa g)) g /\ eqv g (a * x + b * y).
Proof.
  intros Hf. destruct (xgcd_loop_ok x y fuel x y r1 r0 r0 r1 Hf) as (gg & g & a & b & H1 & H2 & H3 & H4 & H5); [ring|ring|].
  exists g, a, b. split; [exact H1|]. split; [exact H5|]. subst g. split; [apply fav_gcd; auto|]. split; [apply fav_idem|exact H4].
Qed.
End Euc.
End Fav.
End Dom.
End R.
