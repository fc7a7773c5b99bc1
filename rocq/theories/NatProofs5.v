From Coq Require Import NArith ZArith List Bool Lia.
From Verif Require Import RingSpec RingModel NatSpec NatModel NatProofs NatBridge NatBridge2 NatProofs2 NatProofs3 NatProofs4.
Import ListNotations.
Local Open Scope N_scope.

Lemma euler_totient_spec n m : factorisation_of n m -> euler_totient m = totient_spec n.
Proof.
  intros F. rewrite <- (totient_formula n m F). clear F. unfold euler_totient.
  assert (G : forall t, fold_left (fun t pk => t * ((fst pk - 1) * pow (fst pk) (snd pk - 1))) m t = t * tot_prod m); [|rewrite G; lia].
  induction m as [|[p k] m IH]; intros t; cbn [fold_left tot_prod fst snd]; [lia|]. rewrite IH, pow_spec. lia.
Qed.
Lemma powmod_pos_spec n x e : n <> 0 -> powmod_pos x e n = x ^ Npos e mod n.
Proof.
  intros Hn. induction e as [e IH|e IH|]; cbn [powmod_pos]; rewrite ?IH.
  - replace (N.pos e~1) with (N.pos e + N.pos e + 1) by lia. rewrite !N.pow_add_r, N.pow_1_r. rewrite <- N.mul_mod, N.mul_mod_idemp_l by auto. reflexivity.
  - replace (N.pos e~0) with (N.pos e + N.pos e) by lia. rewrite !N.pow_add_r. rewrite <- N.mul_mod by auto. reflexivity.
  - rewrite N.pow_1_r. reflexivity.
Qed.
Lemma powmod_spec x e n : n <> 0 -> powmod x e n = x ^ e mod n.
Proof. intros Hn. destruct e; [reflexivity|]. apply powmod_pos_spec; auto. Qed.
Lemma pow_mod_base x e n : n <> 0 -> (x mod n) ^ e mod n = x ^ e mod n.
Proof.
  intros Hn. induction e as [|e IH] using N.peano_ind; [reflexivity|]. rewrite !N.pow_succ_r'. rewrite N.mul_mod, IH, N.mod_mod, <- N.mul_mod by auto. reflexivity.
Qed.
Lemma fact_divides n l p : factorisation_of n l -> prime_N p -> (p | n) -> In p (map fst l).
Proof.
  intros (_ & H & <-) Pp. induction l as [|[q k] l IH]; cbn [prod_powers map fst In]; intros D.
  - apply N.divide_1_r in D. destruct Pp; lia.
  - apply euclid_N in D; auto. destruct D as [D|D]; [left|right; apply IH; auto; intros; apply H; right; auto].
    destruct (H q k) as [Pq _]; [left; auto|]. assert (Dq : (p | q)). { clear - D Pp. induction k as [|k IH] using N.peano_ind; [rewrite N.pow_0_r in D; apply N.divide_1_r in D; destruct Pp; lia|]. rewrite N.pow_succ_r' in D. apply euclid_N in D; auto. destruct D; auto. }
    destruct Pq as [_ Pq]. destruct (Pq p Dq); auto. destruct Pp; lia.
Qed.
Lemma in_divides n l p : factorisation_of n l -> In p (map fst l) -> prime_N p /\ (p | n).
Proof.
  intros (_ & H & <-) Hin. apply in_map_iff in Hin as ((q & k) & E & Hin). cbn in E. subst q. split; [apply (H p k); auto|]. destruct (H p k Hin) as [_ Hk].
  clear H. induction l as [|[q j] l IH]; cbn [prod_powers]; [destruct Hin|]. destruct Hin as [E|Hin].
  - injection E as -> ->. apply N.divide_mul_l. exists (p ^ (k - 1)). replace k with (N.succ (k - 1)) at 1 by lia. rewrite N.pow_succ_r'. lia.
  - apply N.divide_mul_r. auto.
Qed.
Lemma fact_pos_n n l : factorisation_of n l -> 0 < n.
Proof.
  intros (_ & H & <-). induction l as [|[p k] l IH]; cbn [prod_powers]; [lia|]. destruct (H p k) as [[Pp _] _]; [left; auto|]. assert (0 < prod_powers l) by (apply IH; intros; apply H; right; auto).
  assert (p ^ k <> 0) by (apply N.pow_nonzero; lia). nia.
Qed.
Lemma is_primitive_root_spec fac n m x l : factorisation_of n m -> fac (totient_spec n) = Some (Some l) -> factorisation_of (totient_spec n) l -> 1 < n ->
  exists r, is_primitive_root fac m x = Some r /\
    match r with NonUnit => N.gcd x n <> 1 | RYes => N.gcd x n = 1 /\ mult_order n x (totient_spec n) | RNo => N.gcd x n = 1 /\ ~ mult_order n x (totient_spec n) end.
Proof.
  intros F Ef Fl Hn. pose proof F as (_ & _ & E). unfold is_primitive_root. rewrite expand_spec, E, gcd_spec. cbn [obind]. destruct (N.eqb_spec (N.gcd x n) 1) as [G|G]; cbn [negb]; [|eexists; split; [reflexivity|auto]].
  rewrite (euler_totient_spec n m F), Ef. cbn [obind]. set (phi := totient_spec n) in *. assert (Hphi : 0 < phi) by (apply totient_pos; lia).
  assert (Eu : x ^ phi mod n = 1 mod n) by (apply euler_spec; auto; lia). assert (M1 : 1 mod n = 1) by (apply N.mod_small; auto).
  destruct (existsb _ l) eqn:Ex; eexists; (split; [reflexivity|]); (split; [exact G|]).
  - apply existsb_exists in Ex as ((p & k) & Hin & Ep). apply N.eqb_eq in Ep. cbn [fst] in Ep. apply (in_map fst) in Hin. apply (in_divides _ _ _ Fl) in Hin as [Pp Dp]. cbn [fst] in *.
    intros MO. apply (order_criterion2 n x phi Hphi MO p Pp Dp). rewrite M1. rewrite powmod_spec, pow_mod_base in Ep by lia. auto.
  - apply order_criterion1; auto; [lia|]. intros p Pp Dp C. apply (fact_divides _ _ _ Fl Pp) in Dp. apply in_map_iff in Dp as ((q & k) & Eq & Hin). cbn in Eq. subst q.
    assert (existsb (fun pk => powmod (x mod n) (phi / fst pk) n =? 1) l = true); [|congruence]. apply existsb_exists. exists (p, k). split; auto. cbn [fst]. apply N.eqb_eq. rewrite powmod_spec, pow_mod_base by lia. congruence.
Qed.
