(* Proofs about Factored *)
From Coq Require Import List Arith NArith ZArith Bool Lia Setoid Morphisms Ring Ring_theory.
From Verif Require Import RingSpec RingModel RingProofs FactoredSpec FactoredModel.
Import ListNotations.
Open Scope nat_scope.
Open Scope rs_scope.

Section F.
Context (R : ring_ops) (div : div_op R) (ffa : ffa_op R).
Context (D : idom_laws R div) (F : ffa_laws R ffa).
Let L := id_ring _ _ D.
Local Instance j_eqv_equiv : Equivalence (eqv R) := eqv_equiv R L.
Local Instance j_add_proper : Proper (eqv R ==> eqv R ==> eqv R) (@radd R) := add_proper R L.
Local Instance j_mul_proper : Proper (eqv R ==> eqv R ==> eqv R) (@rmul R) := mul_proper R L.
Local Instance j_neg_proper : Proper (eqv R ==> eqv R) (@rneg R) := neg_proper R L.
Local Instance j_rdvd_proper : Proper (eqv R ==> eqv R ==> iff) (@rdvd R) := rdvd_proper R L.
Local Instance j_runit_proper : Proper (eqv R ==> iff) (@runit R) := runit_proper R L.
Local Instance j_npow_proper : Proper (eqv R ==> eq ==> eqv R) (@npow R) := npow_proper R L.
Add Ring RFact : (rth R L) (setoid (eqv_equiv R L) (rext R L)).
Notation "a ~ b" := (eqv R a b) (at level 70).
Notation T := (T R).
Notation factored := (factored R).

Lemma expand_loop fs : forall u : T,
  fold_left (fun ans pk => ans * nat_pow (fst pk) (snd pk)) fs u ~ u * powers_prod fs.
Proof.
  induction fs as [|[p k] fs IH]; intros u; cbn [fold_left powers_prod fst snd]; [ring|].
  rewrite IH, (nat_pow_ok R L). ring.
Qed.
Lemma expand_ok (f : factored) : expand f ~ f_unit f * powers_prod (f_factors f).
Proof. apply expand_loop. Qed.

Lemma fav_assoc_eq (p q : T) : is_fav_assoc ffa p = true -> is_fav_assoc ffa q = true -> rassoc p q -> p ~ q.
Proof.
  unfold is_fav_assoc. intros Hp Hq H. apply (ffa_assoc _ _ F) in H.
  change (p ~ snd (ffa p)) in Hp. change (q ~ snd (ffa q)) in Hq. change (snd (ffa p) ~ snd (ffa q)) in H.
  rewrite Hp, Hq. exact H.
Qed.
Lemma div_both (p q u v : T) : div p q = DivOk u -> div q p = DivOk v -> ~ q ~ r0 /\ ~ p ~ r0 /\ p ~ u * q /\ q ~ v * p.
Proof.
  intros H1 H2. pose proof (div_spec R div D p q) as A. rewrite H1 in A. pose proof (div_spec R div D q p) as B. rewrite H2 in B. tauto.
Qed.
Lemma npow_r1 n : @npow R r1 n ~ r1.
Proof. induction n as [|n IHn]; cbn [npow]; [reflexivity|]. transitivity (@npow R r1 n); [ring|exact IHn]. Qed.
Lemma mul_by_loop_ok fs : forall u p k, is_fav_assoc ffa p = true ->
  Forall (fun x => is_fav_assoc ffa (fst x) = true) fs ->
  let '(u', fs') := mul_by_loop div u fs p k in
  u' * powers_prod fs' ~ u * powers_prod fs * npow p (N.to_nat k) /\
  (runit u -> runit u') /\
  Forall (fun x => is_fav_assoc ffa (fst x) = true) fs'.
Proof.
  induction fs as [|[q t] fs IH]; intros u p k Hp Hfs; cbn [mul_by_loop].
  - cbn [powers_prod]. split; [ring|]. split; auto.
  - inversion Hfs as [|? ? Hq Hfs']; subst. cbn [fst] in Hq.
    assert (Hrec : let '(unit', rest') := mul_by_loop div u fs p k in
      unit' * powers_prod ((q, t) :: rest') ~ u * powers_prod ((q, t) :: fs) * npow p (N.to_nat k) /\
      (runit u -> runit unit') /\ Forall (fun x => is_fav_assoc ffa (fst x) = true) ((q, t) :: rest')).
    { specialize (IH u p k Hp Hfs'). destruct (mul_by_loop div u fs p k) as [u' fs']. destruct IH as (H1 & H2 & H3).
      split; [|split; auto]. cbn [powers_prod].
      transitivity (npow q (N.to_nat t) * (u' * powers_prod fs')); [ring|]. rewrite H1. ring. }
    destruct (div p q) as [u1| |] eqn:E1; [destruct (div q p) as [v1| |] eqn:E2|..];
      try (destruct (mul_by_loop div u fs p k); exact Hrec).
    destruct (is_unit div u1 && is_unit div v1) eqn:Eu; [|destruct (mul_by_loop div u fs p k); exact Hrec].
    apply andb_true_iff in Eu as [Eu Ev]. apply (is_unit_ok R L div D) in Eu, Ev.
    destruct (div_both p q u1 v1 E1 E2) as (Hq0 & Hp0 & Hpq & Hqp).
    assert (Heq : p ~ q). { apply fav_assoc_eq; auto. exists u1. split; auto. }
    assert (Hv1 : v1 ~ r1). { apply (cancel R L div D p); auto. transitivity (v1 * p); [ring|]. rewrite <- Hqp, <- Heq. ring. }
    assert (Hvk : nat_pow v1 k ~ r1).
    { rewrite (nat_pow_ok R L), Hv1. apply npow_r1. }
    split; [|split].
    + cbn [powers_prod]. rewrite Hvk, N2Nat.inj_add, (npow_add R L), Heq. ring.
    + intros Hu. rewrite Hvk. assert (Hx : u * r1 ~ u) by ring. rewrite Hx. exact Hu.
    + constructor; auto.
Qed.
Lemma f_mul_ok (a b : factored) :
  Forall (fun x => is_fav_assoc ffa (fst x) = true) (f_factors a) ->
  Forall (fun x => is_fav_assoc ffa (fst x) = true) (f_factors b) ->
  expand (f_mul div a b) ~ expand a * expand b /\
  (runit (f_unit a) -> runit (f_unit b) -> runit (f_unit (f_mul div a b))) /\
  Forall (fun x => is_fav_assoc ffa (fst x) = true) (f_factors (f_mul div a b)).
Proof.
  intros Ha Hb. unfold f_mul.
  assert (G : forall fs acc, Forall (fun x => is_fav_assoc ffa (fst x) = true) (f_factors acc) ->
     Forall (fun x => is_fav_assoc ffa (fst x) = true) fs ->
     let r := fold_left (fun acc pk => mul_by_unchecked div acc (fst pk) (snd pk)) fs acc in
     expand r ~ expand acc * powers_prod fs /\ (runit (f_unit acc) -> runit (f_unit r)) /\
     Forall (fun x => is_fav_assoc ffa (fst x) = true) (f_factors r)).
  { induction fs as [|[p k] fs IH]; intros acc Hacc Hfs; cbn [fold_left fst snd]; cbn zeta.
    - cbn [powers_prod]. split; [ring|auto].
    - inversion Hfs as [|? ? Hp Hfs']; subst. cbn [fst] in Hp.
      pose proof (mul_by_loop_ok (f_factors acc) (f_unit acc) p k Hp Hacc) as H.
      unfold mul_by_unchecked at 2 4 6. destruct (mul_by_loop div (f_unit acc) (f_factors acc) p k) as [u' fs'].
      destruct H as (H1 & H2 & H3).
      destruct (IH (Factored u' fs') H3 Hfs') as (I1 & I2 & I3). cbn [f_unit f_factors] in *.
      split; [|split; auto]. rewrite I1, !expand_ok. cbn [f_unit f_factors powers_prod]. rewrite H1. ring. }
  destruct (G (f_factors b) (Factored (f_unit a * f_unit b) (f_factors a)) Ha Hb) as (H1 & H2 & H3).
  split; [|split; [|exact H3]].
  - rewrite H1, !expand_ok. cbn [f_unit f_factors]. ring.
  - intros Hua Hub. apply H2. cbn. apply runit_mul; auto.
Qed.
Lemma npow_npow (a : T) m n : npow (npow a m) n ~ npow a (m * n).
Proof. induction n as [|n IH]; [rewrite Nat.mul_0_r; reflexivity|]. rewrite Nat.mul_succ_r, Nat.add_comm, (npow_add R L), <- IH. reflexivity. Qed.
Lemma powers_prod_pow fs k : powers_prod (map (fun pk : T * N => (fst pk, (snd pk * k)%N)) fs) ~ npow (powers_prod fs) (N.to_nat k).
Proof.
  induction fs as [|[p j] fs IH]; cbn [map powers_prod fst snd].
  - symmetry. apply npow_r1.
  - rewrite IH, (npow_mul_base R L), npow_npow, N2Nat.inj_mul. reflexivity.
Qed.
Lemma f_pow_ok (f : factored) k : npow (f_unit f) (N.to_nat k) == f_unit f ->
  expand (f_pow f k) ~ npow (expand f) (N.to_nat k).
Proof.
  intros Hu. change (npow (f_unit f) (N.to_nat k) ~ f_unit f) in Hu.
  rewrite !expand_ok. cbn [f_pow f_unit f_factors]. rewrite powers_prod_pow, (npow_mul_base R L), Hu. reflexivity.
Qed.
Lemma factored_irreducible_power_ok (e : T) k :
  expand (factored_irreducible_power_unchecked ffa e k) * npow (fst (ffa e)) (N.to_nat k) ~ fst (ffa e) * npow e (N.to_nat k).
Proof.
  unfold factored_irreducible_power_unchecked. pose proof (ffa_eq _ _ F e) as He. destruct (ffa e) as [u a]. cbn [fst snd] in *.
  change (e ~ u * a) in He. rewrite expand_ok. cbn [f_unit f_factors powers_prod].
  rewrite He, (npow_mul_base R L). ring.
Qed.
Lemma factored_irreducible_ok (e : T) : expand (factored_irreducible_unchecked ffa e) ~ e.
Proof.
  unfold factored_irreducible_unchecked. pose proof (ffa_eq _ _ F e) as He. destruct (ffa e) as [u a]. cbn [fst snd] in *.
  change (e ~ u * a) in He. rewrite expand_ok. cbn [f_unit f_factors powers_prod]. change (N.to_nat 1) with 1%nat. cbn [npow].
  rewrite He. ring.
Qed.
Lemma factors_list_ok (f : factored) : rprod (factors_list f) ~ powers_prod (f_factors f).
Proof.
  unfold factors_list. induction (f_factors f) as [|[p k] fs IH]; cbn [flat_map powers_prod fst snd]; [reflexivity|].
  rewrite <- IH. induction (N.to_nat k) as [|n IHn]; cbn [repeat app rprod npow]; [ring|]. rewrite IHn. ring.
Qed.
Lemma powers_prod_app a b : @powers_prod R (a ++ b) ~ powers_prod a * powers_prod b.
Proof. induction a as [|[p k] a IH]; cbn [app powers_prod]; [ring|]. rewrite IH. ring. Qed.

(* equality of factorisations *)
Lemma remove_match (p : T) (k : N) bs : existsb (fun y => req p (fst y)) bs = true ->
  forallb (fun y => if req p (fst y) then N.eqb k (snd y) else true) bs = true ->
  ForallOrdPairs (fun x y => ~ fst x ~ fst y) bs ->
  exists bs1 q bs2, bs = bs1 ++ (q, k) :: bs2 /\ p ~ q /\ Forall (fun y => ~ p ~ fst y) (bs1 ++ bs2).
Proof.
  induction bs as [|[q j] bs IH]; cbn [existsb forallb fst snd]; [discriminate|].
  intros He Hf Ho. inversion Ho as [|? ? Hh Ho']; subst. apply andb_true_iff in Hf as [Hf1 Hf2].
  destruct (req p q) eqn:E.
  - apply N.eqb_eq in Hf1. subst j. exists [], q, bs. split; [reflexivity|]. split; [exact E|]. cbn.
    change (p ~ q) in E. eapply Forall_impl; [|exact Hh]. intros y Hy Hpy. apply Hy. cbn. rewrite <- E. exact Hpy.
  - cbn in He. destruct (IH He Hf2 Ho') as (b1 & q' & b2 & -> & Hq & Hall). exists ((q, j) :: b1), q', b2.
    split; [reflexivity|]. split; [exact Hq|]. cbn. constructor; auto. cbn. apply (neqv R). exact E.
Qed.
Lemma FOP_app {A} (P : A -> A -> Prop) l1 x l2 : ForallOrdPairs P (l1 ++ x :: l2) -> ForallOrdPairs P (l1 ++ l2).
Proof.
  induction l1 as [|a l1 IH]; cbn; intros H; inversion H; subst; auto. constructor; auto.
  apply Forall_app in H2 as [Ha Hb]. inversion Hb; subst. apply Forall_app; auto.
Qed.
Lemma factored_equal_ok (a b : factored) :
  ForallOrdPairs (fun x y => ~ fst x ~ fst y) (f_factors a) ->
  ForallOrdPairs (fun x y => ~ fst x ~ fst y) (f_factors b) ->
  factored_equal a b = true -> expand a ~ expand b.
Proof.
  intros Ha Hb. unfold factored_equal. destruct (req (f_unit a) (f_unit b)) eqn:Eu; cbn [negb]; [|discriminate].
  rewrite !expand_ok. change (f_unit a ~ f_unit b) in Eu. rewrite Eu. clear Eu.
  destruct (forallb _ (f_factors a)) eqn:E1; cbn [negb]; [|discriminate].
  destruct (forallb _ (f_factors b)) eqn:E2; cbn [negb]; [|discriminate]. intros E3.
  cut (powers_prod (f_factors a) ~ powers_prod (f_factors b)); [intros H; rewrite H; reflexivity|].
  revert E1 E2 E3 Ha Hb. generalize (f_factors a) (f_factors b). clear a b.
  induction l as [|[p k] l IH]; intros bs E1 E2 E3 Ha Hb.
  - destruct bs as [|y bs]; [reflexivity|]. cbn in E2. discriminate.
  - cbn [forallb fst snd] in E1, E3. apply andb_true_iff in E1 as [E1 E1']. apply andb_true_iff in E3 as [E3 E3'].
    inversion Ha as [|? ? Hh Ha']; subst.
    destruct (remove_match p k bs E1 E3 Hb) as (b1 & q & b2 & -> & Hpq & Hall).
    rewrite powers_prod_app. cbn [powers_prod]. rewrite (IH (b1 ++ b2)).
    + rewrite powers_prod_app, Hpq. ring.
    + rewrite forallb_forall in *. intros x Hx. specialize (E1' x Hx). rewrite existsb_app in *. cbn [existsb fst] in E1'.
      assert (Hne : req (fst x) q = false).
      { apply (neqv R). intros Hxq. rewrite Forall_forall in Hh. apply (Hh x Hx). cbn. rewrite Hpq, Hxq. reflexivity. }
      rewrite Hne in E1'. exact E1'.
    + rewrite forallb_forall in *. intros y Hy. assert (Hy' : In y (b1 ++ (q, k) :: b2)).
      { apply in_app_or in Hy. apply in_or_app. cbn. tauto. }
      specialize (E2 y Hy'). cbn [existsb fst] in E2. rewrite Forall_forall in Hall.
      assert (Hne : req p (fst y) = false) by (apply (neqv R); auto). rewrite Hne in E2. exact E2.
    + rewrite forallb_forall in *. intros x Hx. specialize (E3' x Hx). rewrite forallb_app in *. cbn [forallb] in E3'.
      apply andb_true_iff in E3' as [-> E]. apply andb_true_iff in E as [_ ->]. reflexivity.
    + exact Ha'.
    + eapply FOP_app; eauto.
Qed.

(* ---------------- divisors *)
Lemma product_ok (l : list T) : product l ~ rprod l.
Proof.
  unfold product. assert (G : forall a, fold_left rmul l a ~ a * rprod l).
  { induction l as [|x l IH]; intros a; cbn [fold_left rprod]; [ring|]. rewrite IH. ring. }
  rewrite G. ring.
Qed.
Lemma powers_upto_in k : forall (p a : T) x, In x (powers_upto k p a) -> exists i, i <= k /\ x ~ a * npow p i.
Proof.
  induction k as [|k IH]; intros p a x; cbn [powers_upto In].
  - intros [<-|[]]. exists 0. split; auto. cbn. ring.
  - intros [<-|H]; [exists 0; split; [lia|cbn; ring]|]. apply IH in H as (i & Hi & Hx). exists (S i). split; [lia|].
    rewrite Hx. cbn. ring.
Qed.
Lemma powers_upto_all k : forall (p a : T) i, i <= k -> exists x, In x (powers_upto k p a) /\ x ~ a * npow p i.
Proof.
  induction k as [|k IH]; intros p a i Hi; cbn [powers_upto In].
  - exists a. split; auto. assert (i = 0)%nat by lia. subst. cbn. ring.
  - destruct i as [|i]; [exists a; split; auto; cbn; ring|]. destruct (IH p (a * p) i) as (x & Hx & Hxe); [lia|].
    exists x. split; auto. rewrite Hxe. cbn. ring.
Qed.
Lemma powers_upto_len k : forall (p a : T), length (powers_upto k p a) = S k.
Proof. induction k as [|k IH]; intros; cbn [powers_upto length]; auto. Qed.
(* positions in the list of powers *)
Lemma powers_upto_nth k : forall (p a : T) i d, i <= k -> nth i (powers_upto k p a) d ~ a * npow p i.
Proof.
  induction k as [|k IH]; intros p a i d Hi; cbn [powers_upto].
  - assert (i = 0)%nat by lia. subst. cbn. ring.
  - destruct i as [|i]; [cbn; ring|]. cbn [nth]. rewrite IH by lia. cbn. ring.
Qed.

Lemma prime_nz (p : T) : rprime p -> ~ p ~ r0.
Proof. intros (H & _). apply neqv; auto. Qed.
Lemma prime_irred (p a b : T) : rprime p -> p ~ a * b -> runit a \/ runit b.
Proof.
  intros Hp Hab. pose proof (prime_nz p Hp) as Hz. destruct Hp as (_ & _ & Hp).
  destruct (Hp a b) as [[c Hc]|[c Hc]].
  - exists r1. change (a * b ~ p * r1). rewrite <- Hab. ring.
  - right. change (a ~ p * c) in Hc. exists c. change (b * c ~ r1). apply (cancel R L div D p); auto.
    transitivity (p * c * b); [ring|]. rewrite <- Hc, <- Hab. ring.
  - left. change (b ~ p * c) in Hc. exists c. change (a * c ~ r1). apply (cancel R L div D p); auto.
    transitivity (a * (p * c)); [ring|]. rewrite <- Hc, <- Hab. ring.
Qed.
Lemma prime_dvd_prime (p q : T) : rprime p -> rprime q -> rdvd p q -> rassoc p q.
Proof.
  intros Hp Hq [c Hc]. change (q ~ p * c) in Hc. destruct (prime_irred q p c Hq Hc) as [Hu|Hu].
  - exfalso. apply Hp. exact Hu.
  - destruct Hu as [c' Hc']. change (c * c' ~ r1) in Hc'. exists c'. split; [exists c; change (c' * c ~ r1); rewrite <- Hc'; ring|].
    change (p ~ c' * q). rewrite Hc. transitivity (p * (c * c')); [rewrite Hc'; ring|ring].
Qed.
Lemma prime_dvd_pow (p q : T) k : rprime p -> rdvd p (npow q k) -> rdvd p q.
Proof.
  intros Hp. induction k as [|k IH]; cbn.
  - intros [c Hc]. exfalso. apply Hp. exists c. change (p * c ~ r1). symmetry. exact Hc.
  - intros H. apply Hp in H as [H|H]; auto.
Qed.
Lemma prime_not_dvd_rest (p : T) fs : rprime p -> Forall (fun pk => rprime (fst pk) /\ (0 < snd pk)%N) fs ->
  Forall (fun y => ~ rassoc p (fst y)) fs -> ~ rdvd p (powers_prod fs).
Proof.
  intros Hp. induction fs as [|[q k] fs IH]; intros H1 H2; cbn [powers_prod].
  - intros [c Hc]. apply Hp. exists c. change (p * c ~ r1). symmetry. exact Hc.
  - inversion H1 as [|? ? [Hq _] H1']; subst. inversion H2 as [|? ? Hn H2']; subst. cbn in Hq, Hn.
    intros H. apply Hp in H as [H|H]; [|apply IH; auto]. apply prime_dvd_pow in H; auto. apply Hn. apply prime_dvd_prime; auto.
Qed.
Lemma rassoc_ref (a : T) : rassoc a a.
Proof. exists r1. split; [apply runit_1; auto|]. change (a ~ r1 * a). ring. Qed.
Lemma rassoc_ext (a a' b b' : T) : a ~ a' -> b ~ b' -> rassoc a b -> rassoc a' b'.
Proof. intros Ha Hb (u & Hu & H). exists u. split; auto. change (a ~ u * b) in H. change (a' ~ u * b'). rewrite <- Ha, <- Hb. exact H. Qed.
Lemma rassoc_mul (a b c d : T) : rassoc a b -> rassoc c d -> rassoc (a * c) (b * d).
Proof.
  intros (u & Hu & H1) (v & Hv & H2). change (a ~ u * b) in H1. change (c ~ v * d) in H2.
  exists (u * v). split; [apply runit_mul; auto|]. change (a * c ~ u * v * (b * d)). rewrite H1, H2. ring.
Qed.
Lemma dvd_prime_power (p : T) (Hp : rprime p) k : forall d e, rdvd d (npow p k * e) ->
  exists i d', i <= k /\ rdvd d' e /\ d ~ npow p i * d'.
Proof.
  induction k as [|k IH]; intros d e Hd.
  - exists 0%nat, d. split; auto. split; [|cbn; ring]. cbn in Hd. assert (Hx : r1 * e ~ e) by ring. rewrite <- Hx. exact Hd.
  - destruct Hd as [c Hc]. cbn [npow] in Hc. change (p * npow p k * e ~ d * c) in Hc.
    assert (Hdc : rdvd p (d * c)). { exists (npow p k * e). change (d * c ~ p * (npow p k * e)). rewrite <- Hc. ring. }
    destruct (proj2 (proj2 Hp) d c Hdc) as [[d1 H1]|[c1 H1]].
    + change (d ~ p * d1) in H1. destruct (IH d1 e) as (i & d' & Hi & Hd' & Hdd).
      { exists c. change (npow p k * e ~ d1 * c). apply (cancel R L div D p); [apply prime_nz; auto|].
        transitivity (p * npow p k * e); [ring|]. rewrite Hc, H1. ring. }
      exists (S i), d'. split; [lia|]. split; auto. rewrite H1, Hdd. cbn. ring.
    + change (c ~ p * c1) in H1. destruct (IH d e) as (i & d' & Hi & Hd' & Hdd).
      { exists c1. change (npow p k * e ~ d * c1). apply (cancel R L div D p); [apply prime_nz; auto|].
        transitivity (p * npow p k * e); [ring|]. rewrite Hc, H1. ring. }
      exists i, d'. split; [lia|]. split; auto.
Qed.
Lemma powers_prod_nz fs : Forall (fun pk => rprime (fst pk) /\ (0 < snd pk)%N) fs -> ~ @powers_prod R fs ~ r0.
Proof.
  induction 1 as [|[p k] fs [Hp _] H IH]; cbn [powers_prod]; [apply (one_ne_zero R div D)|].
  intros E. apply (id_nozerodiv _ _ D) in E as [E|E]; [|auto]. cbn in Hp.
  induction (N.to_nat k) as [|n IHn]; cbn in E; [apply (one_ne_zero R div D); exact E|].
  apply (id_nozerodiv _ _ D) in E as [E|E]; [apply (prime_nz p Hp); exact E|auto].
Qed.

Definition divs_of (fs : list (T * N)) : list T :=
  map product (cartesian (map (fun pk => powers_upto (N.to_nat (snd pk)) (fst pk) r1) fs)).
Lemma divisors_divs_of (f : factored) : divisors f = divs_of (f_factors f).
Proof. unfold divisors, divs_of. destruct (f_factors f); reflexivity. Qed.
Lemma divs_of_cons p k fs d : In d (divs_of ((p, k) :: fs)) <-> exists x l, In x (powers_upto (N.to_nat k) p r1) /\
   In l (cartesian (map (fun pk => powers_upto (N.to_nat (snd pk)) (fst pk) r1) fs)) /\ d = product (x :: l).
Proof.
  unfold divs_of. cbn [map cartesian fst snd]. rewrite in_map_iff. split.
  - intros (l & <- & Hl). apply in_flat_map in Hl as (x & Hx & Hl). apply in_map_iff in Hl as (l' & <- & Hl'). eauto.
  - intros (x & l & Hx & Hl & ->). exists (x :: l). split; auto. apply in_flat_map. exists x. split; auto. apply in_map; auto.
Qed.
Lemma divs_of_sound fs : forall d, In d (divs_of fs) -> rdvd d (powers_prod fs).
Proof.
  induction fs as [|[p k] fs IH]; intros d.
  - cbn. intros [<-|[]]. apply rdvd_ref; auto.
  - rewrite divs_of_cons. intros (x & l & Hx & Hl & ->). rewrite product_ok. cbn [rprod powers_prod].
    apply powers_upto_in in Hx as (i & Hi & Hx).
    destruct (IH (product l)) as [c Hc]. { unfold divs_of. apply in_map. exact Hl. }
    change (powers_prod fs ~ product l * c) in Hc. rewrite product_ok in Hc.
    exists (npow p (N.to_nat k - i) * c). change (npow p (N.to_nat k) * powers_prod fs ~ x * rprod l * (npow p (N.to_nat k - i) * c)).
    rewrite Hx, Hc. replace (N.to_nat k) with (i + (N.to_nat k - i))%nat at 1 by lia. rewrite (npow_add R L). ring.
Qed.
Lemma divs_of_complete fs : Forall (fun pk => rprime (fst pk) /\ (0 < snd pk)%N) fs -> forall d, rdvd d (powers_prod fs) ->
  exists d', In d' (divs_of fs) /\ rassoc d d'.
Proof.
  induction 1 as [|[p k] fs [Hp _] H IH]; intros d Hd.
  - cbn in *. exists r1. split; auto. exists d. destruct Hd as [c Hc]. split; [exists c; change (d * c ~ r1); symmetry; exact Hc|].
    change (d ~ d * r1). ring.
  - cbn [fst] in Hp. cbn [powers_prod] in Hd. apply dvd_prime_power in Hd as (i & d1 & Hi & Hd1 & Hd); auto.
    destruct (IH d1 Hd1) as (d2 & Hd2 & Ha). destruct (powers_upto_all (N.to_nat k) p r1 i Hi) as (x & Hx & Hxe).
    unfold divs_of in Hd2. apply in_map_iff in Hd2 as (l & <- & Hl).
    exists (product (x :: l)). split; [rewrite divs_of_cons; eauto|].
    eapply rassoc_ext; [symmetry; exact Hd| |apply rassoc_mul; [apply (rassoc_ref (npow p i))|exact Ha]].
    rewrite !product_ok. cbn [rprod]. rewrite Hxe. ring.
Qed.
(* the listed divisors are pairwise non-associate *)
Lemma FOP_flat {A B} (P : B -> B -> Prop) (f : A -> list B) (l : list A) :
  (forall a, In a l -> ForallOrdPairs P (f a)) ->
  ForallOrdPairs (fun a b => forall x y, In x (f a) -> In y (f b) -> P x y) l ->
  ForallOrdPairs P (flat_map f l).
Proof.
  intros H1 H2. induction H2 as [|a l Hh H2 IH]; cbn; [constructor|].
  assert (Hrest : ForallOrdPairs P (flat_map f l)) by (apply IH; intros; apply H1; right; auto).
  pose proof (H1 a (or_introl eq_refl)) as Ha. clear H1 H2 IH.
  assert (Hcross : Forall (fun x => Forall (P x) (flat_map f l)) (f a)).
  { apply Forall_forall. intros x Hx. apply Forall_forall. intros y Hy. apply in_flat_map in Hy as (b & Hb & Hy).
    rewrite Forall_forall in Hh. eapply Hh; eauto. }
  clear Hh. induction Ha as [|x xs Hx Hxs IHx]; cbn; auto. inversion Hcross; subst. constructor; auto. apply Forall_app; auto.
Qed.
Lemma FOP_map {A B} (P : B -> B -> Prop) (f : A -> B) l : ForallOrdPairs (fun a b => P (f a) (f b)) l -> ForallOrdPairs P (map f l).
Proof. induction 1; cbn; constructor; auto. apply Forall_map. auto. Qed.
Lemma FOP_powers (p : T) : rprime p -> forall k (a : T), ~ a ~ r0 ->
  ForallOrdPairs (fun x y => exists i j, i < j /\ x ~ a * npow p i /\ y ~ a * npow p j) (powers_upto k p a).
Proof.
  intros Hp. induction k as [|k IH]; intros a Ha; cbn [powers_upto]; [repeat constructor|].
  constructor.
  - apply Forall_forall. intros y Hy. apply powers_upto_in in Hy as (j & _ & Hy). exists 0%nat, (S j). split; [lia|]. split; [cbn; ring|].
    rewrite Hy. cbn. ring.
  - assert (Hap : ~ a * p ~ r0). { intros E. apply (id_nozerodiv _ _ D) in E as [E|E]; [auto|]. apply (prime_nz p Hp); exact E. }
    specialize (IH (a * p) Hap). clear - IH L.
    induction IH as [|x l Hx Hl IHl]; constructor; auto.
    eapply Forall_impl; [|exact Hx]. intros y (i & j & Hij & H1 & H2). exists (S i), (S j). split; [lia|].
    split; [rewrite H1|rewrite H2]; cbn; ring.
Qed.
Lemma divs_of_distinct fs : Forall (fun pk => rprime (fst pk) /\ (0 < snd pk)%N) fs -> non_associate fs ->
  ForallOrdPairs (fun x y => ~ rassoc x y) (divs_of fs).
Proof.
  induction 1 as [|[p k] fs [Hp Hk] H IH]; intros Hna.
  - repeat constructor.
  - cbn [fst snd] in *. inversion Hna as [|? ? Hh Hna']; subst. specialize (IH Hna').
    pose proof (prime_nz p Hp) as Hpz.
    assert (Hpn : forall n, ~ npow p n ~ r0).
    { induction n as [|n IHn]; cbn; [apply (one_ne_zero R div D)|]. intros E. apply (id_nozerodiv _ _ D) in E as [E|E]; auto. }
    pose proof (prime_not_dvd_rest p fs Hp H Hh) as Hnd.
    unfold divs_of in *. cbn [map cartesian fst snd]. rewrite flat_map_concat_map, concat_map, map_map, <- flat_map_concat_map.
    apply FOP_flat.
    + intros x Hx. apply powers_upto_in in Hx as (i & _ & Hx). rewrite map_map. apply FOP_map.
      revert IH. generalize (cartesian (map (fun pk => powers_upto (N.to_nat (snd pk)) (fst pk) (@r1 R)) fs)). intros l.
      induction l as [|a l IHl]; cbn [map]; intros HH; inversion HH; subst; constructor; auto.
      apply Forall_forall. intros b Hb (u & Hu & Heq). rewrite Forall_map, Forall_forall in H2. apply (H2 b Hb).
      exists u. split; auto. change (product (x :: a) ~ u * product (x :: b)) in Heq. change (product a ~ u * product b).
      rewrite !product_ok in *. cbn [rprod] in Heq. apply (cancel R L div D x).
      { rewrite Hx. intros E. apply (Hpn i). rewrite <- E. ring. }
      rewrite Heq. ring.
    + pose proof (FOP_powers p Hp (N.to_nat k) r1 (one_ne_zero R div D)) as HP.
      assert (Hsound : forall l, In l (cartesian (map (fun pk => powers_upto (N.to_nat (snd pk)) (fst pk) (@r1 R)) fs)) -> rdvd (product l) (powers_prod fs)).
      { intros l Hl. apply divs_of_sound. unfold divs_of. apply in_map; auto. }
      revert Hsound. generalize (cartesian (map (fun pk => powers_upto (N.to_nat (snd pk)) (fst pk) (@r1 R)) fs)). intros ls Hsound.
      induction HP as [|x l Hx Hl IHl]; constructor; auto.
      eapply Forall_impl; [|exact Hx]. intros y (i & j & Hij & Hxi & Hyj) a b Ha Hb (u & Hu & Heq).
      apply in_map_iff in Ha as (la & <- & Hla). apply in_map_iff in Hla as (la' & <- & Hla').
      apply in_map_iff in Hb as (lb & <- & Hlb). apply in_map_iff in Hlb as (lb' & <- & Hlb').
      change (product (x :: la') ~ u * product (y :: lb')) in Heq. rewrite !product_ok in Heq. cbn [rprod] in Heq.
      apply Hnd. eapply (rdvd_trans R L); [|apply (Hsound la' Hla')]. rewrite product_ok.
      exists (npow p (j - i - 1) * u * rprod lb'). change (rprod la' ~ p * (npow p (j - i - 1) * u * rprod lb')).
      apply (cancel R L div D (npow p i)); auto. transitivity (x * rprod la'); [rewrite Hxi; ring|]. rewrite Heq, Hyj.
      replace j with (i + S (j - i - 1))%nat at 1 by lia. rewrite (npow_add R L). cbn [npow]. ring.
Qed.
Lemma cartesian_len {A} (ls : list (list A)) : length (cartesian ls) = fold_right (fun l n => (length l * n)%nat) 1%nat ls.
Proof.
  induction ls as [|l ls IH]; [reflexivity|]. cbn [cartesian fold_right]. rewrite <- IH. clear IH.
  induction l as [|x l IHl]; cbn [flat_map length Nat.mul]; [reflexivity|]. rewrite app_length, map_length, IHl. reflexivity.
Qed.
Lemma count_divisors_ok (f : factored) : count_divisors f = N.of_nat (length (divisors f)).
Proof.
  rewrite divisors_divs_of. unfold count_divisors, divs_of. rewrite map_length, cartesian_len.
  assert (G : forall fs c, fold_left (fun c (pk : T * N) => (c * (snd pk + 1))%N) fs c =
     (c * N.of_nat (fold_right (fun l n => (length l * n)%nat) 1%nat (map (fun pk => powers_upto (N.to_nat (snd pk)) (fst pk) (@r1 R)) fs)))%N).
  { induction fs as [|[p k] fs IH]; intros c; cbn [fold_left map fold_right fst snd]; [lia|].
    rewrite IH, powers_upto_len. rewrite Nat2N.inj_mul, Nat2N.inj_succ, N2Nat.id. lia. }
  rewrite G. lia.
Qed.
Lemma divisors_ok (f : factored) : runit (f_unit f) -> valid_factors (f_factors f) ->
  (forall d, In d (divisors f) -> rdvd d (expand f)) /\
  (forall d, rdvd d (expand f) -> exists d', In d' (divisors f) /\ rassoc d d') /\
  ForallOrdPairs (fun x y => ~ rassoc x y) (divisors f) /\
  count_divisors f = N.of_nat (length (divisors f)).
Proof.
  intros [v Hv] [H1 H2]. change (f_unit f * v ~ r1) in Hv. rewrite count_divisors_ok, divisors_divs_of.
  assert (He1 : rdvd (powers_prod (f_factors f)) (expand f)).
  { exists (f_unit f). change (expand f ~ powers_prod (f_factors f) * f_unit f). rewrite expand_ok. ring. }
  assert (He2 : rdvd (expand f) (powers_prod (f_factors f))).
  { exists v. change (powers_prod (f_factors f) ~ expand f * v). rewrite expand_ok.
    transitivity ((f_unit f * v) * powers_prod (f_factors f)); [rewrite Hv; ring|ring]. }
  split; [|split; [|split; [|reflexivity]]].
  - intros d Hd. eapply (rdvd_trans R L); [apply divs_of_sound; exact Hd|exact He1].
  - intros d Hd. apply divs_of_complete; auto. eapply (rdvd_trans R L); eauto.
  - apply divs_of_distinct; auto.
Qed.

(* factorize_by_find_factor *)
Lemma ffa_is_fav (e : T) : is_fav_assoc ffa (snd (ffa e)) = true.
Proof. unfold is_fav_assoc. apply (req_sym _ L). apply (fav_idem R L ffa F). Qed.
(* validity (prime, positive, pairwise non-associate) is preserved by products *)
Lemma rassoc_sym' (a b : T) : rassoc a b -> rassoc b a.
Proof.
  intros (u & [v Hv] & H). change (u * v ~ r1) in Hv. change (a ~ u * b) in H. exists v. split; [exists u; change (v * u ~ r1); rewrite <- Hv; ring|].
  change (b ~ v * a). rewrite H. transitivity ((u * v) * b); [rewrite Hv; ring|ring].
Qed.
Lemma div_assoc_unit (p q : T) : ~ q ~ r0 -> rassoc p q -> exists u, div p q = DivOk u /\ is_unit div u = true.
Proof.
  intros Hq (w & Hw & H). change (p ~ w * q) in H. pose proof (div_spec R div D p q) as A.
  destruct (div p q) as [u| |].
  - exists u. split; auto. apply (is_unit_ok R L div D). destruct A as [_ A]. change (p ~ u * q) in A.
    assert (E : u ~ w). { apply (cancel R L div D q); auto. transitivity (u * q); [ring|]. rewrite <- A, H. ring. }
    rewrite E. exact Hw.
  - contradiction.
  - exfalso. apply A. exists w. change (p ~ q * w). rewrite H. ring.
Qed.
Lemma mul_by_loop_valid fs : forall u p k, rprime p -> (0 < k)%N -> valid_factors fs -> valid_factors (snd (mul_by_loop div u fs p k)) /\
  (forall a, Forall (fun y => ~ rassoc a (fst y)) fs -> ~ rassoc a p -> Forall (fun y => ~ rassoc a (fst y)) (snd (mul_by_loop div u fs p k))).
Proof.
  induction fs as [|[q t] fs IH]; intros u p k Hp Hk Hv; cbn [mul_by_loop].
  - cbn [snd]. split; [split; [constructor; [split; [exact Hp|exact Hk]|constructor]|constructor; constructor]|].
    intros a _ Ha. constructor; [exact Ha|constructor].
  - destruct Hv as [Hv1 Hv2]. inversion Hv1 as [|? ? [Hq Ht] Hv1']; subst. inversion Hv2 as [|? ? Hh Hv2']; subst. cbn [fst snd] in *.
    destruct (IH u p k Hp Hk (conj Hv1' Hv2')) as [[I1 I2] I3].
    assert (Hrec : ~ rassoc q p ->
      let r := (let '(unit', rest') := mul_by_loop div u fs p k in (unit', (q, t) :: rest')) in
      valid_factors (snd r) /\
      (forall a, Forall (fun y => ~ rassoc a (fst y)) ((q, t) :: fs) -> ~ rassoc a p -> Forall (fun y => ~ rassoc a (fst y)) (snd r))).
    { intros Hqp. destruct (mul_by_loop div u fs p k) as [u' rest']. cbn [snd] in *. split; [split|].
      - constructor; auto.
      - constructor; auto.
      - intros a Ha Hap. inversion Ha; subst. constructor; auto. }
    destruct (div p q) as [u1| |] eqn:E1; [destruct (div q p) as [v1| |] eqn:E2|..].
    2-5: apply Hrec; intros Hqp; pose proof (rassoc_sym' _ _ Hqp) as Hpq;
      destruct (div_assoc_unit p q (prime_nz q Hq) Hpq) as (? & ? & _);
      destruct (div_assoc_unit q p (prime_nz p Hp) Hqp) as (? & ? & _); congruence.
    destruct (is_unit div u1 && is_unit div v1) eqn:Eu.
    + cbn [snd]. split; [split|].
      * constructor; auto. cbn. split; auto. lia.
      * constructor; auto.
      * intros a Ha Hap. inversion Ha; subst. constructor; auto.
    + apply Hrec. intros Hqp. pose proof (rassoc_sym' _ _ Hqp) as Hpq.
      destruct (div_assoc_unit p q (prime_nz q Hq) Hpq) as (u2 & Hu2 & Hu3).
      destruct (div_assoc_unit q p (prime_nz p Hp) Hqp) as (v2 & Hv3 & Hv4).
      rewrite E1 in Hu2. rewrite E2 in Hv3. inversion Hu2; inversion Hv3; subst. rewrite Hu3, Hv4 in Eu. discriminate.
Qed.
Lemma f_mul_valid (a b : factored) : valid_factors (f_factors a) -> valid_factors (f_factors b) -> valid_factors (f_factors (f_mul div a b)).
Proof.
  intros Ha [Hb _]. unfold f_mul.
  assert (G : forall fs acc, valid_factors (f_factors acc) -> Forall (fun pk : T * N => rprime (fst pk) /\ (0 < snd pk)%N) fs ->
     valid_factors (f_factors (fold_left (fun acc pk => mul_by_unchecked div acc (fst pk) (snd pk)) fs acc))).
  { induction fs as [|[p k] fs IH]; intros acc Hacc Hfs; cbn [fold_left fst snd]; auto.
    inversion Hfs as [|? ? [Hp Hk] Hfs']; subst. cbn [fst snd] in *. apply IH; auto.
    unfold mul_by_unchecked. destruct (mul_by_loop_valid (f_factors acc) (f_unit acc) p k Hp Hk Hacc) as [H _].
    destruct (mul_by_loop div (f_unit acc) (f_factors acc) p k). exact H. }
  apply G; auto.
Qed.
Lemma rprime_assoc (p q : T) : rassoc p q -> rprime p -> rprime q.
Proof.
  intros (u & [v Hv] & H) (H1 & H2 & H3). change (u * v ~ r1) in Hv. change (p ~ u * q) in H.
  assert (Hd1 : rdvd q p) by (exists u; change (p ~ q * u); rewrite H; ring).
  assert (Hd2 : rdvd p q). { exists v. change (q ~ p * v). rewrite H. transitivity ((u * v) * q); [rewrite Hv; ring|ring]. }
  split; [|split].
  - apply (neqv R). intros E. apply (neqv R) in H1. apply H1. rewrite H, E. ring.
  - intros [c Hc]. change (q * c ~ r1) in Hc. apply H2. exists (c * v). change (p * (c * v) ~ r1). rewrite H.
    transitivity ((u * v) * (q * c)); [ring|]. rewrite Hv, Hc. ring.
  - intros a b Hab. destruct (H3 a b (rdvd_trans R L _ _ _ Hd2 Hab)) as [Hx|Hx]; [left|right]; exact (rdvd_trans R L _ _ _ Hd1 Hx).
Qed.
(* I: a property of the elements met, e.g. being primitive *)
Lemma factorize_by_find_factor_ok (I : T -> Prop) (pf : T -> option find_factor_result) (mu : T -> nat) :
  (forall e, I e -> ~ e ~ r0 -> ~ runit e -> exists r, pf e = Some r /\
    match r with FFIrreducible => rprime e | FFComposite g h => e == g * h /\ mu g < mu e /\ mu h < mu e /\ I g /\ I h end) ->
  forall fuel e, mu e < fuel -> I e -> ~ e ~ r0 ->
  exists f, factorize_by_find_factor div ffa fuel pf e = Some f /\ expand f ~ e /\ runit (f_unit f) /\ valid_factors (f_factors f) /\
    Forall (fun x => is_fav_assoc ffa (fst x) = true) (f_factors f).
Proof.
  intros Hpf. induction fuel as [|fuel IH]; intros e He HI Hz; [lia|]. cbn [factorize_by_find_factor].
  destruct (is_zero e) eqn:Ez; [exfalso; apply Hz; exact Ez|].
  destruct (is_unit div e) eqn:Eu.
  - apply (is_unit_ok R L div D) in Eu. eexists; split; [reflexivity|]. split; [rewrite expand_ok; cbn; ring|]. split; [exact Eu|]. split; [repeat constructor|constructor].
  - destruct (Hpf e HI Hz) as ([|g h] & -> & Hr).
    + intros Hu. apply (is_unit_ok R L div D) in Hu. congruence.
    + eexists; split; [reflexivity|]. split; [apply factored_irreducible_ok|].
      unfold factored_irreducible_unchecked. pose proof (ffa_unit _ _ F e) as Hu. pose proof (ffa_is_fav e) as Hf. pose proof (ffa_eq _ _ F e) as Hq.
      destruct (ffa e) as [u a]. cbn in *. split; auto. split; [|auto]. split; [|repeat constructor].
      constructor; [|constructor]. split; [|reflexivity]. cbn. eapply rprime_assoc; [|exact Hr]. exists u. auto.
    + destruct Hr as (Hgh & H1 & H2 & HIg & HIh).
      destruct (IH g) as (a & -> & Ha & Hua & Hva & Hfa); [lia|exact HIg| |].
      { intros E. apply Hz. change (e ~ g * h) in Hgh. rewrite Hgh, E. ring. }
      destruct (IH h) as (b & -> & Hb & Hub & Hvb & Hfb); [lia|exact HIh| |].
      { intros E. apply Hz. change (e ~ g * h) in Hgh. rewrite Hgh, E. ring. }
      destruct (f_mul_ok a b Hfa Hfb) as (Hm & Hmu & Hmf).
      eexists; split; [reflexivity|]. split; [rewrite Hm, Ha, Hb; symmetry; exact Hgh|]. split; [auto|]. split; [|auto]. apply f_mul_valid; auto.
Qed.

Lemma npow_nz (p : T) n : ~ p ~ r0 -> ~ npow p n ~ r0.
Proof.
  intros Hp. induction n as [|n IHn]; cbn [npow]; [apply (one_ne_zero R div D)|].
  intros E. apply (id_nozerodiv _ _ D) in E as [E|E]; auto.
Qed.
Lemma npow_unit (u : T) n : runit u -> runit (npow u n).
Proof. intros Hu. induction n as [|n IHn]; cbn [npow]; [apply runit_1; auto|]. apply runit_mul; auto. Qed.
(* unique factorisation: equal values have equal factorisations *)
Lemma prime_pow_dvd_split (p e : T) (Hp : rprime p) : forall (k : nat) (c : T), ~ rdvd p c -> rdvd (npow p k) (c * e) -> rdvd (npow p k) e.
Proof.
  intros k c Hc. revert e. induction k as [|k IH]; intros e [d Hd].
  - exists e. change (e ~ r1 * e). ring.
  - cbn [npow] in Hd. change (c * e ~ p * npow p k * d) in Hd.
    assert (He : rdvd p e). { destruct (proj2 (proj2 Hp) c e) as [H|H]; auto; [|contradiction]. exists (npow p k * d). change (c * e ~ p * (npow p k * d)). rewrite Hd. ring. }
    destruct He as [e1 He]. change (e ~ p * e1) in He.
    destruct (IH e1) as [d1 Hd1].
    { exists d. change (c * e1 ~ npow p k * d). apply (cancel R L div D p); [apply prime_nz; auto|].
      transitivity (c * e); [rewrite He; ring|]. rewrite Hd. ring. }
    change (e1 ~ npow p k * d1) in Hd1. exists d1. cbn [npow]. change (e ~ p * npow p k * d1). rewrite He, Hd1. ring.
Qed.
Lemma prime_pow_dvd_factors (p : T) (Hp : rprime p) fs : valid_factors fs -> forall k, (0 < k)%nat -> rdvd (npow p k) (powers_prod fs) ->
  exists q j, In (q, j) fs /\ rassoc p q /\ (k <= N.to_nat j)%nat.
Proof.
  intros [H1 H2]. induction H1 as [|[q j] fs [Hq Hj] H1 IH]; intros k Hk Hd.
  - exfalso. destruct Hd as [c Hc]. apply Hp. destruct k; [lia|]. cbn [powers_prod npow] in Hc. change (r1 ~ p * npow p k * c) in Hc.
    exists (npow p k * c). change (p * (npow p k * c) ~ r1). rewrite Hc. ring.
  - cbn [fst snd] in *. inversion H2 as [|? ? Hh H2']; subst. cbn [powers_prod] in Hd. cbn [fst] in Hh.
    assert (Hdec : rassoc p q \/ ~ rassoc p q).
    { destruct (are_associate div p q) eqn:Ea.
      - left. apply (are_associate_ok R L div D) in Ea as [? ?]. apply (mutual_assoc R L div D); auto.
      - right. intros Ha. apply (assoc_dvd R L) in Ha. apply (are_associate_ok R L div D) in Ha. congruence. }
    destruct Hdec as [Ha|Ha].
    + exists q, j. split; [left; reflexivity|]. split; auto. destruct (le_lt_dec k (N.to_nat j)) as [|Hlt]; auto. exfalso.
      assert (Hn : ~ rdvd p (powers_prod fs)).
      { apply prime_not_dvd_rest; auto. eapply Forall_impl; [|exact Hh]. intros y Hy Hpy. apply Hy.
        destruct (rassoc_sym' _ _ Ha) as (u & Hu & E1). destruct Hpy as (v & Hv & E2).
        exists (u * v). split; [apply runit_mul; auto|]. change (q ~ u * p) in E1. change (p ~ v * fst y) in E2. change (q ~ u * v * fst y).
        rewrite E1, E2. ring. }
      assert (Hd' : rdvd (npow p k) (npow q (N.to_nat j))).
      { eapply prime_pow_dvd_split; [exact Hp|exact Hn|]. destruct Hd as [c Hc]. exists c.
        change (npow q (N.to_nat j) * powers_prod fs ~ npow p k * c) in Hc. change (powers_prod fs * npow q (N.to_nat j) ~ npow p k * c). rewrite <- Hc. ring. }
      destruct Ha as (u & [v Hv] & E1). change (p ~ u * q) in E1. change (u * v ~ r1) in Hv.
      destruct Hd' as [c Hc]. change (npow q (N.to_nat j) ~ npow p k * c) in Hc.
      assert (Hqj : npow q (N.to_nat j) ~ npow v (N.to_nat j) * npow p (N.to_nat j)).
      { rewrite <- (npow_mul_base R L). apply j_npow_proper; auto. rewrite E1. transitivity ((u * v) * q); [rewrite Hv; ring|ring]. }
      assert (Hpj : ~ npow p (N.to_nat j) ~ r0).
      { apply npow_nz. apply prime_nz; auto. }
      apply (proj1 (proj2 Hp)). 
      assert (Hv' : runit (npow v (N.to_nat j))).
      { apply npow_unit. exists u. change (v * u ~ r1). rewrite <- Hv. ring. }
      destruct Hv' as [w Hw]. change (npow v (N.to_nat j) * w ~ r1) in Hw.
      exists (npow p (k - N.to_nat j - 1) * c * w). change (p * (npow p (k - N.to_nat j - 1) * c * w) ~ r1).
      apply (cancel R L div D (npow p (N.to_nat j))); auto.
      transitivity (npow p (N.to_nat j + S (k - N.to_nat j - 1)) * c * w); [rewrite (npow_add R L); cbn [npow]; ring|].
      replace (N.to_nat j + S (k - N.to_nat j - 1))%nat with k by lia. rewrite <- Hc, Hqj.
      transitivity ((npow v (N.to_nat j) * w) * npow p (N.to_nat j)); [ring|]. rewrite Hw. ring.
    + destruct (IH H2' k Hk) as (q' & j' & Hin & Hq' & Hj').
      { eapply prime_pow_dvd_split; [exact Hp| |exact Hd]. intros Hx. apply prime_dvd_pow in Hx; auto. apply Ha. apply prime_dvd_prime; auto. }
      exists q', j'. split; [right; auto|auto].
Qed.
Lemma valid_In (fs : list (T * N)) p k : valid_factors fs -> In (p, k) fs -> rprime p /\ (0 < k)%N.
Proof. intros [H _] Hin. rewrite Forall_forall in H. apply (H (p, k) Hin). Qed.
Lemma valid_unique (fs : list (T * N)) : non_associate fs -> forall p k q j, In (p, k) fs -> In (q, j) fs -> rassoc p q -> k = j /\ p = q.
Proof.
  induction 1 as [|[x i] fs Hh Hna IH]; [intros ? ? ? ? []|]. intros p k q j [H|H] Hq Ha.
  - inversion H; subst. destruct Hq as [E|Hq]; [inversion E; auto|]. exfalso. rewrite Forall_forall in Hh. apply (Hh _ Hq). exact Ha.
  - destruct Hq as [E|Hq]; [|eauto]. inversion E; subst. exfalso. rewrite Forall_forall in Hh. apply (Hh _ H). apply rassoc_sym'. exact Ha.
Qed.
Lemma factors_match (fs gs : list (T * N)) u v : runit u -> runit v -> valid_factors fs -> valid_factors gs ->
  u * powers_prod fs ~ v * powers_prod gs -> forall p k, In (p, k) fs -> exists q, In (q, k) gs /\ rassoc p q.
Proof.
  intros Hu Hv Hf Hg E p k Hin. destruct (valid_In _ _ _ Hf Hin) as [Hp Hk].
  assert (Hsplit : forall (l : list (T * N)) x i, In (x, i) l -> rdvd (npow x (N.to_nat i)) (powers_prod l)).
  { induction l as [|[y t] l IHl]; [intros ? ? []|]. intros x i [H|H]; cbn [powers_prod].
    - inversion H; subst. exists (powers_prod l). change (npow x (N.to_nat i) * powers_prod l ~ npow x (N.to_nat i) * powers_prod l). ring.
    - apply (rdvd_mul_l R L). auto. }
  assert (Htr : forall (l1 l2 : list (T * N)) w z, runit z -> w * powers_prod l1 ~ z * powers_prod l2 -> rdvd (powers_prod l1) (powers_prod l2)).
  { intros l1 l2 w z [z' Hz] H. change (z * z' ~ r1) in Hz. exists (z' * w). change (powers_prod l2 ~ powers_prod l1 * (z' * w)).
    transitivity ((z * z') * powers_prod l2); [rewrite Hz; ring|]. transitivity (z' * (z * powers_prod l2)); [ring|]. rewrite <- H. ring. }
  destruct (prime_pow_dvd_factors p Hp gs Hg (N.to_nat k)) as (q & j & Hq & Hpq & Hle); [lia| |].
  { eapply (rdvd_trans R L); [exact (Hsplit fs p k Hin)|]. eapply Htr; [exact Hv|exact E]. }
  destruct (valid_In _ _ _ Hg Hq) as [Hqp Hj].
  destruct (prime_pow_dvd_factors q Hqp fs Hf (N.to_nat j)) as (p' & k' & Hp' & Hqp' & Hle'); [lia| |].
  { eapply (rdvd_trans R L); [exact (Hsplit gs q j Hq)|]. eapply Htr; [exact Hu|symmetry; exact E]. }
  assert (Hpp' : rassoc p p').
  { destruct Hpq as (a & Ha & E1). destruct Hqp' as (b & Hb & E2). exists (a * b). split; [apply runit_mul; auto|].
    change (p ~ a * q) in E1. change (q ~ b * p') in E2. change (p ~ a * b * p'). rewrite E1, E2. ring. }
  destruct (valid_unique fs (proj2 Hf) p k p' k' Hin Hp' Hpp') as [-> _].
  exists q. split; auto. replace k' with j; auto. lia.
Qed.
Lemma factored_equal_complete (a b : factored) : runit (f_unit a) -> runit (f_unit b) ->
  valid_factors (f_factors a) -> valid_factors (f_factors b) ->
  Forall (fun x => is_fav_assoc ffa (fst x) = true) (f_factors a) ->
  Forall (fun x => is_fav_assoc ffa (fst x) = true) (f_factors b) ->
  expand a ~ expand b -> factored_equal a b = true.
Proof.
  intros Hua Hub Ha Hb Hfa Hfb E. rewrite !expand_ok in E.
  pose proof (factors_match _ _ _ _ Hua Hub Ha Hb E) as M1.
  symmetry in E. pose proof (factors_match _ _ _ _ Hub Hua Hb Ha E) as M2. symmetry in E.
  rewrite Forall_forall in Hfa, Hfb.
  assert (P1 : forallb (fun x => existsb (fun y => req (fst x) (fst y)) (f_factors b)) (f_factors a) = true).
  { apply forallb_forall. intros [p k] Hin. apply existsb_exists. destruct (M1 p k Hin) as (q & Hq & Hpq). exists (q, k). split; auto. cbn.
    apply fav_assoc_eq; auto; [apply (Hfa _ Hin)|apply (Hfb _ Hq)]. }
  assert (P2 : forallb (fun y => existsb (fun x => req (fst x) (fst y)) (f_factors a)) (f_factors b) = true).
  { apply forallb_forall. intros [p k] Hin. apply existsb_exists. destruct (M2 p k Hin) as (q & Hq & Hpq). exists (q, k). split; auto. cbn.
    apply (req_sym _ L). apply fav_assoc_eq; auto; [apply (Hfb _ Hin)|apply (Hfa _ Hq)]. }
  assert (P3 : forallb (fun x => forallb (fun y => if req (fst x) (fst y) then N.eqb (snd x) (snd y) else true) (f_factors b)) (f_factors a) = true).
  { apply forallb_forall. intros [p k] Hin. apply forallb_forall. intros [q j] Hq. cbn [fst snd].
    destruct (req p q) eqn:Epq; auto. apply N.eqb_eq. destruct (M1 p k Hin) as (q' & Hq' & Hpq').
    assert (Hqq : rassoc q q'). { destruct Hpq' as (w & Hw & E1). exists w. split; auto. change (p ~ w * q') in E1. change (p ~ q) in Epq. change (q ~ w * q'). rewrite <- Epq. exact E1. }
    destruct (valid_unique _ (proj2 Hb) q j q' k Hq Hq' Hqq) as [-> _]. reflexivity. }
  unfold factored_equal. rewrite P1, P2, P3. cbn [negb].
  assert (Hunit : f_unit a ~ f_unit b).
  { assert (Hpp : powers_prod (f_factors a) ~ powers_prod (f_factors b)).
    { assert (Hne : forall fs : list (T * N), non_associate fs -> ForallOrdPairs (fun x y => ~ fst x ~ fst y) fs).
      { intros fs Hn. induction Hn as [|x l Hx Hl IHl]; constructor; auto. eapply Forall_impl; [|exact Hx]. intros y Hy Exy. apply Hy.
        exists r1. split; [apply runit_1; auto|]. change (fst x ~ r1 * fst y). rewrite Exy. ring. }
      pose proof (factored_equal_ok (Factored r1 (f_factors a)) (Factored r1 (f_factors b)) (Hne _ (proj2 Ha)) (Hne _ (proj2 Hb))) as Q.
      rewrite !expand_ok in Q. cbn [f_unit f_factors] in Q.
      assert (Q' : r1 * powers_prod (f_factors a) ~ r1 * powers_prod (f_factors b)).
      { apply Q. unfold factored_equal. cbn [f_unit f_factors]. rewrite P1, P2, P3, (req_refl _ L). reflexivity. }
      transitivity (r1 * powers_prod (f_factors a)); [ring|]. rewrite Q'. ring. }
    apply (cancel R L div D (powers_prod (f_factors b))); [apply powers_prod_nz; apply Hb|].
    transitivity (f_unit a * powers_prod (f_factors a)); [rewrite Hpp; ring|]. rewrite E. ring. }
  change (req (f_unit a) (f_unit b) = true) in Hunit. rewrite Hunit. reflexivity.
Qed.
End F.
