(* C11: the AKS primality test (rings/src/number/natural/primes.rs l.136-471) *)
From Coq Require Import NArith List Bool Lia.
From Verif Require Import RingModel NatSpec NatModel NatProofs NatProofs3 NatProofs4 AksModel AksProofs3 AksProofs4 AksProofs5.
Import ListNotations.
Local Open Scope N_scope.

Local Lemma power_big fuel n t : 1 < n -> is_power_test fuel n = Some t -> t <> PwZero /\ t <> PwOne.
Proof.
  intros H. unfold is_power_test. destruct (N.eqb_spec n 0); [lia|]. destruct (N.eqb_spec n 1); [lia|]. generalize pg_new. generalize fuel at 2 as steps. induction steps as [|k IH]; intros g; cbn [power_loop]; [discriminate|].
  destruct (pg_next fuel g) as [(q & g')|]; cbn [obind]; [|discriminate]. destruct (_ <? q); [intros [= <-]; split; discriminate|]. destruct (nth_root_floor n q); cbn [obind]; [|discriminate]. destruct (n =? _); [intros [= <-]; split; discriminate|apply IH].
Qed.
Local Lemma find_big fac fuel n r0 t : forall steps g, aks_find_r fac fuel steps n r0 g = Some (inl t) -> t = PPrime \/ t = PComposite.
Proof.
  induction steps as [|k IH]; intros g; cbn [aks_find_r]; [discriminate|]. destruct (pg_next fuel g) as [(q & g')|]; cbn [obind]; [|discriminate]. destruct (q <? r0); [apply IH|]. destruct (is_primitive_root _ _ _) as [[]|]; cbn [obind]; try discriminate; [|apply IH].
  intros [= <-]. destruct (n =? q); auto.
Qed.
Local Lemma gcds_big n t : 1 < n -> forall xs, aks_gcds n xs = Some (Some t) -> t = PPrime \/ t = PComposite.
Proof.
  intros H. induction xs as [|x xs IH]; cbn [aks_gcds]; [discriminate|]. destruct (gcd n x) as [g|]; cbn [obind]; [|discriminate]. destruct (negb _); auto. destruct (g =? n); [|intros [= <-]; auto].
  destruct (try_divisors_spec n) as (t' & E & Ht). rewrite E. cbn [obind]. intros [= <-]. destruct t'; auto; lia.
Qed.
Local Lemma aks_big dbg fac fuel n t : 1 < n -> aks dbg fac fuel n = Some t -> t = PPrime \/ t = PComposite.
Proof.
  intros H. unfold aks. destruct (is_power_test fuel n) as [pw|] eqn:E0; cbn [obind]; [|discriminate]. destruct (power_big _ _ _ H E0) as (A & B). destruct pw; try congruence; [intros [= <-]; auto|].
  destruct (aks_find_r _ _ _ _ _ _) as [[t'|r]|] eqn:E1; cbn [obind]; try discriminate; [intros [= <-]; apply (find_big _ _ _ _ _ _ _ E1)|].
  destruct (aks_s _ _ _ _) as [s|]; cbn [obind]; [|discriminate]. cbv zeta.
  destruct (aks_gcds n (aks_set s)) as [[t1|]|] eqn:G1; cbn [obind]; try discriminate; [intros [= <-]; apply (gcds_big n _ H _ G1)|].
  destruct (aks_gcds n (aks_prods _)) as [[t1|]|] eqn:G2; cbn [obind]; try discriminate; [intros [= <-]; apply (gcds_big n _ H _ G2)|].
  destruct (aks_gcds n (aks_diffs _)) as [[t1|]|] eqn:G3; cbn [obind]; try discriminate; [intros [= <-]; apply (gcds_big n _ H _ G3)|].
  destruct (existsb _ _); [intros [= <-]; auto|]. destruct (aks_all _ _) as [c|]; cbn [obind]; [|discriminate]. intros [= <-]. destruct c; auto.
Qed.
(* Whatever the factorisation routine answers, with or without debug assertions: Zero / One / Composite are right.
   Hence a prime is never called composite. *)
Theorem C11_composite_sound dbg fac fuel n t : aks dbg fac fuel n = Some t ->
  match t with PZero => n = 0 | POne => n = 1 | PComposite => composite_N n | PPrime => 1 < n end.
Proof.
  intros E. destruct (N.lt_ge_cases 1 n) as [H|H].
  - destruct (prime_dec n) as [P|P].
    + rewrite (aks_prime_only _ _ _ _ _ P E). auto.
    + assert (C : composite_N n) by (apply not_prime_composite; auto). destruct t; auto.
      * destruct (aks_big _ _ _ _ _ H E); discriminate.
      * destruct (aks_big _ _ _ _ _ H E); discriminate.
  - assert (n = 0 \/ n = 1) as [->| ->] by lia; unfold aks in E; cbn in E; injection E as <-; reflexivity.
Qed.
Print Assumptions C11_composite_sound.

(* Every prime is recognised (no panic, no failed assertion, termination), if the numbers up to p are factored correctly *)
Theorem C11_prime p fac : prime_N p -> (forall m, 0 < m <= p -> exists l, fac m = Some (Some l) /\ factorisation_of m l) ->
  exists F, forall fuel dbg, (F <= fuel)%nat -> aks dbg fac fuel p = Some PPrime.
Proof. apply aks_prime. Qed.
Print Assumptions C11_prime.

(* ... in particular with the crate's own factorisation, for p < 100020001 *)
Theorem C11_prime_real_factor p k : prime_N p -> p < 100020001 -> (3 <= k)%nat ->
  exists F, forall fuel dbg, (F <= fuel)%nat -> aks dbg (factor (is_prime (fun _ => None)) k) fuel p = Some PPrime.
Proof.
  intros Hp Hlt Hk. apply aks_prime; auto. intros m Hm. apply factor_small; auto; [|lia]. intros q Hq Hlq. unfold is_prime. rewrite primality_prime; auto. unfold mr_limit. lia.
Qed.
Print Assumptions C11_prime_real_factor.

(* primality_test, which hands the numbers >= 3317044064679887385961981 without a divisor < 1000 to AKS *)
Theorem C11_primality_test dbg fac fuel n t : primality_test (aks dbg fac fuel) n = Some t ->
  match t with PZero => n = 0 | POne => n = 1 | PComposite => composite_N n | PPrime => 1 < n end.
Proof.
  intros E. destruct (N.lt_ge_cases 1000 n) as [H|H].
  - destruct (N.lt_ge_cases n mr_limit) as [L|L].
    + destruct (prime_dec n) as [P|P].
      * rewrite primality_prime in E by auto. injection E as <-. lia.
      * assert (C : composite_N n) by (apply not_prime_composite; auto; lia). unfold primality_test in E. destruct (N.leb_spec n 1000); [lia|]. destruct (small_div_loop _ _ _ _) as [[|]|]; cbn [obind] in E; try discriminate; [injection E as <-; auto|].
        apply N.ltb_lt in L. rewrite L in E. destruct (miller_rabin n mr_fixed_bases) as [r|] eqn:Em; cbn [obind] in E; [|discriminate]. injection E as <-. destruct r as [t|]; [|lia].
        apply miller_rabin_ok in Em; [|apply mr_fixed_ok; auto]. destruct t; auto; lia.
    + unfold primality_test in E. destruct (N.leb_spec n 1000); [lia|]. destruct (small_div_loop _ _ _ _) as [b|] eqn:Eb; cbn [obind] in E; [|discriminate]. destruct b.
      * injection E as <-. destruct (small_div_loop_spec n 1000 1000 2) as [(_ & d & H1 & H2 & H3)|(Eb' & _)]; try lia; [apply composite_iff; [lia|]; exists d; repeat split; auto; lia|congruence].
      * apply N.ltb_ge in L. rewrite L in E. apply (C11_composite_sound _ _ _ _ _ E).
  - unfold primality_test in E. apply N.leb_le in H. rewrite H in E. destruct (try_divisors_spec n) as (t' & E' & Ht). rewrite E in E'. injection E' as <-. destruct t; auto. apply Ht.
Qed.
Print Assumptions C11_primality_test.

(* a concrete run *)
Definition fc := factor (is_prime (fun _ => None)) 20.
Example C11_ex : aks true fc 60 1009 = Some PPrime /\ aks true fc 60 2147 = Some PComposite /\ aks true fc 60 2209 = Some PComposite /\ prime_N 1009.
Proof. repeat split; try (vm_compute; reflexivity); destruct (try_divisors_spec 1009) as (t & E & H); vm_compute in E; injection E as <-; apply H. Qed.

(* A finding: the search stops as soon as the binomial expression equals n^e, which need not be the least s; the debug assertion then fails.
   In a debug build the call panics on 112, a release build answers Composite. *)
Theorem C11_debug_assertion_refuted : exists n fuel, aks false fc fuel n = Some PComposite /\ aks true fc fuel n = None /\
  exists r s rhs w, aks_find_r fc fuel fuel n (aks_r0 n) pg_new = Some (inr r) /\ aks_s false fuel n r = Some s /\ aks_rhs n r = Some rhs /\ 1 < s /\ aks_lhs r (s - 1) = Some w /\ ~ w < rhs.
Proof.
  exists 112, 60%nat. split; [vm_compute; reflexivity|]. split; [vm_compute; reflexivity|]. exists 5, 5, 112, 112. repeat split; try (vm_compute; reflexivity). lia.
Qed.
Print Assumptions C11_debug_assertion_refuted.
