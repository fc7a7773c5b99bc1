(* Property theorems for Factored (rings/src/structure/factorization.rs): C21 and C55. *)
From Coq Require Import List Arith NArith ZArith Znumtheory Bool Lia.
From Verif Require Import RingSpec RingModel RingProofs RingProofs2 FactoredSpec FactoredModel FactoredProofs.
Import ListNotations.
Open Scope nat_scope.
Open Scope rs_scope.

(* every factor is its own favourite associate (documented invariant, l.45) *)
Definition favs {R : ring_ops} (ffa : ffa_op R) (fs : list (T R * N)) : Prop := Forall (fun x => fst x == snd (ffa (fst x))) fs.

(* C21. expand is unit * prod p_i^k_i *)
Theorem C21_expand : forall R div, idom_laws R div -> forall f : factored R, expand f == f_unit f * powers_prod (f_factors f).
Proof. intros R div D f. exact (expand_ok R div D f). Qed.
Print Assumptions C21_expand.
Theorem C21_mul : forall R div ffa, idom_laws R div -> ffa_laws R ffa -> forall a b : factored R,
  favs ffa (f_factors a) -> favs ffa (f_factors b) ->
  expand (f_mul div a b) == expand a * expand b /\
  (runit (f_unit a) -> runit (f_unit b) -> runit (f_unit (f_mul div a b))) /\
  favs ffa (f_factors (f_mul div a b)) /\
  (valid_factors (f_factors a) -> valid_factors (f_factors b) -> valid_factors (f_factors (f_mul div a b))).
Proof.
  intros R div ffa D F a b Ha Hb. destruct (f_mul_ok R div ffa D F a b Ha Hb) as (H1 & H2 & H3).
  split; [exact H1|]. split; [exact H2|]. split; [exact H3|]. exact (f_mul_valid R div D a b).
Qed.
Print Assumptions C21_mul.
(* pow is right only when the unit u satisfies u^k = u (e.g. u = 1) *)
Theorem C21_pow_partial : forall R div, idom_laws R div -> forall (f : factored R) k, npow (f_unit f) (N.to_nat k) == f_unit f ->
  expand (f_pow f k) == npow (expand f) (N.to_nat k).
Proof. intros R div D f k. exact (f_pow_ok R div D f k). Qed.
Print Assumptions C21_pow_partial.
(* In general pow forgets to raise the unit: exactly then the answer is wrong. *)
Theorem C21_pow_refuted :
  (forall R div, idom_laws R div -> forall (f : factored R) k, expand f =/= r0 -> npow (f_unit f) (N.to_nat k) =/= f_unit f ->
     expand (f_pow f k) =/= npow (expand f) (N.to_nat k)) /\
  exists f : factored Z_ops, runit (f_unit f) /\ favs Z_ffa (f_factors f) /\ valid_factors (f_factors f) /\
    expand f = (-2)%Z /\ expand (f_pow f 2) = (-4)%Z.
Proof.
  split.
  - intros R div D f k Hz Hu. pose proof (id_ring _ _ D) as L.
    destruct (req (expand (f_pow f k)) (npow (expand f) (N.to_nat k))) eqn:E; [|reflexivity]. exfalso.
    assert (E1 := expand_ok R div D (f_pow f k)). assert (E2 := expand_ok R div D f).
    assert (E3 := powers_prod_pow R div D (f_factors f) k). cbn [f_pow f_unit f_factors] in E1.
    assert (Hpz : ~ eqv R (powers_prod (f_factors f)) r0).
    { intros H. apply (neqv R) in Hz. apply Hz. eapply (req_trans _ L); [exact E2|]. eapply (req_trans _ L); [apply (rmul_ext _ L); [apply (req_refl _ L)|exact H]|].
      eapply (req_trans _ L); [apply (rmul_comm _ L)|]. 
      assert (X : forall a : T R, r0 * a == r0). { intros a.  assert (Y : eqv R (r0 * a + r0 * a) (r0 * a)). { apply (req_sym _ L). eapply (req_trans _ L); [|apply (rdistr_l _ L)]. apply (rmul_ext _ L); [|apply (req_refl _ L)]. apply (req_sym _ L), (radd_0_l _ L). }
        eapply (req_trans _ L); [apply (req_sym _ L), (radd_0_l _ L)|]. 
        eapply (req_trans _ L); [apply (radd_comm _ L)|]. eapply (req_trans _ L); [apply (radd_ext _ L); [apply (req_refl _ L)|apply (req_sym _ L), (radd_neg _ L (r0 * a))]|].
        eapply (req_trans _ L); [apply (radd_assoc _ L)|]. eapply (req_trans _ L); [apply (radd_ext _ L); [exact Y|apply (req_refl _ L)]|]. apply (radd_neg _ L). }
      apply X. }
    assert (Hpk : ~ eqv R (npow (powers_prod (f_factors f)) (N.to_nat k)) r0) by (apply (npow_nz R div D); exact Hpz).
    apply (neqv R) in Hu. apply Hu. apply (cancel R L div D _ _ _ Hpk). change (npow (powers_prod (f_factors f)) (N.to_nat k) * npow (f_unit f) (N.to_nat k) == npow (powers_prod (f_factors f)) (N.to_nat k) * f_unit f).
    eapply (req_trans _ L); [|eapply (req_trans _ L); [apply (req_sym _ L); exact E|]].
    + eapply (req_trans _ L); [apply (rmul_comm _ L)|]. eapply (req_trans _ L); [apply (req_sym _ L); exact (npow_mul_base R L (f_unit f) (powers_prod (f_factors f)) (N.to_nat k))|].
      apply (npow_proper R L); [|reflexivity]. apply (req_sym _ L). exact E2.
    + eapply (req_trans _ L); [exact E1|]. eapply (req_trans _ L); [apply (rmul_ext _ L); [apply (req_refl _ L)|exact E3]|]. apply (rmul_comm _ L).
  - exists (Factored (R := Z_ops) (-1)%Z [(2%Z, 1%N)]). split; [exists (-1)%Z; reflexivity|]. split; [repeat constructor|]. split.
    + split; [|repeat constructor]. constructor; [|constructor]. cbn [fst snd]. split; [|reflexivity].
      split; [reflexivity|]. split.
      * intros [c Hc]. cbn -[Z.mul] in Hc. apply Z.eqb_eq in Hc. lia.
      * intros a b [c Hc]. cbn -[Z.mul] in Hc. apply Z.eqb_eq in Hc. cbn in a, b, c.
        destruct (prime_mult 2 prime_2 a b) as [[d Hd]|[d Hd]]; [exists c; lia|left|right]; exists d; cbn -[Z.mul]; apply Z.eqb_eq; lia.
    + vm_compute. auto.
Qed.
Print Assumptions C21_pow_refuted.
Theorem C21_divisors : forall R div, idom_laws R div -> forall f : factored R, runit (f_unit f) -> valid_factors (f_factors f) ->
  (forall d, In d (divisors f) -> rdvd d (expand f)) /\
  (forall d, rdvd d (expand f) -> exists d', In d' (divisors f) /\ rassoc d d') /\
  ForallOrdPairs (fun x y => ~ rassoc x y) (divisors f) /\
  count_divisors f = N.of_nat (length (divisors f)).
Proof. intros R div D f. exact (divisors_ok R div D f). Qed.
Print Assumptions C21_divisors.
Theorem C21_factors_list : forall R div, idom_laws R div -> forall f : factored R,
  rprod (factors_list f) == powers_prod (f_factors f) /\ expand_squarefree f == rprod (map fst (f_factors f)).
Proof.
  intros R div D f. pose proof (id_ring _ _ D) as L. split; [exact (factors_list_ok R div D f)|].
  unfold expand_squarefree. eapply (req_trans _ L); [exact (expand_ok R div D (make_squarefree f))|]. cbn [make_squarefree f_unit f_factors].
  eapply (req_trans _ L); [apply (rmul_1_l _ L)|].
  induction (f_factors f) as [|[p k] fs IH]; cbn [map powers_prod rprod fst]; [apply (req_refl _ L)|].
  apply (rmul_ext _ L); [|exact IH]. change (N.to_nat 1) with 1%nat. cbn [npow]. eapply (req_trans _ L); [apply (rmul_comm _ L)|apply (rmul_1_l _ L)].
Qed.
Print Assumptions C21_factors_list.
Example C21_example : let f := Factored (R := Z_ops) (-1)%Z [(2%Z, 2%N); (3%Z, 1%N)] in let g := Factored (R := Z_ops) 1%Z [(3%Z, 2%N); (5%Z, 1%N)] in
  expand (f_mul Z_div f g) = (-540)%Z /\ f_factors (f_mul Z_div f g) = [(2%Z, 2%N); (3%Z, 3%N); (5%Z, 1%N)] /\
  divisors f = [1; 3; 2; 6; 4; 12]%Z /\ count_divisors f = 6%N.
Proof. vm_compute. repeat split. Qed.

(* C55. On values satisfying the documented invariant, `equal` decides equality of the elements represented
   (soundness and unique factorisation). *)
Theorem C55_equal : forall R div ffa, idom_laws R div -> ffa_laws R ffa -> forall a b : factored R,
  runit (f_unit a) -> runit (f_unit b) -> valid_factors (f_factors a) -> valid_factors (f_factors b) ->
  favs ffa (f_factors a) -> favs ffa (f_factors b) ->
  (factored_equal a b = true <-> expand a == expand b).
Proof.
  intros R div ffa D F a b Hua Hub Ha Hb Hfa Hfb. split.
  - assert (Hne : forall fs : list (T R * N), non_associate fs -> ForallOrdPairs (fun x y => ~ eqv R (fst x) (fst y)) fs).
    { intros fs Hn. induction Hn as [|x l Hx Hl IHl]; constructor; auto. eapply Forall_impl; [|exact Hx]. intros y Hy Exy. apply Hy.
      pose proof (id_ring _ _ D) as L. exists r1. split; [apply runit_1; auto|]. eapply (req_trans _ L); [exact Exy|]. apply (req_sym _ L), (rmul_1_l _ L). }
    exact (factored_equal_ok R div D a b (Hne _ (proj2 Ha)) (Hne _ (proj2 Hb))).
  - exact (factored_equal_complete R div ffa D F a b Hua Hub Ha Hb Hfa Hfb).
Qed.
Print Assumptions C55_equal.
(* factorize_by_find_factor, started on a nonzero element satisfying I: if the callback never panics on the nonzero nonunits satisfying I
   that it can meet, is right about irreducibles, and splits everything else into factors satisfying I of smaller measure, then the
   result is a valid factorisation of the input in favourite-associate form. *)
Theorem C55_factorize_by_find_factor : forall R div ffa, idom_laws R div -> ffa_laws R ffa ->
  forall (I : T R -> Prop) (pf : T R -> option find_factor_result) (mu : T R -> nat),
  (forall e, I e -> e =/= r0 -> ~ runit e -> exists r, pf e = Some r /\
    match r with FFIrreducible => rprime e | FFComposite g h => e == g * h /\ mu g < mu e /\ mu h < mu e /\ I g /\ I h end) ->
  forall fuel e, mu e < fuel -> I e -> e =/= r0 ->
  exists f, factorize_by_find_factor div ffa fuel pf e = Some f /\ expand f == e /\ runit (f_unit f) /\
    valid_factors (f_factors f) /\ favs ffa (f_factors f).
Proof.
  intros R div ffa D F I pf mu H1 fuel e Hf HI Hz.
  destruct (factorize_by_find_factor_ok R div ffa D F I pf mu) with (fuel := fuel) (e := e) as (f & E & A & B & C & C'); auto.
  { intros e' HI' Hz'. apply H1; auto. apply (neqv R). exact Hz'. }
  { apply (neqv R). exact Hz. }
  exists f. split; [exact E|]. split; [exact A|]. split; [exact B|]. split; [exact C|exact C'].
Qed.
Print Assumptions C55_factorize_by_find_factor.
Definition demo_pf (e : Z) : option (@find_factor_result Z_ops) :=
  Some (if Z.eqb e 6 then @FFComposite Z_ops 2%Z 3%Z else if Z.eqb e (-12) then @FFComposite Z_ops 6%Z (-2)%Z else FFIrreducible).
Example C55_example : factorize_by_find_factor Z_div Z_ffa 9 demo_pf (-12)%Z = Some (Factored (R := Z_ops) (-1)%Z [(2%Z, 2%N); (3%Z, 1%N)]).
Proof. vm_compute. reflexivity. Qed.
