(* Property theorems for group.rs: C40, C41. *)
From Coq Require Import List Arith NArith ZArith Bool Lia.
From Verif Require Import PermSpec PermModel PermProofs PermProps GroupSpec GroupModel GroupProofs GroupProofs2.
Import ListNotations.

(* ---------- Permutation implements the trait lawfully *)
Definition perm_inv (p : list nat) : list nat := match perm_inverse p with Some q => q | None => p end.
Definition perm_eqb (a b : list nat) : bool := if list_eq_dec Nat.eq_dec a b then true else false.
Lemma perm_eqb_ok a b : perm_eqb a b = true <-> a = b.
Proof. unfold perm_eqb. destruct (list_eq_dec Nat.eq_dec a b); split; congruence. Qed.
Lemma perm_group : is_group perm_value perm_identity perm_inv perm_compose.
Proof.
  assert (Hi : forall p, perm_value p -> perm_value (perm_inv p) /\ perm_compose p (perm_inv p) = perm_identity /\ perm_compose (perm_inv p) p = perm_identity).
  { intros p Hp. destruct (C37_group p p p Hp Hp Hp) as (_ & _ & _ & _ & _ & _ & _ & i & E & H1 & H2 & H3). unfold perm_inv. rewrite E. auto. }
  constructor; try (intros; apply Hi; auto; fail).
  - apply pv_id.
  - intros; apply pv_comp; auto.
  - intros x y z Hx Hy Hz. apply (C37_group x y z); auto.
  - intros x Hx. apply (C37_group x x x); auto.
  - intros x Hx. apply (C37_group x x x); auto.
Qed.
(* a subgroup generated by finitely many permutations is finite *)
Fixpoint words (n k : nat) : list (list nat) := match k with 0 => [[]] | S k' => flat_map (fun w => map (fun x => x :: w) (seq 0 n)) (words n k') end.
Lemma words_spec n k w : length w = k -> (forall x, In x w -> x < n) -> In w (words n k).
Proof.
  revert w. induction k as [|k IH]; intros w Hl Hw.
  - destruct w; [left; auto|discriminate].
  - destruct w as [|x w]; [discriminate|]. cbn. apply in_flat_map. exists w. split; [apply IH; [cbn in Hl; lia|intros; apply Hw; right; auto]|].
    apply in_map_iff. exists x. split; auto. apply in_seq. specialize (Hw x (or_introl eq_refl)). lia.
Qed.
Lemma perms_finite gens : (forall g, In g gens -> perm_value g) -> exists L, forall x, generated perm_identity perm_inv perm_compose (fun g => In g gens) x -> In x L.
Proof.
  intros Hg. set (n := list_max (map (@length nat) gens)).
  assert (Hn : forall g, In g gens -> length g <= n).
  { intros g Hgg. pose proof (proj1 (list_max_le (map (@length nat) gens) n) (le_n _)) as F. rewrite Forall_forall in F. apply F. apply in_map; auto. }
  assert (Hb : forall x, generated perm_identity perm_inv perm_compose (fun g => In g gens) x -> perm_value x /\ length x <= n).
  { intros x H. induction H as [x Hx| |x _ [IHV IHl]|x y _ [IHV IHl] _ [JV Jl]].
    - split; auto.
    - split; [apply pv_id|cbn; lia].
    - split; [apply perm_group; auto|]. unfold perm_inv. destruct (perm_value_inv x IHV) as [Hb _]. destruct (inverse_raw x Hb) as (q & E & Hl & Hq & _).
      unfold perm_inverse. rewrite E. destruct (reduced_spec q Hq) as (_ & _ & Hr & _). unfold new_unchecked. lia.
    - split; [apply perm_group; auto|]. destruct (perm_value_inv x IHV) as [Hx _]. destruct (perm_value_inv y JV) as [Hy _]. unfold perm_compose, new_unchecked.
      set (v := map (fun i => call x (call y i)) (seq 0 (Nat.max (length x) (length y)))).
      assert (Hv : is_bij v).
      { apply map_seq_bij.
        - intros a Ha. rewrite !call_act. apply act_lt_N; auto; [lia|]. apply act_lt_N; auto; lia.
        - intros a b _ _. rewrite !call_act. intros E. apply act_inj in E; auto. apply act_inj in E; auto. }
      destruct (reduced_spec v Hv) as (_ & _ & Hr & _). unfold v in Hr at 2. rewrite map_length, seq_length in Hr. fold v. lia. }
  exists (flat_map (words n) (seq 0 (S n))). intros x Hx. destruct (Hb x Hx) as [HV Hl]. apply in_flat_map. exists (length x). split; [apply in_seq; lia|].
  apply words_spec; auto. intros y Hy. destruct (perm_value_inv x HV) as [Hbij _]. apply is_bij_iff in Hbij as [_ Hlt]. specialize (Hlt y Hy). lia.
Qed.

(* C40. nat_pow is the n-fold product; int_pow of a negative exponent is the inverse of that; and exponents add. In every group. *)
Theorem C40_nat_pow : forall A (V : A -> Prop) e inv op, is_group V e inv op -> forall x n, V x -> grp_nat_pow e op x n = gpow e op x (N.to_nat n).
Proof. intros. apply (nat_pow_spec V e inv op); auto. Qed.
Print Assumptions C40_nat_pow.
Theorem C40_int_pow : forall A (V : A -> Prop) e inv op, is_group V e inv op -> forall x n, V x ->
  ((0 <= n)%Z -> grp_int_pow e inv op x n = gpow e op x (Z.to_nat n)) /\
  ((n < 0)%Z -> op (grp_int_pow e inv op x n) (gpow e op x (Z.to_nat (- n))) = e /\ op (gpow e op x (Z.to_nat (- n))) (grp_int_pow e inv op x n) = e).
Proof.
  intros A V e inv op G x n Hx. destruct (int_pow_spec V e inv op G x n Hx) as [H1 H2]. split; [auto|]. intros Hn. rewrite H2 by auto.
  split; [apply (ig_invl _ _ _ _ G)|apply (ig_invr _ _ _ _ G)]; apply (gpow_V V e inv op G); auto.
Qed.
Print Assumptions C40_int_pow.
Theorem C40_exponents_add : forall A (V : A -> Prop) e inv op, is_group V e inv op -> forall x m n, V x ->
  grp_int_pow e inv op x (m + n) = op (grp_int_pow e inv op x m) (grp_int_pow e inv op x n) /\
  grp_int_pow e inv op x (- m) = inv (grp_int_pow e inv op x m).
Proof.
  intros A V e inv op G x m n Hx.
  assert (HV : forall k, V (gpow e op x k)) by (intros; apply (gpow_V V e inv op G); auto).
  assert (Hdiff : forall a b, op (gpow e op x (a + b)) (inv (gpow e op x b)) = gpow e op x a).
  { intros a b. rewrite (gpow_add V e inv op G) by auto. rewrite <- (ig_assoc _ _ _ _ G); auto; [|apply G; auto]. rewrite (ig_invr _ _ _ _ G), (ig_idr _ _ _ _ G); auto. }
  assert (Hdiff' : forall a b, op (inv (gpow e op x b)) (gpow e op x (b + a)) = gpow e op x a).
  { intros a b. rewrite (gpow_add V e inv op G) by auto. rewrite (ig_assoc _ _ _ _ G); auto; [|apply G; auto]. rewrite (ig_invl _ _ _ _ G), (ig_idl _ _ _ _ G); auto. }
  assert (Hneg : forall a b, op (inv (gpow e op x a)) (inv (gpow e op x b)) = inv (gpow e op x (a + b))).
  { intros a b. rewrite Nat.add_comm, (gpow_add V e inv op G) by auto. symmetry. apply (inv_op V e inv op G); auto. }
  assert (Hinv : forall a b c, op a b = c -> V a -> V b -> inv c = op (inv b) (inv a)) by (intros; subst; apply (inv_op V e inv op G); auto).
  assert (Hii : forall k, inv (inv (gpow e op x k)) = gpow e op x k) by (intros; apply (inv_inv V e inv op G); auto).
  destruct (int_pow_spec V e inv op G x (m + n) Hx) as [A1 A2], (int_pow_spec V e inv op G x m Hx) as [B1 B2], (int_pow_spec V e inv op G x n Hx) as [C1 C2],
    (int_pow_spec V e inv op G x (- m) Hx) as [D1 D2].
  split.
  - destruct (Z.lt_ge_cases m 0), (Z.lt_ge_cases n 0), (Z.lt_ge_cases (m + n) 0); try lia; rewrite ?B1, ?B2, ?C1, ?C2, ?A1, ?A2 by auto.
    + rewrite Hneg. do 2 f_equal. lia.
    + replace (Z.to_nat (- m)) with (Z.to_nat n + Z.to_nat (- (m + n))) by lia.
      rewrite <- (Hii (Z.to_nat n)). rewrite <- (inv_op V e inv op G) by (auto; apply G; auto).
      f_equal. symmetry. apply Hdiff'.
    + replace (Z.to_nat n) with (Z.to_nat (- m) + Z.to_nat (m + n)) by lia. symmetry. apply Hdiff'.
    + replace (Z.to_nat (- n)) with (Z.to_nat (- (m + n)) + Z.to_nat m) by lia.
      rewrite <- (Hii (Z.to_nat m)). rewrite <- (inv_op V e inv op G) by (auto; apply G; auto).
      f_equal. symmetry. apply Hdiff.
    + replace (Z.to_nat m) with (Z.to_nat (m + n) + Z.to_nat (- n)) by lia. symmetry. apply Hdiff.
    + rewrite <- (gpow_add V e inv op G) by auto. f_equal. lia.
  - destruct (Z.lt_ge_cases m 0).
    + rewrite D1, B2 by lia. symmetry. rewrite Hii. reflexivity.
    + destruct (Z.eq_dec m 0) as [->|]; [cbn; symmetry; apply (inv_e V e inv op G)|]. rewrite D2, B1 by lia. rewrite Z.opp_involutive. reflexivity.
Qed.
Print Assumptions C40_exponents_add.
Theorem C40_compose_list : forall A (V : A -> Prop) e inv op, is_group V e inv op -> forall l, Forall V l -> compose_list e op l = fold_right op e l.
Proof. intros. apply (compose_list_spec V e inv op); auto. Qed.
Print Assumptions C40_compose_list.
Example C40_example : is_group perm_value perm_identity perm_inv perm_compose /\ grp_int_pow perm_identity perm_inv perm_compose [1; 2; 3; 4; 0] (-7) = [3; 4; 0; 1; 2].
Proof. split; [exact perm_group|reflexivity]. Qed.

(* C41. If the generated subgroup is finite the closure computation terminates; and whatever it returns is exactly the generated subgroup, without repetition. *)
Theorem C41_generated_finite_subgroup : forall A (eqb : A -> A -> bool) (V : A -> Prop) e inv op, (forall x y, eqb x y = true <-> x = y) -> is_group V e inv op ->
  forall gens, (forall g, In g gens -> V g) ->
  (forall fuel r, generated_finite_subgroup eqb e op fuel gens = Some r -> NoDup r /\ forall x, In x r <-> generated e inv op (fun g => In g gens) x) /\
  ((exists L, forall x, generated e inv op (fun g => In g gens) x -> In x L) ->
   exists F, forall fuel, F <= fuel -> exists r, generated_finite_subgroup eqb e op fuel gens = Some r).
Proof.
  intros A eqb V e inv op Heq G gens Hg. split.
  - intros fuel r. apply (gfs_sound eqb Heq V e inv op G gens Hg).
  - intros (L & HL). exists (S (length L)). intros fuel Hf. eapply (gfs_term eqb Heq e inv op gens); eauto.
Qed.
Print Assumptions C41_generated_finite_subgroup.
(* The table version: the elements are exactly the generated subgroup, listed once; the two index maps are mutually inverse; element 0 is the identity;
   the table is a group table and multiplication/inversion of indices is multiplication/inversion of the elements. *)
Theorem C41_generated_table : forall A (eqb : A -> A -> bool) (V : A -> Prop) e inv op, (forall x y, eqb x y = true <-> x = y) -> is_group V e inv op ->
  forall gens, (forall g, In g gens -> V g) ->
  (forall fuel t es ix, generated_table eqb e inv op fuel gens = Some (t, es, ix) ->
    NoDup es /\ (forall x, In x es <-> generated e inv op (fun g => In g gens) x) /\ nth_error es 0 = Some e /\
    (forall x k, lookup eqb x ix = Some k <-> nth_error es k = Some x) /\
    tn t = length es /\ tident t = 0 /\ is_group_table (tn t) (tident t) (tinv t) (tmuls t) /\
    (forall i, i < length es -> nth (tab_inv (tinv t) i) es e = inv (nth i es e)) /\
    (forall i j, i < length es -> j < length es -> nth (tab_mul (tmuls t) i j) es e = op (nth i es e) (nth j es e))) /\
  ((exists L, forall x, generated e inv op (fun g => In g gens) x -> In x L) ->
   exists F, forall fuel, F <= fuel -> exists r, generated_table eqb e inv op fuel gens = Some r).
Proof.
  intros A eqb V e inv op Heq G gens Hg. split.
  - intros fuel t es ix. apply (generated_table_sound eqb Heq V e inv op G gens Hg).
  - intros (L & HL). exists (S (2 * (length L * length L))). intros fuel Hf. eapply (generated_table_term eqb Heq V e inv op G gens Hg); eauto.
Qed.
Print Assumptions C41_generated_table.
(* For permutations the generated subgroup is always finite, so both always terminate. *)
Theorem C41_permutations_terminate : forall gens, (forall g, In g gens -> perm_value g) -> exists F, forall fuel, F <= fuel ->
  (exists r, generated_finite_subgroup perm_eqb perm_identity perm_compose fuel gens = Some r) /\
  (exists r, generated_table perm_eqb perm_identity perm_inv perm_compose fuel gens = Some r).
Proof.
  intros gens Hg. pose proof (perms_finite gens Hg) as HL.
  destruct (proj2 (C41_generated_finite_subgroup _ perm_eqb _ _ _ _ perm_eqb_ok perm_group gens Hg) HL) as (F1 & H1).
  destruct (proj2 (C41_generated_table _ perm_eqb _ _ _ _ perm_eqb_ok perm_group gens Hg) HL) as (F2 & H2).
  exists (Nat.max F1 F2). intros fuel Hf. split; [apply H1; lia|apply H2; lia].
Qed.
Print Assumptions C41_permutations_terminate.
Example C41_example : option_map (@length _) (generated_finite_subgroup perm_eqb perm_identity perm_compose 20 [[1; 0]; [1; 2; 3; 0]]) = Some 24 /\
  match generated_table perm_eqb perm_identity perm_inv perm_compose 100 [[1; 0]; [1; 2; 0]] with Some (t, es, _) => tn t = 6 /\ length es = 6 | None => False end.
Proof. vm_compute. auto. Qed.
