(* Property theorems for permutations: C37, C38, C39. *)
From Coq Require Import List Arith Bool Lia Permutation.
From Verif Require Import PermSpec PermModel PermProofs PermProofs2.
Import ListNotations.

(* The values of type Permutation a user can build (permutation.rs keeps the field private, so these are all of them). *)
Inductive perm_value : list nat -> Prop :=
| pv_new v p : perm_new v = Some (Some p) -> perm_value p
| pv_id : perm_value perm_identity
| pv_inv p q : perm_value p -> perm_inverse p = Some q -> perm_value q
| pv_comp p q : perm_value p -> perm_value q -> perm_value (perm_compose p q)
| pv_of_n q : is_bij q -> perm_value (perm_of_n q).
Lemma perm_value_inv p : perm_value p -> is_bij p /\ is_reduced p.
Proof.
  induction 1 as [v p E| |p q Hp [IH1 IH2] E|p q Hp [P1 P2] Hq [Q1 Q2]|q Hq].
  - assert (Hb : is_bij v).
    { destruct (valid_check_spec v) as (b & Eb & Hb). unfold perm_new in E. rewrite Eb in E. destruct b; [apply Hb; auto|discriminate]. }
    destruct (proj1 (perm_new_spec v) Hb) as (p' & E' & H1 & H2 & _). rewrite E in E'. inversion E'; subst. auto.
  - split; [apply Permutation_refl|left; reflexivity].
  - destruct (inverse_spec p IH1) as (q' & E' & H1 & H2 & _). rewrite E in E'. inversion E'; subst. auto.
  - destruct (compose_spec p q P1 Q1) as (H1 & H2 & _). auto.
  - destruct (reduced_spec q Hq) as (H1 & H2 & _). auto.
Qed.

(* C37. new never panics, accepts exactly the vectors listing a bijection of {0..len-1}, and the result acts as the vector says. *)
Theorem C37_new : forall v,
  (is_bij v -> exists p, perm_new v = Some (Some p) /\ forall x, call p x = act v x) /\ (~ is_bij v -> perm_new v = Some None).
Proof.
  intros v. split.
  - intros H. destruct (proj1 (perm_new_spec v) H) as (p & E & _ & _ & Ha). eauto.
  - apply perm_new_spec.
Qed.
Print Assumptions C37_new.
(* two values are == (same vector) iff they act the same on every natural number *)
Theorem C37_eq_iff_same_action : forall p q, perm_value p -> perm_value q -> (p = q <-> forall x, call p x = call q x).
Proof.
  intros p q Hp Hq. apply perm_value_inv in Hp as [P1 P2], Hq as [Q1 Q2]. split; [intros ->; reflexivity|].
  intros H. apply reduced_unique; auto. intros x. rewrite <- !call_act. auto.
Qed.
Print Assumptions C37_eq_iff_same_action.
(* call is a bijection of the naturals; composition composes, inverse inverts (and never panics), and the group laws hold for == *)
Theorem C37_group : forall p q r, perm_value p -> perm_value q -> perm_value r ->
  (forall x y, call p x = call p y -> x = y) /\ (forall y, exists x, call p x = y) /\
  (forall x, call perm_identity x = x) /\ (forall x, call (perm_compose p q) x = call p (call q x)) /\
  perm_compose p (perm_compose q r) = perm_compose (perm_compose p q) r /\
  perm_compose perm_identity p = p /\ perm_compose p perm_identity = p /\
  exists i, perm_inverse p = Some i /\ perm_value i /\ perm_compose p i = perm_identity /\ perm_compose i p = perm_identity.
Proof.
  assert (Hcomp : forall p q, perm_value p -> perm_value q -> forall x, call (perm_compose p q) x = call p (call q x)).
  { intros p q Hp Hq x. apply perm_value_inv in Hp as [P1 _], Hq as [Q1 _]. rewrite !call_act. apply compose_spec; auto. }
  assert (Hid : forall x, call perm_identity x = x) by (intros [|x]; reflexivity).
  intros p q r Hp Hq Hr. destruct (perm_value_inv p Hp) as [P1 P2].
  split; [intros x y; rewrite !call_act; apply act_inj; auto|].
  split; [intros y; destruct (act_surj p y P1) as (x & Hx); exists x; rewrite call_act; auto|].
  split; [auto|]. split; [auto|].
  split; [apply C37_eq_iff_same_action; auto using pv_comp, pv_id; intros x; rewrite !Hcomp by auto using pv_comp, pv_id; reflexivity|].
  split; [apply C37_eq_iff_same_action; auto using pv_comp, pv_id; intros x; rewrite !Hcomp by auto using pv_comp, pv_id; auto|].
  split; [apply C37_eq_iff_same_action; auto using pv_comp, pv_id; intros x; rewrite !Hcomp by auto using pv_comp, pv_id; rewrite Hid; auto|].
  destruct (inverse_spec p P1) as (i & Ei & I1 & I2 & I3 & I4). assert (Hi : perm_value i) by exact (pv_inv p i Hp Ei).
  exists i. split; [auto|]. split; [auto|].
  split; apply C37_eq_iff_same_action; auto using pv_comp, pv_id; intros x; rewrite Hcomp, Hid, !call_act by auto; auto.
Qed.
Print Assumptions C37_group.
(* conversions with Permutation<N>: TryFrom succeeds iff no moved point is >= N, and round-trips *)
Theorem C37_conversion : forall N p, perm_value p ->
  ((forall x, call p x <> x -> x < N) -> exists q, try_from_perm N p = Some q /\ length q = N /\ is_bij q /\ (forall x, act q x = call p x) /\ perm_of_n q = p) /\
  ((exists x, call p x <> x /\ N <= x) -> try_from_perm N p = None).
Proof.
  intros N p Hp. apply perm_value_inv in Hp as [P1 P2]. destruct (try_from_spec N p P1 P2) as [S1 S2].
  assert (Hlen : forall x, act p x <> x -> x < length p). { intros x Hx. destruct (le_lt_dec (length p) x); auto. exfalso. apply Hx, act_over; auto. }
  split.
  - intros H. destruct S1 as (q & E & H1 & H2 & H3 & H4).
    + destruct P2 as [->|P2]; [cbn; lia|]. destruct (Nat.eq_dec (length p) 0) as [->|Hz]; [lia|].
      assert (Hlast : act p (length p - 1) <> length p - 1).
      { rewrite (act_nth p _ 0) by lia. intros E. apply P2. destruct (snoc_case p) as [->|(l & a & ->)]; [cbn in *; lia|].
        rewrite last_last. rewrite app_length in *. cbn [length] in *. rewrite app_nth2, Nat.add_sub, Nat.sub_diag in E by lia. cbn in E. lia. }
      specialize (H (length p - 1)). rewrite call_act in H. specialize (H Hlast). lia.
    + exists q. split; [auto|]. split; [auto|]. split; [auto|]. split; [|auto]. intros x. rewrite call_act. auto.
  - intros (x & Hx & HN). apply S2. rewrite call_act in Hx. specialize (Hlen x Hx). lia.
Qed.
Print Assumptions C37_conversion.
Example C37_example : perm_new [2; 0; 1; 3] = Some (Some [2; 0; 1]) /\ perm_new [0; 0; 1] = Some None /\ perm_new [0; 3] = Some None /\
  perm_compose [1; 0] [0; 2; 1] = [1; 2; 0] /\ perm_compose [1; 0] [1; 0] = [] /\ perm_inverse [1; 2; 0] = Some [2; 0; 1] /\ perm_value [2; 0; 1].
Proof. repeat split; try reflexivity. apply (pv_new [2; 0; 1; 3]). reflexivity. Qed.

(* C38. sign is the parity of the number of inversions, and a homomorphism to the two-element group; a k-cycle has sign (-1)^(k-1). *)
Theorem C38_sign_inversions : forall p n, perm_value p -> (forall x, call p x <> x -> x < n) ->
  sign p = if Nat.odd (inversions n (call p)) then Flip else Identity.
Proof.
  intros p n Hp Hn. pose proof Hp as Hp'. apply perm_value_inv in Hp' as [P1 P2].
  destruct (proj1 (C37_conversion n p Hp) Hn) as (q & Eq & Lq & _).
  unfold try_from_perm in Eq. destruct (Nat.ltb_spec n (length p)); [discriminate|].
  rewrite sign_par, <- (par_extend p n P1) by auto. rewrite par_odd. unfold c2_of.
  replace (inversions n (call p)) with (inversions n (act p)); [reflexivity|].
  unfold inversions. f_equal. apply filter_ext. intros [i j]. cbn. rewrite !call_act. reflexivity.
Qed.
Print Assumptions C38_sign_inversions.
Theorem C38_sign_homomorphism : forall p q, perm_value p -> perm_value q ->
  sign perm_identity = Identity /\ sign (perm_compose p q) = c2_compose (sign p) (sign q) /\
  forall i, perm_inverse p = Some i -> sign i = c2_inverse (sign p).
Proof.
  intros p q Hp Hq. destruct (perm_value_inv p Hp) as [P1 P2]. destruct (perm_value_inv q Hq) as [Q1 Q2].
  split; [reflexivity|]. split; [apply sign_compose; auto|]. intros i Hi.
  destruct (C37_group p p p Hp Hp Hp) as (_ & _ & _ & _ & _ & _ & _ & i' & Ei & Hi' & E & _). rewrite Hi in Ei. inversion Ei; subst i'.
  apply perm_value_inv in Hi' as [I1 _]. pose proof (sign_compose p i P1 I1) as Hs. rewrite E in Hs. change (sign perm_identity) with Identity in Hs.
  destruct (sign p), (sign i); cbn in *; reflexivity || congruence.
Qed.
Print Assumptions C38_sign_homomorphism.
Theorem C38_sign_of_cycle : forall c p, perm_value p -> NoDup c -> c <> [] -> is_cycle_action c (call p) ->
  sign p = if Nat.even (length c) then Flip else Identity.
Proof.
  intros c p Hp Hn Hc [H1 H2]. apply perm_value_inv in Hp as [P1 _]. apply (sign_cycle c p P1 Hn Hc). split; intros; rewrite <- call_act; auto.
Qed.
Print Assumptions C38_sign_of_cycle.
Example C38_example : sign [1; 0] = Flip /\ sign [1; 2; 0] = Identity /\ sign [1; 2; 3; 0] = Flip /\ inversions 3 (call [1; 2; 0]) = 2 /\
  is_cycle_action [0; 1; 2] (call [1; 2; 0]).
Proof.
  repeat split; try reflexivity.
  - intros i Hi. cbn in Hi. destruct i as [|[|[|i]]]; try reflexivity. lia.
  - intros x Hx. destruct x as [|[|[|x]]]; cbn in *; try tauto. unfold call. destruct x; reflexivity.
Qed.

(* C39. disjoint_cycles of any permutation terminates and returns the nontrivial orbits, each listed in the order the permutation moves along it,
   pairwise disjoint, and together exactly the moved points. *)
Theorem C39_disjoint_cycles : forall p, perm_value p -> exists F, forall fuel, F <= fuel ->
  exists cs, disjoint_cycles fuel p = Some cs /\ NoDup (concat cs) /\ (forall x, In x (concat cs) <-> call p x <> x) /\
    (forall c, In c cs -> 2 <= length c /\ forall i, i < length c -> call p (nth i c 0) = nth (S i mod length c) c 0) /\
    exists shape, cycle_shape fuel p = Some shape /\ Permutation shape (map (@length nat) cs).
Proof.
  intros p Hp. apply perm_value_inv in Hp as [P1 _]. exists (S (2 * length p)). intros fuel Hf.
  destruct (cycles_nontrivial p fuel P1 ltac:(lia)) as (cs & E & H1 & H2 & H3). exists cs.
  split; [auto|]. split; [auto|]. split; [intros x; rewrite call_act; auto|]. split.
  - intros c Hc. destruct (H3 c Hc) as [A B]. split; auto. intros i Hi. rewrite call_act. auto.
  - unfold cycle_shape. rewrite E. eexists; split; [reflexivity|].
    assert (Gi : forall x l, Permutation (insert_sorted x l) (x :: l)).
    { induction l as [|y l IH]; cbn [insert_sorted]; [auto|]. destruct (x <=? y); [auto|]. rewrite IH. apply perm_swap. }
    induction (map _ cs) as [|x l IH]; cbn [sort]; [auto|]. rewrite Gi, IH. reflexivity.
Qed.
Print Assumptions C39_disjoint_cycles.
(* Permutation<N>::new_from_cycles: for cycles with entries below N, never panics; an error iff some cycle repeats an entry; otherwise the
   product of the cycles' actions (leftmost applied last). *)
Definition prod_of (cycles : list (list nat)) (f : nat -> nat) : Prop :=
  exists fs, Forall2 is_cycle_action cycles fs /\ forall x, f x = fold_right (fun g y => g y) x fs.
Theorem C39_new_from_cycles : forall N cycles, (forall c x, In c cycles -> In x c -> x < N) ->
  ((exists c, In c cycles /\ ~ NoDup c) -> new_from_cycles N cycles = Some None) /\
  ((forall c, In c cycles -> NoDup c) -> exists p, new_from_cycles N cycles = Some (Some p) /\ is_bij p /\ length p = N /\ prod_of cycles (act p)).
Proof.
  intros N cycles Hb. destruct (new_from_cycles_spec N cycles Hb) as [S1 S2]. split; [auto|]. intros Hn.
  destruct (S2 Hn) as (p & fs & E & H1 & H2 & H3 & H4). exists p. split; [auto|]. split; [auto|]. split; [auto|]. exists fs. split; [auto|].
  intros x. rewrite H4. clear. induction fs as [|f fs IH]; cbn; congruence.
Qed.
Print Assumptions C39_new_from_cycles.
(* Permutation<N>: the disjoint cycles multiply back to the permutation *)
Theorem C39_cycles_recompose : forall p, is_bij p -> exists F, forall fuel, F <= fuel ->
  exists cs, disjoint_cycles_n fuel p = Some cs /\ new_from_cycles (length p) cs = Some (Some p).
Proof. intros p Hp. exists (S (2 * length p)). intros fuel Hf. apply cycles_recompose; auto; lia. Qed.
Print Assumptions C39_cycles_recompose.
(* permutation.rs: the conversion Cycle -> Permutation panics on EVERY nonempty cycle (the vector has max instead of max+1 entries). *)
Theorem C39_from_cycle_panics_refuted : forall cyc, cyc <> [] -> from_cycle cyc = None.
Proof. exact from_cycle_panics. Qed.
Print Assumptions C39_from_cycle_panics_refuted.
Example C39_example : cycle_new [0; 1; 2] = Some [0; 1; 2] /\ from_cycle [0; 1; 2] = None /\ from_cycle_n 4 [0; 1; 2] = Some [1; 2; 0; 3] /\
  disjoint_cycles 20 [1; 0; 2; 4; 3] = Some [[0; 1]; [3; 4]] /\ cycle_shape 20 [1; 0; 3; 4; 2] = Some [2; 3] /\
  disjoint_cycles_n 20 [1; 0; 2; 4; 3] = Some [[0; 1]; [2]; [3; 4]] /\ new_from_cycles 5 [[0; 1]; [2]; [3; 4]] = Some (Some [1; 0; 2; 4; 3]) /\
  new_from_cycles 3 [[0; 0]] = Some None.
Proof. vm_compute. auto 20. Qed.
