(* Property theorems for composition tables: C42-C46, C56. *)
From Coq Require Import List Arith Lia Bool Sorting.Sorted Sorting.Permutation.
From Verif Require Import GroupSpec GroupModel GroupProofs GroupProofs2 TableSpec TableModel TableProofs TableProofs2 TableProofs3 TableProofs4 TableProofs5 HomModel HomProofs HomProofs2.
Import ListNotations.

(* the table t is a group on 0..n-1 *)
Notation group_table t := (is_group_table (tn t) (tident t) (tinv t) (tmuls t)).
Notation V t := (fun x => x < tn t).
Notation is_subgrp t H := (is_subgroup (V t) (tident t) (invT t) (mulT t) H).
Notation is_nsubgrp t H := (is_normal (V t) (tident t) (invT t) (mulT t) H).
Notation ascending l := (StronglySorted lt l).

(* example tables: the symmetric group S3 (generated by two transpositions, as coset tables list it) and cyclic groups *)
Definition S3t : table := mkTable 6 0 [0;1;2;4;3;5]
  [[0;1;2;3;4;5];[1;0;3;2;5;4];[2;4;0;5;1;3];[3;5;1;4;0;2];[4;2;5;0;3;1];[5;3;4;1;2;0]].
Definition C3t : table := mkTable 3 0 [0;2;1] [[0;1;2];[1;2;0];[2;0;1]].
Definition C6t : table := mkTable 6 0 [0;5;4;3;2;1] [[0;1;2;3;4;5];[1;2;3;4;5;0];[2;3;4;5;0;1];[3;4;5;0;1;2];[4;5;0;1;2;3];[5;0;1;2;3;4]].
Lemma by_check t : check_state t = Some true -> group_table t.
Proof. intros E. destruct (check_state_spec t) as (b & Eb & Hb). rewrite E in Eb. inversion Eb; subst. apply Hb; auto. Qed.
Example S3t_group : group_table S3t. Proof. apply by_check. vm_compute. reflexivity. Qed.
Example C6t_group : group_table C6t. Proof. apply by_check. vm_compute. reflexivity. Qed.
Example C3t_group : group_table C3t. Proof. apply by_check. vm_compute. reflexivity. Qed.
Definition pick_hd (l : list nat) : nat := hd 0 l.
Definition pick_last (l : list nat) : nat := last l 0.
Example pick_hd_choice : choice pick_hd. Proof. intros [|x l] H; [contradiction|left; reflexivity]. Qed.
Example pick_last_choice : choice pick_last.
Proof. intros l H. unfold pick_last. destruct (exists_last H) as (a & b & ->). rewrite last_last. apply in_or_app. right; left; auto. Qed.

(* ---------- C42: Group::new / check_state never panics, and accepts exactly the group tables *)
Theorem C42_new : forall n ident inv mul, exists o, group_new n ident inv mul = Some o /\
  (forall t, o = Some t -> t = mkTable n ident inv mul) /\ (o <> None <-> is_group_table n ident inv mul).
Proof.
  intros n ident inv mul. unfold group_new. destruct (check_state_spec (mkTable n ident inv mul)) as (b & -> & Hb). destruct b.
  - eexists. split; [reflexivity|]. split; [intros t [= <-]; auto|]. split; [intros _; apply Hb; auto|discriminate].
  - eexists. split; [reflexivity|]. split; [discriminate|]. split; [congruence|]. intros H. apply Hb in H. discriminate.
Qed.
Print Assumptions C42_new.
Example C42_new_ex : group_new 3 0 [0;2;1] [[0;1;2];[1;2;0];[2;0;1]] = Some (Some C3t) /\ group_new 3 0 [0;2;1] [[0;1;2];[1;2;0];[2;1;0]] = Some None /\ group_new 2 0 [0] [[0;1];[1;0]] = Some None.
Proof. repeat split. Qed.
(* from_raw_model on any finite group given by a repetition-free list of its elements: a group table, isomorphic through the listing *)
Theorem C42_from_raw_model : forall A (dflt : A) eqb es (Vg : A -> Prop) e inv op, (forall x y, eqb x y = true <-> x = y) -> is_group Vg e inv op -> NoDup es ->
  (forall x, In x es -> Vg x) -> In e es -> (forall x, In x es -> In (inv x) es) -> (forall x y, In x es -> In y es -> In (op x y) es) ->
  exists t, from_raw_model_unchecked eqb es e inv op = Some t /\ from_raw_model eqb es e inv op = Some (Some t) /\ group_table t /\ tn t = length es /\
    nth (tident t) es dflt = e /\ (forall i, i < tn t -> nth (invT t i) es dflt = inv (nth i es dflt)) /\
    (forall i j, i < tn t -> j < tn t -> nth (mulT t i j) es dflt = op (nth i es dflt) (nth j es dflt)).
Proof.
  intros A d eqb es Vg e inv op H1 H2 H3 H4 H5 H6 H7. destruct (from_raw_spec d eqb es Vg e inv op) as (t & E1 & E2 & E3 & E4 & E5 & E6 & E7); auto.
  exists t. split; [exact E1|]. split; [exact E2|]. split; [exact E3|]. split; [exact E4|]. split; [exact E5|]. rewrite E4. exact (conj E6 E7).
Qed.
Print Assumptions C42_from_raw_model.
Theorem C42_cyclic : forall n, (0 < n -> exists t, cyclic_group n = Some t /\ group_table t /\ tn t = n /\ tident t = 0 /\
    (forall x, x < n -> invT t x = (n - x) mod n) /\ (forall x y, x < n -> y < n -> mulT t x y = (x + y) mod n)) /\ cyclic_group 0 = None.
Proof. apply cyclic_spec. Qed.
Print Assumptions C42_cyclic.
Example C42_cyclic_ex : cyclic_group 6 = Some C6t. Proof. reflexivity. Qed.
Theorem C42_direct_product : forall a b, group_table a -> group_table b -> let p := direct_product a b in group_table p /\ tn p = tn a * tn b /\
  (forall x, x < tn p -> x mod tn a < tn a /\ x / tn a < tn b) /\
  (forall x y, x < tn p -> y < tn p -> mulT p x y mod tn a = mulT a (x mod tn a) (y mod tn a) /\ mulT p x y / tn a = mulT b (x / tn a) (y / tn a)).
Proof. intros a b Ha Hb. apply direct_product_spec; auto. Qed.
Print Assumptions C42_direct_product.
Theorem C42_order : forall t, group_table t -> forall x fuel, tn t <= fuel ->
  (x < tn t -> exists r, order fuel t x = Some (Some r) /\ 1 <= r <= tn t /\ gpow (tident t) (mulT t) x r = tident t /\ forall j, 1 <= j < r -> gpow (tident t) (mulT t) x j <> tident t) /\
  (tn t <= x -> order fuel t x = Some None).
Proof.
  intros t Ht x fuel Hf. split; [intros Hx; apply order_spec; auto|]. intros Hx. unfold order. destruct (Nat.ltb_spec x (tn t)); [lia|reflexivity].
Qed.
Print Assumptions C42_order.
Example C42_order_ex : order 6 S3t 3 = Some (Some 3) /\ order 6 S3t 1 = Some (Some 2). Proof. split; reflexivity. Qed.
Theorem C42_is_abelian : forall t, group_table t -> (compute_is_abelian t = true <-> forall x y, x < tn t -> y < tn t -> mulT t x y = mulT t y x).
Proof. intros t Ht. apply abelian_spec. Qed.
Print Assumptions C42_is_abelian.
Theorem C42_mul_many : forall t l, group_table t -> (forall x, In x l -> x < tn t) -> mul_many t l = fold_right (mulT t) (tident t) l.
Proof. intros t l Ht. apply mul_many_spec; auto. Qed.
Print Assumptions C42_mul_many.
(* conjugacy classes, for every iteration order *)
Theorem C42_conjugacy_classes : forall t pick, group_table t -> choice pick -> exists cs lk, conjugacy_classes pick t = Some (cs, lk) /\
  partitions_by (tn t) (conjugate (V t) (invT t) (mulT t)) cs lk.
Proof. intros t pick Ht Hp. apply conjugacy_classes_spec; auto. Qed.
Print Assumptions C42_conjugacy_classes.
Example C42_conjugacy_ex : conjugacy_classes pick_hd S3t = Some ([[0];[1;2;5];[3;4]], [0;1;1;2;2;1]). Proof. reflexivity. Qed.
(* PartitionState::check_state accepts exactly the partitions; Partition::eq decides equality of partitions *)
Theorem C42_partition_check : forall n cs lk, (forall c, In c cs -> ascending c) ->
  (ps_check n (cs, lk) = true <-> exists E, partitions_by n E cs lk).
Proof.
  intros n cs lk Ha. rewrite ps_check_spec by auto. split; [intros H; eauto|]. intros (E & P). apply (pb_ext n E); auto. destruct P as (_ & _ & _ & _ & P). intros x y Hx Hy. symmetry. auto.
Qed.
Print Assumptions C42_partition_check.
Theorem C42_partition_eq : forall n E1 E2 cs lk cs' lk', partitions_by n E1 cs lk -> partitions_by n E2 cs' lk' ->
  (partition_eq n (cs, lk) (cs', lk') = true <-> forall x y, x < n -> y < n -> (E1 x y <-> E2 x y)).
Proof. apply partition_eq_spec. Qed.
Print Assumptions C42_partition_eq.
Theorem C42_from_subsets : forall n cs, (forall c, In c cs -> ascending c) ->
  (forall p, from_subsets n cs = Some p -> fst p = cs /\ partitions_by n (fun x y => exists c, In c cs /\ In x c /\ In y c) cs (snd p)) /\
  (from_subsets n cs <> None <-> (forall c, In c cs -> c <> []) /\ (forall c x, In c cs -> In x c -> x < n) /\
     (forall x, x < n -> exists k, k < length cs /\ In x (nth k cs []) /\ forall j, j < length cs -> In x (nth j cs []) -> j = k)).
Proof.
  intros n cs Ha. destruct (from_subsets_spec n cs Ha) as [H1 H2]. split; [|exact H2]. intros p Hp. destruct (H1 p Hp) as [E P]. split; auto.
  apply (pb_ext n (fun x y => nth x (snd p) 0 = nth y (snd p) 0)); auto. pose proof P as (P1 & P2 & P3 & P4 & P5). intros x y Hx Hy. split.
  - intros Exy. exists (nth (nth x (snd p) 0) cs []). split; [apply nth_In; auto|]. split; apply P4; auto.
  - intros (c & Hc & Hxc & Hyc). apply (In_nth _ _ []) in Hc as (k & Hk & <-). apply P4 in Hxc, Hyc; auto. destruct Hxc, Hyc. congruence.
Qed.
Print Assumptions C42_from_subsets.
Example C42_from_subsets_ex : from_subsets 4 [[0;2];[1];[3]] = Some ([[0;2];[1];[3]], [0;1;0;2]) /\ from_subsets 4 [[0;2];[1]] = None /\ from_subsets 3 [[0;2];[1;2]] = None.
Proof. repeat split. Qed.

(* ---------- C43 *)
Theorem C43_generated_subgroup : forall t s, group_table t -> (forall x, In x s -> x < tn t) -> exists F, forall fuel, F <= fuel -> exists r,
  generated_subgroup fuel t s = Some (Some r) /\ ascending r /\ (forall x, In x r <-> generated (tident t) (invT t) (mulT t) (fun g => In g s) x) /\
  is_subgrp t (fun x => In x r) /\ forall H : nat -> Prop, is_subgrp t H -> (forall x, In x s -> H x) -> forall x, In x r -> H x.
Proof.
  intros t s Ht Hs. exists (S (tn t)). intros fuel Hf. destruct (generated_subgroup_spec t Ht s Hs fuel Hf) as (r & E & Ha & Hr). exists r. split; auto. split; auto. split; auto. split.
  - split; [intros x Hx; apply Hr in Hx; revert Hx; apply (generated_V _ _ _ _ (vt_group t Ht)); auto|]. split; [apply Hr, gen_e|]. split.
    + intros x Hx. apply Hr, gen_inv, Hr; auto.
    + intros x y Hx Hy. apply Hr, gen_op; apply Hr; auto.
  - intros H (H1 & H2 & H3 & H4) Hsub x Hx. apply Hr in Hx. induction Hx; auto.
Qed.
Print Assumptions C43_generated_subgroup.
Theorem C43_generated_subgroup_err : forall t s fuel, (exists x, In x s /\ tn t <= x) -> generated_subgroup fuel t s = Some None.
Proof.
  intros t s fuel (x & Hx & Hn). unfold generated_subgroup. destruct (forallb _ s) eqn:E; auto. rewrite forallb_forall in E. apply E, Nat.ltb_lt in Hx. lia.
Qed.
Print Assumptions C43_generated_subgroup_err.
Theorem C43_normal_closure : forall t s pick, group_table t -> choice pick -> (forall x, In x s -> x < tn t) -> exists F, forall fuel, F <= fuel -> exists r,
  normal_closure fuel pick t s = Some (Some r) /\ ascending r /\ (forall x, In x r <-> ncl (V t) (tident t) (invT t) (mulT t) (fun g => In g s) x) /\
  is_nsubgrp t (fun x => In x r) /\ forall H : nat -> Prop, is_nsubgrp t H -> (forall x, In x s -> H x) -> forall x, In x r -> H x.
Proof.
  intros t s pick Ht Hp Hs. exists (S (tn t)). intros fuel Hf. destruct (normal_closure_spec t Ht s Hs pick fuel Hp Hf) as (r & E & Ha & Hr). exists r. split; auto. split; auto. split; auto. split.
  - split; [split; [intros x Hx; apply Hr in Hx; apply (ncl_lt t Ht s Hs); auto|]; split; [apply Hr, ncl_e|split]|].
    + intros x Hx. apply Hr, ncl_inv, Hr; auto.
    + intros x y Hx Hy. apply Hr, ncl_op; apply Hr; auto.
    + intros g x Hg Hx. apply Hr, ncl_conj; auto. apply Hr; auto.
  - intros H [(H1 & H2 & H3 & H4) H5] Hsub x Hx. apply Hr in Hx. induction Hx; auto.
Qed.
Print Assumptions C43_normal_closure.
Example C43_ex : generated_subgroup 7 S3t [1] = Some (Some [0;1]) /\ normal_closure 7 pick_last S3t [1] = Some (Some [0;1;2;3;4;5]) /\ normal_closure 7 pick_hd S3t [3] = Some (Some [0;3;4]) /\ generated_subgroup 7 S3t [6] = Some None.
Proof. repeat split. Qed.
(* Subgroup::to_group *)
Theorem C43_to_group : forall t s, group_table t -> ascending s -> is_subgrp t (fun x => In x s) -> exists u, to_group t s = Some u /\ group_table u /\ tn u = length s /\
  nth (tident u) s 0 = tident t /\ (forall i, i < tn u -> nth (invT u i) s 0 = invT t (nth i s 0)) /\
  (forall i j, i < tn u -> j < tn u -> nth (mulT u i j) s 0 = mulT t (nth i s 0) (nth j s 0)).
Proof. intros t s Ht Ha Hs. destruct (to_group_spec t Ht s Ha Hs) as (u & H1 & H2 & H3 & H4). exists u. split; [exact H1|]. split; [exact H2|]. split; [exact H3|]. rewrite H3. exact H4. Qed.
Print Assumptions C43_to_group.
Example C43_to_group_ex : to_group S3t [0;3;4] = Some (mkTable 3 0 [0;2;1] [[0;1;2];[1;2;0];[2;0;1]]). Proof. reflexivity. Qed.

(* ---------- C44 *)
Theorem C44_left_cosets : forall t s pick, group_table t -> choice pick -> ascending s -> is_subgrp t (fun x => In x s) -> exists cs lk,
  left_cosets pick t s = Some (cs, lk) /\ partitions_by (tn t) (same_left_coset (V t) (mulT t) (fun x => In x s)) cs lk /\
  (forall c, In c cs -> length c = length s) /\ length cs * length s = tn t.
Proof. intros t s pick Ht Hp Ha Hs. apply left_cosets_spec; auto. Qed.
Print Assumptions C44_left_cosets.
Theorem C44_right_cosets : forall t s pick, group_table t -> choice pick -> ascending s -> is_subgrp t (fun x => In x s) -> exists cs lk,
  right_cosets pick t s = Some (cs, lk) /\ partitions_by (tn t) (same_right_coset (V t) (mulT t) (fun x => In x s)) cs lk /\
  (forall c, In c cs -> length c = length s) /\ length cs * length s = tn t.
Proof. intros t s pick Ht Hp Ha Hs. apply right_cosets_spec; auto. Qed.
Print Assumptions C44_right_cosets.
(* the quotient by a normal subgroup is a group; the class number is a surjective homomorphism with kernel the subgroup *)
Theorem C44_quotient : forall t s pick, group_table t -> choice pick -> ascending s -> is_nsubgrp t (fun x => In x s) -> exists q cs lk,
  normal_quotient pick t s = Some q /\ left_cosets pick t s = Some (cs, lk) /\ group_table q /\ tn q * length s = tn t /\
  (forall x, x < tn t -> nth x lk 0 < tn q) /\
  (forall x y, x < tn t -> y < tn t -> mulT q (nth x lk 0) (nth y lk 0) = nth (mulT t x y) lk 0) /\
  (forall k, k < tn q -> exists x, x < tn t /\ nth x lk 0 = k) /\
  (forall x, x < tn t -> (nth x lk 0 = tident q <-> In x s)).
Proof. intros t s pick Ht Hp Ha Hs. apply normal_quotient_spec; auto. Qed.
Print Assumptions C44_quotient.
Example C44_ex : left_cosets pick_hd S3t [0;1] = Some ([[0;1];[2;4];[3;5]], [0;0;1;2;1;2]) /\ right_cosets pick_hd S3t [0;1] = Some ([[0;1];[2;3];[4;5]], [0;0;1;1;2;2]) /\
  normal_quotient pick_hd S3t [0;3;4] = Some (mkTable 2 0 [0;1] [[0;1];[1;0]]).
Proof. repeat split. Qed.
(* is_left_cosets / is_right_cosets / is_congruence decide what they say, for every partition and iteration order *)
Theorem C44_is_left_cosets : forall t pick E cs lk, group_table t -> choice pick -> partitions_by (tn t) E cs lk -> exists b, is_left_cosets pick t (cs, lk) = Some b /\
  (b = true <-> exists H, is_subgrp t H /\ forall x y, x < tn t -> y < tn t -> (E x y <-> same_left_coset (V t) (mulT t) H x y)).
Proof. intros. apply is_left_cosets_spec; auto. Qed.
Print Assumptions C44_is_left_cosets.
Theorem C44_is_right_cosets : forall t pick E cs lk, group_table t -> choice pick -> partitions_by (tn t) E cs lk -> exists b, is_right_cosets pick t (cs, lk) = Some b /\
  (b = true <-> exists H, is_subgrp t H /\ forall x y, x < tn t -> y < tn t -> (E x y <-> same_right_coset (V t) (mulT t) H x y)).
Proof. intros. apply is_right_cosets_spec; auto. Qed.
Print Assumptions C44_is_right_cosets.
Theorem C44_is_congruence : forall t pick pick' E cs lk, group_table t -> choice pick -> choice pick' -> partitions_by (tn t) E cs lk -> exists b, is_congruence pick pick' t (cs, lk) = Some b /\
  (b = true <-> forall x x' y y', x < tn t -> x' < tn t -> y < tn t -> y' < tn t -> E x x' -> E y y' -> E (mulT t x y) (mulT t x' y')).
Proof. intros. apply is_congruence_spec; auto. Qed.
Print Assumptions C44_is_congruence.
Example C44_is_left_ex : is_left_cosets pick_hd S3t ([[0;1];[2;4];[3;5]], [0;0;1;2;1;2]) = Some true /\ is_right_cosets pick_hd S3t ([[0;1];[2;4];[3;5]], [0;0;1;2;1;2]) = Some false.
Proof. split; reflexivity. Qed.
(* and the quotient by any congruence is a group *)
Theorem C44_congruence_quotient : forall t E cs lk, group_table t -> partitions_by (tn t) E cs lk ->
  (forall x x' y y', x < tn t -> x' < tn t -> y < tn t -> y' < tn t -> E x x' -> E y y' -> E (mulT t x y) (mulT t x' y')) ->
  let q := quotient_group t (cs, lk) in group_table q /\ tn q = length cs /\
  (forall x y, x < tn t -> y < tn t -> mulT q (nth x lk 0) (nth y lk 0) = nth (mulT t x y) lk 0) /\
  (forall x, x < tn t -> (nth x lk 0 = tident q <-> E x (tident t))).
Proof. intros t E cs lk Ht P C. destruct (quotient_spec t Ht E cs lk P C) as (H1 & H2 & H3 & H4 & H5 & H6). cbn zeta. auto. Qed.
Print Assumptions C44_congruence_quotient.

(* ---------- C45: is_subgroup decides being a subgroup for non-empty subsets; but it accepts the empty subset *)
Theorem C45_is_subgroup_partial : forall t s, group_table t -> (forall x, In x s -> x < tn t) -> s <> [] -> (subset_is_subgroup t s = true <-> is_subgrp t (fun x => In x s)).
Proof. intros t s Ht. apply is_subgroup_spec; auto. Qed.
Print Assumptions C45_is_subgroup_partial.
Theorem C45_empty_refuted : forall t, subset_is_subgroup t [] = true /\ ~ is_subgrp t (fun x => In x []).
Proof. intros t. split; [reflexivity|]. intros (_ & [] & _). Qed.
Print Assumptions C45_empty_refuted.
Theorem C45_is_normal_subgroup : forall t s, group_table t -> is_subgrp t (fun x => In x s) -> (is_normal_subgroup t s = true <-> is_nsubgrp t (fun x => In x s)).
Proof. intros t s Ht. apply is_normal_spec; auto. Qed.
Print Assumptions C45_is_normal_subgroup.
Example C45_ex : subset_is_subgroup S3t [0;1] = true /\ subset_is_subgroup S3t [0;1;2] = false /\ is_normal_subgroup S3t [0;1] = false /\ is_normal_subgroup S3t [0;3;4] = true.
Proof. repeat split. Qed.
(* translates of a subset *)
Theorem C45_left_right_mul : forall t s g, group_table t -> (forall x, In x s -> x < tn t) ->
  (g < tn t -> exists l r, left_mul t s g = Some l /\ right_mul t s g = Some r /\ ascending l /\ ascending r /\
     (forall y, In y l <-> exists h, In h s /\ y = mulT t g h) /\ (forall y, In y r <-> exists h, In h s /\ y = mulT t h g)) /\
  (tn t <= g -> left_mul t s g = None /\ right_mul t s g = None).
Proof.
  intros t s g Ht Hs. unfold left_mul, right_mul. destruct (Nat.ltb_spec g (tn t)) as [Hg|Hg]; cbn [negb].
  - split; [intros _|lia]. do 2 eexists. split; [reflexivity|]. split; [reflexivity|]. split; [apply to_set_spec|]. split; [apply to_set_spec|].
    split; intros y; rewrite (proj2 (to_set_spec _)), in_map_iff; split; intros (h & H1 & H2); exists h; auto.
  - split; [lia|auto].
Qed.
Print Assumptions C45_left_right_mul.

(* ---------- C46 *)
Notation is_thom d r f := (is_hom (V d) (mulT d) (V r) (mulT r) f).
Definition isomorphic (d r : table) : Prop := exists f g, is_thom d r f /\ mutually_inverse (V d) (V r) f g.
(* generating_set: the generators and, for every element, a word in the generators with that product *)
Theorem C46_generating_set : forall t pick, group_table t -> choice pick -> exists s, generating_set pick t = Some s /\
  (forall g, In g (gs_gens s) -> g < tn t) /\ length (gs_elems s) = tn t /\
  (forall x, x < tn t -> (forall i, In i (nth x (gs_elems s) []) -> i < length (gs_gens s)) /\ fold_right (mulT t) (tident t) (map (fun i => nth i (gs_gens s) 0) (nth x (gs_elems s) [])) = x) /\
  (forall i, i < length (gs_gens s) -> nth (nth i (gs_gens s) 0) (gs_elems s) [] = [i]) /\
  (forall x, x < tn t -> generated (tident t) (invT t) (mulT t) (fun g => In g (gs_gens s)) x) /\ gs_check t s = true.
Proof.
  intros t pick Ht Hp. destruct (generating_set_spec t Ht pick Hp) as (s & E & Hs). pose proof Hs as (S1 & S2 & S3 & S4). exists s. split; auto. split; auto. split; auto. split; auto. split; auto.
  split; [apply genset_generates; auto|]. apply genset_check; auto.
Qed.
Print Assumptions C46_generating_set.
(* small_generating_set: fails (size() - 1 underflows) exactly when it re-tries with an empty generating set, in particular on every group of order 1 with at least two attempts *)
Theorem C46_small_generating_set_refuted : forall t picks, group_table t -> tn t = 1 -> small_generating_set picks t None = None.
Proof.
  intros t picks Ht Hn. assert (He : tident t = 0) by (pose proof (Ge t Ht); lia).
  unfold small_generating_set, generating_set, try_find_generating_set. rewrite Hn, He. cbn [g_outer g_sg]. rewrite Hn. reflexivity.
Qed.
Print Assumptions C46_small_generating_set_refuted.
Theorem C46_small_generating_set : forall t picks a, group_table t -> (forall k, choice (picks k)) -> 1 < tn t -> 0 < a -> exists s, small_generating_set picks t (Some a) = Some s /\
  (forall g, In g (gs_gens s) -> g < tn t) /\ (forall x, x < tn t -> generated (tident t) (invT t) (mulT t) (fun g => In g (gs_gens s)) x) /\
  gs_check t s = true /\ forall s0, generating_set (picks 0) t = Some s0 -> length (gs_gens s) <= length (gs_gens s0).
Proof.
  intros t picks a Ht Hp Hn Ha. unfold small_generating_set. destruct (Nat.eqb_spec a 0); [lia|]. destruct (generating_set_spec t Ht (picks 0) (Hp 0)) as (s0 & E0 & H0). rewrite E0.
  assert (Gn : forall k i s, genset_ok t s -> exists s', sgs_loop picks t k i s = Some s' /\ genset_ok t s' /\ length (gs_gens s') <= length (gs_gens s)).
  { induction k as [|k IH]; intros i s Hs; cbn [sgs_loop]; [exists s; auto|]. destruct (length (gs_gens s)) as [|m] eqn:El.
    - exfalso. destruct Hs as (S1 & S2 & S3 & S4). destruct (S3 0) as [Q1 Q2]; [lia|]. destruct (S3 1) as [Q3 Q4]; [lia|].
      destruct (nth 0 (gs_elems s) []) as [|i0 w0]; [|specialize (Q1 i0 (or_introl eq_refl)); lia]. destruct (nth 1 (gs_elems s) []) as [|i1 w1]; [|specialize (Q3 i1 (or_introl eq_refl)); lia].
      rewrite Q2 in Q4. discriminate.
    - destruct (try_find_spec t Ht (picks i) (Some m) (Hp i)) as (r & -> & Hr). destruct r as [s1|].
      + destruct Hr as [R1 R2]. destruct (IH (S i) s1 R1) as (s' & E & A & B). exists s'. split; auto. split; auto. specialize (R2 m eq_refl). lia.
      + destruct (IH (S i) s Hs) as (s' & E & A & B). exists s'. split; auto. split; auto. lia. }
  destruct (Gn (a - 1) 1 s0 H0) as (s & E & Hs & Hl). exists s. split; auto. split; [apply Hs|]. split; [apply genset_generates; auto|]. split; [apply genset_check; auto|]. intros s1 [= <-]. auto.
Qed.
Print Assumptions C46_small_generating_set.
(* generated_homomorphism returns the extension of the map on generators iff there is one *)
Theorem C46_generated_homomorphism : forall d r pick s pf, group_table d -> group_table r -> choice pick -> generating_set pick d = Some s ->
  (length pf = length (gs_gens s) -> (forall x, In x pf -> x < tn r) -> exists o, generated_homomorphism d s pf r = Some o /\
    match o with
    | Some f => length f = tn d /\ is_thom d r (fun x => nth x f 0) /\ (forall i, i < length pf -> nth (nth i (gs_gens s) 0) f 0 = nth i pf 0) /\
        forall h, is_thom d r h -> (forall i, i < length pf -> h (nth i (gs_gens s) 0) = nth i pf 0) -> forall x, x < tn d -> h x = nth x f 0
    | None => ~ exists f, is_thom d r f /\ forall i, i < length pf -> f (nth i (gs_gens s) 0) = nth i pf 0
    end) /\
  (length pf <> length (gs_gens s) \/ (exists x, In x pf /\ tn r <= x) -> generated_homomorphism d s pf r = None).
Proof.
  intros d r pick s pf Hd Hr Hp Es. destruct (generating_set_spec d Hd pick Hp) as (s' & E' & Hs). assert (s' = s) by congruence. subst s'. split.
  - intros Hl Hx. destruct (generated_homomorphism_spec d r Hd Hr s pf Hs Hl Hx) as (o & E & Ho). exists o. split; auto. destruct o as [f|]; auto. destruct Ho as (F1 & F2 & F3). split; auto. split; auto. split; auto.
    intros h Hh Hhi x Hx'. pose proof Hs as (S1 & S2 & S3 & S4). destruct (S3 x Hx') as [W1 W2]. rewrite <- W2. rewrite (hom_wprod d r Hd Hr h), (hom_wprod d r Hd Hr (fun x => nth x f 0)) by auto. f_equal.
    apply map_ext_in. intros g Hg. apply (In_nth _ _ 0) in Hg as (i & Hi & <-). rewrite Hhi, F3; auto; lia.
  - intros [Hl|(x & Hx & Hn)]; unfold generated_homomorphism.
    + destruct (Nat.eqb_spec (length pf) (length (gs_gens s))); [contradiction|reflexivity].
    + destruct (negb _); auto. destruct (forallb (fun x => x <? tn r) pf) eqn:E; auto. rewrite forallb_forall in E. apply E, Nat.ltb_lt in Hx. lia.
Qed.
Print Assumptions C46_generated_homomorphism.
Theorem C46_hom_check : forall d r f, hom_check d r f = true <-> length f = tn d /\ is_thom d r (fun x => nth x f 0).
Proof. apply hom_check_spec. Qed.
Print Assumptions C46_hom_check.
Theorem C46_to_isomorphism : forall d r f, group_table d -> length f = tn d -> is_thom d r (fun x => nth x f 0) -> exists o, to_isomorphism d r f = Some o /\
  match o with
  | Some (f', g) => f' = f /\ length g = tn r /\ mutually_inverse (V d) (V r) (fun x => nth x f 0) (fun y => nth y g 0)
  | None => ~ exists g, mutually_inverse (V d) (V r) (fun x => nth x f 0) g
  end.
Proof. intros d r f Hd Hl Hf. apply to_isomorphism_spec; auto. apply Hf. Qed.
Print Assumptions C46_to_isomorphism.
Theorem C46_iso_check : forall l r lf rf, iso_check l r lf rf = true <-> length lf = tn l /\ length rf = tn r /\ is_thom l r (fun x => nth x lf 0) /\
  is_thom r l (fun x => nth x rf 0) /\ mutually_inverse (V l) (V r) (fun x => nth x lf 0) (fun y => nth y rf 0).
Proof. apply iso_check_spec. Qed.
Print Assumptions C46_iso_check.
(* find_isomorphism terminates, and returns an isomorphism iff there is one, whatever the iteration orders *)
Theorem C46_find_isomorphism : forall d r picks, group_table d -> group_table r -> (forall k, choice (picks k)) -> exists F, forall fuel, F <= fuel -> exists o,
  find_isomorphism fuel picks d r = Some o /\ (o = None <-> ~ isomorphic d r) /\
  forall f g, o = Some (f, g) -> length f = tn d /\ length g = tn r /\ is_thom d r (fun x => nth x f 0) /\ mutually_inverse (V d) (V r) (fun x => nth x f 0) (fun y => nth y g 0).
Proof.
  intros d r picks Hd Hr Hp. destruct (find_isomorphism_spec d r Hd Hr picks Hp) as (F & HF). exists F. intros fuel Hf. destruct (HF fuel Hf) as (o & E & Ho). exists o. split; auto. destruct o as [[f g]|]; cbn [result_ok] in Ho.
  - destruct Ho as (H1 & H2 & H3 & H4). split; [|intros f' g' [= <- <-]; auto]. split; [discriminate|]. intros H. exfalso. apply H. exists (fun x => nth x f 0), (fun y => nth y g 0). split; auto.
  - split; [|discriminate]. split; auto.
Qed.
Print Assumptions C46_find_isomorphism.
Example C46_find_ex : find_isomorphism 100 (fun _ => pick_hd) C6t (direct_product C3t (mkTable 2 0 [0;1] [[0;1];[1;0]])) = Some (Some ([0;4;2;3;1;5],[0;4;2;3;1;5])) /\
  find_isomorphism 100 (fun _ => pick_hd) S3t C6t = Some None.
Proof. split; vm_compute; reflexivity. Qed.

(* ---------- C56: subgroups() lists every subgroup exactly once, each with a generating set; normal_subgroups() likewise *)
Lemma gen_clo t (Ht : vt t) : let clo := fun S => generated (tident t) (invT t) (mulT t) S in
  (forall (S : nat -> Prop) x, S x -> clo S x) /\ (forall S : nat -> Prop, (forall x, S x -> x < tn t) -> forall x, clo S x -> x < tn t) /\
  (forall S T : nat -> Prop, (forall x, S x -> clo T x) -> forall x, clo S x -> clo T x).
Proof.
  cbn zeta. split; [intros; apply gen_in; auto|]. split; [intros S HS; apply (generated_V _ _ _ _ (vt_group t Ht)); auto|]. intros S T H x Hx.
  induction Hx as [x Hx| |x Hx IH|x y Hx IH Hy IH']; auto; [apply gen_e|apply gen_inv; auto|apply gen_op; auto].
Qed.
Lemma ncl_clo t (Ht : vt t) : let clo := fun S => ncl (V t) (tident t) (invT t) (mulT t) S in
  (forall (S : nat -> Prop) x, S x -> clo S x) /\ (forall S : nat -> Prop, (forall x, S x -> x < tn t) -> forall x, clo S x -> x < tn t) /\
  (forall S T : nat -> Prop, (forall x, S x -> clo T x) -> forall x, clo S x -> clo T x).
Proof.
  cbn zeta. split; [intros; apply ncl_in; auto|]. split.
  - intros S HS x Hx. induction Hx; auto using Ge, Ginv, Gop.
  - intros S T H x Hx. induction Hx as [x Hx| |x Hx IH|x y Hx IH Hy IH'|g x Hg Hx IH]; auto; [apply ncl_e|apply ncl_inv; auto|apply ncl_op; auto|apply ncl_conj; auto].
Qed.
Theorem C56_subgroups : forall t ord, group_table t -> (forall l, Permutation (ord l) l) -> exists F, forall fuel, F <= fuel -> exists m, subgroups fuel ord t = Some m /\
  NoDup (map fst m) /\ (forall s, (exists g, In (s, g) m) <-> ascending s /\ is_subgrp t (fun x => In x s)) /\
  (forall s g, In (s, g) m -> forall x, In x s <-> generated (tident t) (invT t) (mulT t) (fun y => In y g) x).
Proof.
  intros t ord Ht Hord. destruct (gen_clo t Ht) as (C1 & C2 & C3). exists (2 + length (sublists (seq 0 (tn t)))). intros fuel Hf. pose proof (Ge t Ht) as He.
  destruct (subgroups_impl_spec (tn t) (fun s => match generated_subgroup (S (tn t)) t s with Some (Some r) => Some r | _ => None end)
     (fun S => generated (tident t) (invT t) (mulT t) S) C1 C2 C3) with (ord := ord) (t := t) (fuel := fuel) as (m & E & [M1 M2] & F); auto; [|lia|].
  { intros s Hs. destruct (generated_subgroup_spec t Ht s Hs (S (tn t))) as (r & -> & H1 & H2); [lia|]. exists r. auto. }
  exists m. split; auto. split; auto. split.
  - intros s. split.
    + intros (g & Hg). destruct (M1 _ Hg) as (G1 & G2 & G3 & G4 & G5). cbn [fst snd] in *. split; auto. split; [intros x Hx; apply G5 in Hx; apply C2 in Hx; auto|]. split; [apply G5, gen_e|]. split.
      * intros x Hx. apply G5, gen_inv, G5; auto.
      * intros x y Hx Hy. apply G5, gen_op; apply G5; auto.
    + intros (Ha & H1 & H2 & H3 & H4). apply F; auto; [intros ->; destruct H2|]. intros x Hx. induction Hx; auto.
  - intros s g Hg. apply (M1 _ Hg).
Qed.
Print Assumptions C56_subgroups.
Theorem C56_normal_subgroups : forall t ord pick, group_table t -> choice pick -> (forall l, Permutation (ord l) l) -> exists F, forall fuel, F <= fuel -> exists m, normal_subgroups fuel ord pick t = Some m /\
  NoDup (map fst m) /\ (forall s, (exists g, In (s, g) m) <-> ascending s /\ is_nsubgrp t (fun x => In x s)) /\
  (forall s g, In (s, g) m -> forall x, In x s <-> ncl (V t) (tident t) (invT t) (mulT t) (fun y => In y g) x).
Proof.
  intros t ord pick Ht Hp Hord. destruct (ncl_clo t Ht) as (C1 & C2 & C3). exists (2 + length (sublists (seq 0 (tn t)))). intros fuel Hf. pose proof (Ge t Ht) as He.
  destruct (subgroups_impl_spec (tn t) (fun s => match normal_closure (S (tn t)) pick t s with Some (Some r) => Some r | _ => None end)
     (fun S => ncl (V t) (tident t) (invT t) (mulT t) S) C1 C2 C3) with (ord := ord) (t := t) (fuel := fuel) as (m & E & [M1 M2] & F); auto; [|lia|].
  { intros s Hs. destruct (normal_closure_spec t Ht s Hs pick (S (tn t)) Hp) as (r & -> & H1 & H2); [lia|]. exists r. auto. }
  exists m. split; auto. split; auto. split.
  - intros s. split.
    + intros (g & Hg). destruct (M1 _ Hg) as (G1 & G2 & G3 & G4 & G5). cbn [fst snd] in *. split; auto. split; [split; [intros x Hx; apply G5 in Hx; apply C2 in Hx; auto|]; split; [apply G5, ncl_e|]; split|].
      * intros x Hx. apply G5, ncl_inv, G5; auto.
      * intros x y Hx Hy. apply G5, ncl_op; apply G5; auto.
      * intros k x Hk Hx. apply G5, ncl_conj; auto. apply G5; auto.
    + intros (Ha & (H1 & H2 & H3 & H4) & H5). apply F; auto; [intros ->; destruct H2|]. intros x Hx. induction Hx; auto.
  - intros s g Hg. apply (M1 _ Hg).
Qed.
Print Assumptions C56_normal_subgroups.
Example C56_ex : option_map (map fst) (subgroups 20 (fun l => l) S3t) = Some [[0];[0;1];[0;2];[0;3;4];[0;5];[0;1;2;3;4;5]] /\ option_map (map fst) (normal_subgroups 20 (@rev _) pick_hd S3t) = Some [[0];[0;1;2;3;4;5];[0;3;4]].
Proof. split; vm_compute; reflexivity. Qed.
(* check_state with cached data: the is_abelian / is_simple flags are accepted iff they are true of the group *)
Definition simple_group (t : table) : Prop := 1 < tn t /\ forall H : nat -> Prop, is_nsubgrp t H -> (forall x, {H x} + {~ H x}) -> (forall x, H x -> x = tident t) \/ (forall x, x < tn t -> H x).
Theorem C42_check_state_flags : forall t ord pick, group_table t -> choice pick -> (forall l, Permutation (ord l) l) -> forall ab sm, exists F, forall fuel, F <= fuel -> exists b,
  check_state_full fuel ord pick t ab None sm = Some b /\
  (b = true <-> (forall f, ab = Some f -> (f = true <-> forall x y, x < tn t -> y < tn t -> mulT t x y = mulT t y x)) /\ (forall f, sm = Some f -> (f = true <-> simple_group t))).
Proof.
  intros t ord pick Ht Hp Hord ab sm. destruct (C56_normal_subgroups t ord pick Ht Hp Hord) as (F & HF). exists F. intros fuel Hf. destruct (HF fuel Hf) as (m & E & Hnd & Hm & _).
  unfold check_state_full. rewrite E. destruct (check_state_spec t) as (b0 & -> & Hb0). rewrite (proj2 Hb0 Ht). cbn [andE].
  assert (Hab : exists b1, match ab with Some b => Some (Bool.eqb b (compute_is_abelian t)) | None => Some true end = Some b1 /\
     (b1 = true <-> forall f, ab = Some f -> (f = true <-> forall x y, x < tn t -> y < tn t -> mulT t x y = mulT t y x))).
  { destruct ab as [f|]; eexists; (split; [reflexivity|]); [|split; auto; discriminate]. rewrite eqb_true_iff. pose proof (abelian_spec t) as Ha. split.
    - intros -> f' [= <-]. exact Ha.
    - intros H. specialize (H f eq_refl). destruct f, (compute_is_abelian t); intuition congruence. }
  assert (Hlen : length m = 2 <-> simple_group t).
  { pose proof (Ge t Ht) as He. assert (Htr : In [tident t] (map fst m)).
    { assert (Q : exists g, In ([tident t], g) m).
      { apply Hm. split; [repeat constructor|]. split; [split; [intros x [<-|[]]; auto|]; split; [left; auto|]; split|].
        - intros x [<-|[]]. left. symmetry. apply (inv_e _ _ _ _ (vt_group t Ht)).
        - intros x y [<-|[]] [<-|[]]. left. symmetry. apply Gil; auto.
        - intros g x Hg [<-|[]]. left. rewrite Gir, Gvr; auto. }
      destruct Q as (g & Q). apply in_map_iff. exists ([tident t], g). auto. }
    assert (Hal : In (seq 0 (tn t)) (map fst m)).
    { assert (Q : exists g, In (seq 0 (tn t), g) m).
      { apply Hm. split; [apply seq_asc|]. assert (S : forall x, In x (seq 0 (tn t)) <-> x < tn t) by (intros x; rewrite in_seq; lia). split; [split; [intros x; apply S|]; split; [apply S; auto|]; split|].
        - intros x Hx. apply S, Ginv, S; auto.
        - intros x y Hx Hy. apply S, Gop; auto; apply S; auto.
        - intros g x Hg Hx. apply S in Hx. apply S. apply Gop; auto using Gop, Ginv. }
      destruct Q as (g & Q). apply in_map_iff. exists (seq 0 (tn t), g). auto. }
    rewrite <- (map_length fst m). split.
    - intros Hl. assert (Hn : 1 < tn t).
      { destruct (Nat.lt_ge_cases 1 (tn t)) as [|Hle]; auto. exfalso. assert (Hn1 : tn t = 1) by lia.
        assert (Hone : forall s, In s (map fst m) -> s = [0]).
        { intros s Hs. apply in_map_iff in Hs as ([s' g] & <- & Hg). assert (Q : exists g, In (s', g) m) by eauto. apply Hm in Q as (Qa & (Q1 & Q2 & _) & _). apply asc_eq; auto; [repeat constructor|].
          intros x. cbn. split; [intros Hx; left; apply Q1 in Hx; lia|]. intros [<-|[]]. replace 0 with (tident t) by lia. auto. }
        destruct (map fst m) as [|a [|b l]]; cbn in Hl; try lia. rewrite (Hone a), (Hone b) in Hnd by (cbn; auto). inversion Hnd; subst. apply H1. left; auto. }
      split; auto. intros H [(H1 & H2 & H3 & H4) H5] Hdec. set (l := filter (fun x => if Hdec x then true else false) (seq 0 (tn t))).
      assert (Hli : forall x, In x l <-> H x). { intros x. unfold l. rewrite filter_In, in_seq. destruct (Hdec x) as [Hx|Hx]; [pose proof (H1 _ Hx)|]; intuition (try lia; try discriminate). }
      assert (Hla : ascending l). { unfold l. clear. pose proof (seq_asc (tn t) 0) as Ha. induction Ha as [|x l Ha IH Hx]; cbn; [constructor|]. destruct (Hdec x); auto. constructor; auto. rewrite Forall_forall in *. intros y Hy. apply filter_In in Hy. apply Hx. tauto. }
      assert (Hlm : In l (map fst m)).
      { assert (Q : exists g, In (l, g) m). { apply Hm. split; auto. split; [split; [intros x Hx; apply H1, Hli; auto|]; split; [apply Hli; auto|]; split|].
          - intros x Hx. apply Hli, H3, Hli; auto.
          - intros x y Hx Hy. apply Hli, H4; apply Hli; auto.
          - intros g x Hg Hx. apply Hli, H5; auto. apply Hli; auto. }
        destruct Q as (g & Q). apply in_map_iff. exists (l, g). auto. }
      assert (Hne : [tident t] <> seq 0 (tn t)). { intros Q. apply (f_equal (@length nat)) in Q. rewrite seq_length in Q. cbn in Q. lia. }
      assert (Hor : l = [tident t] \/ l = seq 0 (tn t)).
      { clearbody l. assert (Hgen : forall (M : list (list nat)) u v w, length M = 2 -> In u M -> In v M -> In w M -> u <> v -> w = u \/ w = v).
        { intros M u v w HM. destruct M as [|a [|b [|c r]]]; cbn in HM; try lia. cbn. intros [<-|[<-|[]]] [<-|[<-|[]]] [<-|[<-|[]]]; auto; intros Q; exfalso; auto. }
        eapply Hgen; eauto. }
      destruct Hor as [El|El]; [left|right]; intros x Hx.
      + apply Hli in Hx. rewrite El in Hx. destruct Hx as [<-|[]]; auto.
      + apply Hli. rewrite El. apply in_seq. lia.
    - intros [Hn Hs]. assert (Hne : [tident t] <> seq 0 (tn t)). { intros Q. apply (f_equal (@length nat)) in Q. rewrite seq_length in Q. cbn in Q. lia. }
      apply Nat.le_antisymm.
      + change 2 with (length [[tident t]; seq 0 (tn t)]). apply NoDup_incl_length; auto. intros s Hs'. apply in_map_iff in Hs' as ([s' g] & <- & Hg). cbn [fst].
        assert (Q : exists g, In (s', g) m) by eauto. apply Hm in Q as (Qa & Q). destruct (Hs (fun x => In x s') Q) as [H|H].
        * intros x. apply in_dec. apply Nat.eq_dec.
        * left. apply asc_eq; auto; [repeat constructor|]. intros x. cbn. split; [intros [<-|[]]; apply Q|]. intros Hx. left. symmetry. auto.
        * right. left. apply asc_eq; auto; [apply seq_asc|]. intros x. rewrite in_seq. split; [intros [_ Hx]; auto|]. intros Hx. destruct Q as ((Q1 & _) & _). apply Q1 in Hx. lia.
      + change 2 with (length [[tident t]; seq 0 (tn t)]). apply NoDup_incl_length; [repeat constructor; cbn; [intros [Q|[]]; auto|auto]|]. intros s [<-|[<-|[]]]; auto. }
  destruct Hab as (b1 & -> & Hb1). destruct b1.
  - cbn [andE]. destruct sm as [f|].
    + exists (Bool.eqb (length m =? 2) f). split; [reflexivity|]. rewrite eqb_true_iff. split.
      * intros Q. split; [apply Hb1; auto|]. intros f' [= <-]. rewrite <- Hlen, <- Nat.eqb_eq, Q. tauto.
      * intros [_ Q]. specialize (Q f eq_refl). rewrite <- Hlen, <- Nat.eqb_eq in Q. destruct f, (length m =? 2); intuition congruence.
    + exists true. split; [reflexivity|]. split; auto. intros _. split; [apply Hb1; auto|discriminate].
  - exists false. split; [reflexivity|]. split; [discriminate|]. intros [Q _]. apply Hb1 in Q. discriminate.
Qed.
Print Assumptions C42_check_state_flags.
