From Coq Require Import List Arith Lia Bool Sorting.Sorted Sorting.Permutation.
From Verif Require Import GroupSpec GroupModel GroupProofs GroupProofs2 TableSpec TableModel TableProofs TableProofs2 TableProofs3.
Import ListNotations.

Section T.
Variable t : table.
Hypothesis Ht : vt t.
Let G : tgroup t := vt_group t Ht.
Notation n := (tn t).
Notation V := (fun x => x < tn t).
Notation e := (tident t).
Notation "x ** y" := (mulT t x y) (at level 40, left associativity).
Notation inv := (invT t).
Notation subg H := (is_subgroup V e inv (mulT t) H).
Notation norm H := (is_normal V e inv (mulT t) H).

Lemma Ge : e < n. Proof. exact (ig_e _ _ _ _ G). Qed.
Lemma Ginv x : x < n -> inv x < n. Proof. exact (ig_inv _ _ _ _ G x). Qed.
Lemma Gop x y : x < n -> y < n -> x ** y < n. Proof. exact (ig_op _ _ _ _ G x y). Qed.
Lemma Gas x y z : x < n -> y < n -> z < n -> x ** (y ** z) = x ** y ** z. Proof. exact (ig_assoc _ _ _ _ G x y z). Qed.
Lemma Gil x : x < n -> e ** x = x. Proof. exact (ig_idl _ _ _ _ G x). Qed.
Lemma Gir x : x < n -> x ** e = x. Proof. exact (ig_idr _ _ _ _ G x). Qed.
Lemma Gvl x : x < n -> inv x ** x = e. Proof. exact (ig_invl _ _ _ _ G x). Qed.
Lemma Gvr x : x < n -> x ** inv x = e. Proof. exact (ig_invr _ _ _ _ G x). Qed.
Lemma Gii x : x < n -> inv (inv x) = x. Proof. exact (inv_inv _ _ _ _ G x). Qed.
Lemma Gio x y : x < n -> y < n -> inv (x ** y) = inv y ** inv x. Proof. exact (inv_op _ _ _ _ G x y). Qed.
Lemma Gvl2 x y : x < n -> y < n -> inv x ** (x ** y) = y.
Proof. intros. rewrite Gas, Gvl, Gil; auto using Ginv. Qed.
Lemma Gvr2 x y : x < n -> y < n -> x ** (inv x ** y) = y.
Proof. intros. rewrite Gas, Gvr, Gil; auto using Ginv. Qed.
Ltac gin := auto 12 using Ge, Ginv, Gop.
Ltac gsimp := repeat first [rewrite Gio by gin | rewrite Gii by gin | rewrite <- Gas by gin | rewrite Gvl2 by gin | rewrite Gvr2 by gin | rewrite Gil by gin | rewrite Gir by gin | rewrite Gvl by gin | rewrite Gvr by gin].

(* ---------- conjugacy classes *)
Notation conj := (conjugate V inv (mulT t)).
Lemma conj_refl x : x < n -> conj x x.
Proof. intros Hx. exists e. split; [apply Ge|]. rewrite (inv_e _ _ _ _ G). gsimp. auto. Qed.
Lemma conj_sym x y : x < n -> y < n -> conj x y -> conj y x.
Proof. intros Hx Hy (g & Hg & ->). exists (inv g). split; gin. gsimp. auto. Qed.
Lemma conj_trans x y z : x < n -> y < n -> z < n -> conj x y -> conj y z -> conj x z.
Proof. intros Hx Hy Hz (g & Hg & ->) (h & Hh & ->). exists (h ** g). split; gin. gsimp. auto. Qed.
Lemma conj_class_spec x : x < n -> asc (conj_class t x) /\ forall y, In y (conj_class t x) <-> y < n /\ conj x y.
Proof.
  intros Hx. unfold conj_class. destruct (to_set_spec (map (fun g => g ** x ** inv g) (elemsT t))) as [H1 H2]. split; auto. intros y. rewrite H2, in_map_iff.
  unfold elemsT. split.
  - intros (g & <- & Hg). apply in_seq in Hg. assert (g < n) by lia. split; gin. exists g. auto.
  - intros [Hy (g & Hg & ->)]. exists g. split; auto. apply in_seq. lia.
Qed.
Lemma conjugacy_classes_spec pick : choice pick -> exists cs lk, conjugacy_classes pick t = Some (cs, lk) /\ partitions_by n conj cs lk.
Proof.
  intros Hp. destruct (part_run_spec n conj (conj_class t) pick) as (cs & lk & H1 & H2 & _); auto.
  - apply conj_refl.
  - apply conj_sym.
  - apply conj_trans.
  - apply conj_class_spec.
  - exists cs, lk. auto.
Qed.

(* ---------- cosets *)
Section Cosets.
Variable s : list nat.
Hypothesis Ha : asc s.
Hypothesis Hs : subg (fun x => In x s).
Lemma sV x : In x s -> x < n. Proof. apply Hs. Qed.
Lemma sE : In e s. Proof. apply Hs. Qed.
Lemma sI x : In x s -> In (inv x) s. Proof. apply Hs. Qed.
Lemma sO x y : In x s -> In y s -> In (x ** y) s. Proof. apply Hs. Qed.
Notation LE := (same_left_coset V (mulT t) (fun x => In x s)).
Notation RE := (same_right_coset V (mulT t) (fun x => In x s)).
Lemma LE_iff x y : x < n -> y < n -> (LE x y <-> In (inv x ** y) s).
Proof.
  intros Hx Hy. split.
  - intros (g & h & k & Hg & Hh & Hk & -> & ->). pose proof (sV _ Hh). pose proof (sV _ Hk). gsimp. apply sO; auto. apply sI; auto.
  - intros H. exists x, e, (inv x ** y). split; auto. split; [apply sE|]. split; auto. gsimp. auto.
Qed.
Lemma RE_iff x y : x < n -> y < n -> (RE x y <-> In (x ** inv y) s).
Proof.
  intros Hx Hy. split.
  - intros (g & h & k & Hg & Hh & Hk & -> & ->). pose proof (sV _ Hh). pose proof (sV _ Hk). gsimp. apply sO; auto. apply sI; auto.
  - intros H. exists x, e, (inv (x ** inv y)). split; auto. split; [apply sE|]. split; [apply sI; auto|]. gsimp. auto.
Qed.
Lemma map_mul_NoDup (f : nat -> nat) : (forall x y, In x s -> In y s -> f x = f y -> x = y) -> NoDup (map f s).
Proof.
  intros Hf. assert (Gn : forall l, NoDup l -> incl l s -> NoDup (map f l)).
  { induction l as [|x l IH]; intros Hl Hi; cbn; [constructor|]. inversion Hl; subst. constructor; [|apply IH; auto; intros z Hz; apply Hi; right; auto].
    intros Hin. apply in_map_iff in Hin as (y & Ey & Hy). apply Hf in Ey; [subst; auto|apply Hi; right; auto|apply Hi; left; auto]. }
  apply Gn; [apply asc_NoDup; auto|intros x Hx; auto].
Qed.
Lemma to_set_length l : NoDup l -> length (to_set l) = length l.
Proof.
  intros Hl. destruct (to_set_spec l) as [H1 H2]. apply Permutation_length. apply NoDup_Permutation; auto. apply asc_NoDup; auto.
Qed.
Lemma left_class_length g : g < n -> length (to_set (map (fun h => g ** h) s)) = length s.
Proof.
  intros Hg. rewrite to_set_length, map_length; auto. apply map_mul_NoDup. intros x y Hx Hy. apply (cancel_l _ _ _ _ G); auto; apply sV; auto.
Qed.
Lemma right_class_length g : g < n -> length (to_set (map (fun h => h ** g) s)) = length s.
Proof.
  intros Hg. rewrite to_set_length, map_length; auto. apply map_mul_NoDup. intros x y Hx Hy. apply (cancel_r _ _ _ _ G); auto; apply sV; auto.
Qed.
Lemma left_class_in g y : g < n -> (In y (to_set (map (fun h => g ** h) s)) <-> y < n /\ LE g y).
Proof.
  intros Hg. rewrite (proj2 (to_set_spec _)), in_map_iff. split.
  - intros (h & <- & Hh). pose proof (sV _ Hh). split; gin. apply LE_iff; gin. gsimp. auto.
  - intros [Hy H]. apply LE_iff in H; auto. exists (inv g ** y). split; auto. gsimp. auto.
Qed.
Lemma right_class_in g y : g < n -> (In y (to_set (map (fun h => h ** g) s)) <-> y < n /\ RE g y).
Proof.
  intros Hg. rewrite (proj2 (to_set_spec _)), in_map_iff. split.
  - intros (h & <- & Hh). pose proof (sV _ Hh). split; gin. apply RE_iff; gin. gsimp. apply sI; auto.
  - intros [Hy H]. apply RE_iff in H; auto. exists (y ** inv g). split; [gsimp; auto|]. apply sI in H. revert H. gsimp. auto.
Qed.
Lemma LE_refl x : x < n -> LE x x.
Proof. intros. apply LE_iff; auto. gsimp. apply sE. Qed.
Lemma LE_sym x y : x < n -> y < n -> LE x y -> LE y x.
Proof. intros _ _ (g & h & k & H). exists g, k, h. tauto. Qed.
Lemma LE_trans x y z : x < n -> y < n -> z < n -> LE x y -> LE y z -> LE x z.
Proof.
  intros Hx Hy Hz H1 H2. apply LE_iff in H1, H2; auto. apply LE_iff; auto. pose proof (sO _ _ H1 H2) as H. revert H. gsimp. auto.
Qed.
Lemma RE_refl x : x < n -> RE x x.
Proof. intros. apply RE_iff; auto. gsimp. apply sE. Qed.
Lemma RE_sym x y : x < n -> y < n -> RE x y -> RE y x.
Proof. intros _ _ (g & h & k & H). exists g, k, h. tauto. Qed.
Lemma RE_trans x y z : x < n -> y < n -> z < n -> RE x y -> RE y z -> RE x z.
Proof.
  intros Hx Hy Hz H1 H2. apply RE_iff in H1, H2; auto. apply RE_iff; auto. pose proof (sO _ _ H1 H2) as H. revert H. gsimp. auto.
Qed.
Lemma left_cosets_spec pick : choice pick -> exists cs lk, left_cosets pick t s = Some (cs, lk) /\ partitions_by n LE cs lk /\
  (forall c, In c cs -> length c = length s) /\ length cs * length s = n.
Proof.
  intros Hp. destruct (part_run_spec n LE (fun g => to_set (map (fun h => g ** h) s)) pick) as (cs & lk & H1 & H2 & H3); auto.
  - apply LE_refl.
  - apply LE_sym.
  - apply LE_trans.
  - intros x Hx. split; [apply to_set_spec|]. intros y. apply left_class_in; auto.
  - assert (Hl : forall c, In c cs -> length c = length s). { intros c Hc. apply H3 in Hc as (g & Hg & ->). apply left_class_length; auto. }
    exists cs, lk. split; [exact H1|]. split; [auto|]. split; auto. rewrite <- (concat_length_const cs (length s)) by auto.
    rewrite (Permutation_length (pb_concat _ _ _ _ H2)). apply seq_length.
Qed.
Lemma right_cosets_spec pick : choice pick -> exists cs lk, right_cosets pick t s = Some (cs, lk) /\ partitions_by n RE cs lk /\
  (forall c, In c cs -> length c = length s) /\ length cs * length s = n.
Proof.
  intros Hp. destruct (part_run_spec n RE (fun g => to_set (map (fun h => h ** g) s)) pick) as (cs & lk & H1 & H2 & H3); auto.
  - apply RE_refl.
  - apply RE_sym.
  - apply RE_trans.
  - intros x Hx. split; [apply to_set_spec|]. intros y. apply right_class_in; auto.
  - assert (Hl : forall c, In c cs -> length c = length s). { intros c Hc. apply H3 in Hc as (g & Hg & ->). apply right_class_length; auto. }
    exists cs, lk. split; [exact H1|]. split; [auto|]. split; auto. rewrite <- (concat_length_const cs (length s)) by auto.
    rewrite (Permutation_length (pb_concat _ _ _ _ H2)). apply seq_length.
Qed.
End Cosets.

(* ---------- the quotient of a congruence *)
Definition congruence (E : nat -> nat -> Prop) : Prop := forall x x' y y', x < n -> x' < n -> y < n -> y' < n -> E x x' -> E y y' -> E (x ** y) (x' ** y').
Lemma quotient_spec E cs lk : partitions_by n E cs lk -> congruence E ->
  let q := quotient_group t (cs, lk) in vt q /\ tn q = length cs /\
  (forall x, x < n -> nth x lk 0 < tn q) /\
  (forall x y, x < n -> y < n -> mulT q (nth x lk 0) (nth y lk 0) = nth (x ** y) lk 0) /\
  (forall k, k < tn q -> exists x, x < n /\ nth x lk 0 = k) /\
  (forall x, x < n -> (nth x lk 0 = tident q <-> E x e)).
Proof.
  intros P C. pose proof P as (P1 & P2 & P3 & P4 & P5). cbn zeta. set (q := quotient_group t (cs, lk)). set (m := length cs). set (L x := nth x lk 0).
  set (rep i := hd 0 (nth i cs [])). assert (R : forall k, k < m -> rep k < n /\ L (rep k) = k) by (intros k Hk; apply (pb_rep n E cs lk k P Hk)).
  assert (LL : forall x, x < n -> L x < m) by (intros; apply P3; auto).
  assert (LI : forall x y, x < n -> y < n -> (L x = L y <-> E x y)) by (intros; apply P5; auto).
  assert (Qm : forall i j, i < m -> j < m -> mulT q i j = L (rep i ** rep j)).
  { intros i j Hi Hj. unfold mulT at 1, q, quotient_group. cbn [tmuls fst snd]. rewrite nth_map_seq by auto. rewrite nth_map_seq; auto. }
  assert (Qi : forall i, i < m -> invT q i = L (inv (rep i))).
  { intros i Hi. unfold invT at 1, q, quotient_group. cbn [tinv fst snd]. rewrite nth_map_seq; auto. }
  assert (Qh : forall x y, x < n -> y < n -> mulT q (L x) (L y) = L (x ** y)).
  { intros x y Hx Hy. rewrite Qm by auto. destruct (R (L x) (LL x Hx)) as [R1 R2]. destruct (R (L y) (LL y Hy)) as [R3 R4]. apply LI; gin. apply C; auto; apply LI; auto. }
  assert (Qe : tident q = L e) by reflexivity.
  assert (Qinv : forall k, k < m -> invT q k < m /\ mulT q (invT q k) k = L e /\ mulT q k (invT q k) = L e).
  { intros k Hk. destruct (R k Hk) as [R1 R2]. rewrite Qi by auto. split; [apply LL; gin|]. rewrite <- R2 at 2 3. rewrite !Qh by gin. rewrite Gvl, Gvr; auto. }
  assert (Gq : tgroup q).
  { change (is_group (fun x => x < m) (tident q) (invT q) (mulT q)). constructor.
    - rewrite Qe. apply LL. gin.
    - intros x Hx. apply Qinv; auto.
    - intros x y Hx Hy. destruct (R x Hx), (R y Hy). rewrite Qm by auto. apply LL. gin.
    - intros x y z Hx Hy Hz. destruct (R x Hx) as [X1 X2], (R y Hy) as [Y1 Y2], (R z Hz) as [Z1 Z2]. rewrite <- X2, <- Y2, <- Z2. rewrite !Qh by gin. f_equal. apply Gas; auto.
    - intros x Hx. destruct (R x Hx) as [X1 X2]. rewrite Qe, <- X2, Qh by gin. rewrite Gil; auto.
    - intros x Hx. destruct (R x Hx) as [X1 X2]. rewrite Qe, <- X2, Qh by gin. rewrite Gir; auto.
    - intros x Hx. rewrite Qe. apply Qinv; auto.
    - intros x Hx. rewrite Qe. apply Qinv; auto. }
  split.
  - unfold vt, is_group_table. split; [|split; [|split]]; [| | |exact Gq]; unfold q, quotient_group; cbn [tinv tmuls tn fst snd]; rewrite ?map_length, ?seq_length; auto.
    intros r Hr. apply in_map_iff in Hr as (x & <- & _). rewrite map_length, seq_length. auto.
  - split; [reflexivity|]. split; [exact LL|]. split; [exact Qh|]. split.
    + intros k Hk. destruct (R k Hk). exists (rep k). auto.
    + intros x Hx. rewrite Qe. apply LI; gin.
Qed.
Lemma normal_congruence (H : nat -> Prop) : norm H -> congruence (fun x y => H (inv x ** y)).
Proof.
  intros [(N1 & N2 & N3 & N4) N5] x x' y y' Hx Hx' Hy Hy' H1 H2.
  pose proof (N5 (inv y) _ (Ginv _ Hy) H1) as H3. pose proof (N4 _ _ H3 H2) as H4. revert H4. gsimp. auto.
Qed.
Lemma normal_quotient_spec s pick : asc s -> norm (fun x => In x s) -> choice pick -> exists q cs lk,
  normal_quotient pick t s = Some q /\ left_cosets pick t s = Some (cs, lk) /\ vt q /\ Nat.mul (tn q) (length s) = n /\
  (forall x, x < n -> nth x lk 0 < tn q) /\
  (forall x y, x < n -> y < n -> mulT q (nth x lk 0) (nth y lk 0) = nth (x ** y) lk 0) /\
  (forall k, k < tn q -> exists x, x < n /\ nth x lk 0 = k) /\
  (forall x, x < n -> (nth x lk 0 = tident q <-> In x s)).
Proof.
  intros Ha Hn Hp. destruct (left_cosets_spec s Ha (proj1 Hn) pick Hp) as (cs & lk & H1 & H2 & H3 & H4).
  assert (H2' : partitions_by n (fun x y => In (inv x ** y) s) cs lk). { apply (pb_ext _ _ _ _ _ (LE_iff s (proj1 Hn)) H2). }
  destruct (quotient_spec _ _ _ H2' (normal_congruence _ Hn)) as (Q1 & Q2 & Q3 & Q4 & Q5 & Q6).
  exists (quotient_group t (cs, lk)), cs, lk. unfold normal_quotient. rewrite H1. split; auto. split; auto. split; auto. split; [rewrite Q2; auto|].
  split; auto. split; auto. split; auto. intros x Hx. rewrite Q6 by auto. rewrite Gir by gin.
  split; intros H; apply (sI s (proj1 Hn)) in H; revert H; rewrite ?Gii by auto; auto.
Qed.

(* ---------- is_subgroup, is_normal_subgroup *)
Lemma is_subgroup_spec s : (forall x, In x s -> x < n) -> s <> [] -> (subset_is_subgroup t s = true <-> subg (fun x => In x s)).
Proof.
  intros Hs Hne. unfold subset_is_subgroup. rewrite forallb_forall. split.
  - intros H. assert (Ho : forall x y, In x s -> In y s -> In (x ** y) s).
    { intros x y Hx Hy. specialize (H x Hx). rewrite forallb_forall in H. apply has_iff. auto. }
    assert (Hpow : forall x k, In x s -> In (gpow e (mulT t) x (S k)) s).
    { intros x k Hx. induction k as [|k IH]; [cbn; rewrite Gir by auto; auto|]. cbn [gpow]. apply Ho; auto. }
    assert (Hinv : forall x, In x s -> In e s /\ In (inv x) s).
    { intros x Hx. destruct (order_exists t Ht x (Hs x Hx)) as (k & Hk & Ek). split.
      - rewrite <- Ek. destruct k as [|k]; [lia|]. apply Hpow; auto.
      - assert (Ei : inv x = gpow e (mulT t) x (k - 1)).
        { symmetry. apply (inv_unique _ _ _ _ G); auto; [apply (gpow_V _ _ _ _ G); auto|]. change (gpow e (mulT t) x (S (k - 1)) = e). replace (S (k - 1)) with k by lia. auto. }
        rewrite Ei. destruct (k - 1) as [|j]; [|apply Hpow; auto]. cbn [gpow]. rewrite <- Ek. destruct k as [|k]; [lia|]. apply Hpow; auto. }
    split; [auto|]. split; [|split; auto; intros; apply Hinv; auto]. destruct s as [|x s']; [contradiction|]. apply (Hinv x). left; auto.
  - intros (H1 & H2 & H3 & H4) x Hx. apply forallb_forall. intros y Hy. apply has_iff. auto.
Qed.
Lemma is_normal_spec s : subg (fun x => In x s) -> (is_normal_subgroup t s = true <-> norm (fun x => In x s)).
Proof.
  intros Hs. unfold is_normal_subgroup. rewrite forallb_forall. split.
  - intros H. split; auto. intros g x Hg Hx. specialize (H x Hx). rewrite forallb_forall in H. apply has_iff, H. apply in_seq. lia.
  - intros [_ H] x Hx. apply forallb_forall. intros g Hg. apply in_seq in Hg. apply has_iff. apply H; auto. lia.
Qed.

(* ---------- generated subgroup *)
Lemma forallb_lt s : forallb (fun g => g <? n) s = true <-> forall x, In x s -> x < n.
Proof. rewrite forallb_forall. split; intros H x Hx; [apply Nat.ltb_lt|apply Nat.ltb_lt]; auto. Qed.
Lemma generated_subgroup_spec s : (forall x, In x s -> x < n) -> forall fuel, n < fuel -> exists r, generated_subgroup fuel t s = Some (Some r) /\ asc r /\
  forall x, In x r <-> generated e inv (mulT t) (fun g => In g s) x.
Proof.
  intros Hs fuel Hf. unfold generated_subgroup. rewrite (proj2 (forallb_lt s) Hs). cbn [negb].
  destruct (bfs_term Nat.eqb Nat.eqb_eq fuel (fun x => map (mulT t x) s) e (seq 0 n)) as (r & Hr).
  - intros x Hx. apply in_seq. split; [lia|]. cbn. induction Hx as [|x y Hx IH Hy]; [apply Ge|]. unfold stepR in Hy. apply in_map_iff in Hy as (g & <- & Hg). gin.
  - rewrite seq_length. auto.
  - rewrite Hr. exists (to_set r). split; auto. destruct (to_set_spec r) as [T1 T2]. split; auto. intros x. rewrite T2.
    assert (Hg : generated_finite_subgroup Nat.eqb e (mulT t) fuel s = Some r) by exact Hr.
    apply (gfs_sound Nat.eqb Nat.eqb_eq (fun x => x < n) e inv (mulT t) G s Hs fuel r Hg).
Qed.

(* ---------- normal closure *)
Notation nclo S := (ncl V e inv (mulT t) S).
Section Ncl.
Variable s : list nat.
Hypothesis Hs : forall x, In x s -> x < n.
Notation cs := (fun x => exists g h, h < n /\ In g s /\ x = h ** g ** inv h).
Lemma cs_lt x : cs x -> x < n.
Proof. intros (g & h & Hh & Hg & ->). gin. Qed.
Lemma gen_cs_normal h x : h < n -> generated e inv (mulT t) cs x -> generated e inv (mulT t) cs (h ** x ** inv h).
Proof.
  intros Hh Hx. assert (Hlt : forall y, generated e inv (mulT t) cs y -> y < n) by (apply (generated_V _ _ _ _ G); apply cs_lt).
  induction Hx as [x (g & k & Hk & Hg & ->)| |x Hx IH|x y Hx IH Hy IH'].
  - apply gen_in. exists g, (h ** k). split; [gin|]. split; auto. gsimp. auto.
  - replace (h ** e ** inv h) with e by (gsimp; auto). apply gen_e.
  - replace (h ** inv x ** inv h) with (inv (h ** x ** inv h)) by (pose proof (Hlt _ Hx); gsimp; auto). apply gen_inv; auto.
  - pose proof (Hlt _ Hx). pose proof (Hlt _ Hy). replace (h ** (x ** y) ** inv h) with ((h ** x ** inv h) ** (h ** y ** inv h)) by (gsimp; auto). apply gen_op; auto.
Qed.
Lemma ncl_gen x : nclo (fun g => In g s) x -> generated e inv (mulT t) cs x.
Proof.
  intros Hx. induction Hx as [x Hx| |x Hx IH|x y Hx IH Hy IH'|g x Hg Hx IH].
  - apply gen_in. exists x, e. split; [gin|]. split; auto. rewrite (inv_e _ _ _ _ G). gsimp. auto.
  - apply gen_e.
  - apply gen_inv; auto.
  - apply gen_op; auto.
  - apply gen_cs_normal; auto.
Qed.
Lemma ncl_lt x : nclo (fun g => In g s) x -> x < n.
Proof. intros Hx. apply ncl_gen in Hx. revert Hx. apply (generated_V _ _ _ _ G). apply cs_lt. Qed.
Lemma normal_closure_spec pick fuel : choice pick -> n < fuel -> exists r, normal_closure fuel pick t s = Some (Some r) /\ asc r /\
  forall x, In x r <-> nclo (fun g => In g s) x.
Proof.
  intros Hp Hf. unfold normal_closure. rewrite (proj2 (forallb_lt s) Hs). cbn [negb].
  destruct (conjugacy_classes_spec pick Hp) as (cls & lk & -> & P). set (step := fun x => flat_map (fun g => project (cls, lk) (x ** g)) s).
  assert (Hst : forall x y, x < n -> (In y (step x) <-> y < n /\ exists g, In g s /\ conj (x ** g) y)).
  { intros x y Hx. unfold step. rewrite in_flat_map. split.
    - intros (g & Hg & Hy). apply (pb_project _ _ _ _ _ _ P) in Hy; [|gin]. split; [tauto|]. exists g. tauto.
    - intros (Hy & g & Hg & Hc). exists g. split; auto. apply (pb_project _ _ _ _ _ _ P); gin. }
  assert (Hrl : forall x, reach (stepR step) e x -> x < n).
  { intros x Hx. induction Hx as [|x y Hx IH Hy]; [apply Ge|]. apply (Hst x y IH) in Hy. tauto. }
  destruct (bfs_term Nat.eqb Nat.eqb_eq fuel step e (seq 0 n)) as (r & Hr).
  - intros x Hx. apply Hrl in Hx. apply in_seq. lia.
  - rewrite seq_length. auto.
  - rewrite Hr. exists (to_set r). split; auto. destruct (to_set_spec r) as [T1 T2]. split; auto. intros x. rewrite T2.
    apply (bfs_sound Nat.eqb Nat.eqb_eq) in Hr as [Hnd Hr]. split.
    + intros Hx. apply Hr in Hx. induction Hx as [|x y Hx IH Hy]; [apply ncl_e|]. apply (Hst x y (Hrl _ Hx)) in Hy as (_ & g & Hg & h & Hh & ->).
      apply ncl_conj; auto. apply ncl_op; auto. apply ncl_in; auto.
    + intros Hx. apply ncl_gen in Hx. revert x Hx. apply (closed_contains_generated _ _ _ _ G); auto.
      * apply cs_lt.
      * intros y Hy. apply Hrl, Hr; auto.
      * apply Hr, reach_0.
      * assert (Hcj : forall h y, h < n -> In y r -> In (h ** y ** inv h) r).
        { intros h y Hh Hy. apply Hr in Hy. apply Hr. destruct Hy as [|x y Hx Hy]; [replace (h ** e ** inv h) with e by (gsimp; auto); apply reach_0|].
          pose proof (Hrl _ Hx) as Hxl. apply (Hst x y Hxl) in Hy as (Hyl & g & Hg & Hc). apply (reach_s _ _ x); auto. apply Hst; auto. split; [gin|]. exists g. split; auto.
          apply (conj_trans _ y); gin. exists h. auto. }
        intros y c Hy (g & h & Hh & Hg & ->). assert (Hyl : y < n) by (apply Hrl, Hr; auto).
        assert (Hz : In (inv h ** y ** inv (inv h)) r) by (apply Hcj; gin). apply Hr. apply (reach_s _ _ (inv h ** y ** inv (inv h))); [apply Hr; auto|].
        apply Hst; [gin|]. split; [gin|]. exists g. split; auto. exists h. split; auto. pose proof (Hs _ Hg). gsimp. auto.
Qed.
End Ncl.

(* ---------- to_group *)
Lemma pos_of_iff x l k : NoDup l -> (pos_of x l = Some k <-> nth_error l k = Some x).
Proof.
  intros Hn. revert k. induction l as [|y l IH]; intros k; cbn [pos_of]; [destruct k; split; discriminate|]. inversion Hn as [|? ? Hy Hn']; subst.
  destruct (Nat.eqb_spec x y) as [->|Hxy].
  - split; [intros [= <-]; reflexivity|]. destruct k as [|k]; [reflexivity|]. cbn. intros Q. apply nth_error_In in Q. contradiction.
  - specialize (IH Hn'). destruct k as [|k]; cbn [nth_error].
    + split; [destruct (pos_of x l); discriminate|intros [= ->]; contradiction].
    + rewrite <- IH. destruct (pos_of x l); cbn; split; intros Q; inversion Q; auto.
Qed.
Lemma to_group_spec s : asc s -> subg (fun x => In x s) -> exists u, to_group t s = Some u /\ vt u /\ tn u = length s /\
  nth (tident u) s 0 = e /\ (forall i, i < length s -> nth (invT u i) s 0 = inv (nth i s 0)) /\
  (forall i j, i < length s -> j < length s -> nth (mulT u i j) s 0 = nth i s 0 ** nth j s 0).
Proof.
  intros Ha (S1 & S2 & S3 & S4). destruct (build_table 0 s (fun x => pos_of x s) V e inv (mulT t)) as (e0 & iv & m & E0 & E1 & E2 & H1 & H2 & H3 & H4); auto.
  - intros x k. apply pos_of_iff. apply asc_NoDup; auto.
  - apply asc_NoDup; auto.
  - exists (mkTable (length s) e0 iv m). split; [unfold to_group; rewrite E0, E1, E2; reflexivity|]. split; auto.
Qed.
End T.
