(* words of FinitelyGeneratedGroupElement and their values in a group *)
From Coq Require Import List Arith Lia Bool ZArith.
From Verif Require Import GroupSpec GroupModel GroupProofs2 TCSpec TCModel.
Import ListNotations.

Section W.
Variables (A : Type) (e : A) (inv : A -> A) (op : A -> A -> A).
Hypothesis G : is_group (fun _ => True) e inv op.
Local Infix "**" := op (at level 40, left associativity).
Lemma as_ x y z : x ** (y ** z) = (x ** y) ** z. Proof. apply (ig_assoc _ _ _ _ G); auto. Qed.
Lemma il x : e ** x = x. Proof. apply (ig_idl _ _ _ _ G); auto. Qed.
Lemma ir x : x ** e = x. Proof. apply (ig_idr _ _ _ _ G); auto. Qed.
Lemma vl x : inv x ** x = e. Proof. apply (ig_invl _ _ _ _ G); auto. Qed.
Lemma vr x : x ** inv x = e. Proof. apply (ig_invr _ _ _ _ G); auto. Qed.
Lemma inv_unique x y : x ** y = e -> y = inv x.
Proof. intros H. rewrite <- (il y), <- (vl x), <- as_, H, ir. reflexivity. Qed.
Lemma inv_op x y : inv (x ** y) = inv y ** inv x.
Proof. symmetry. apply inv_unique. rewrite <- as_, (as_ y), vr, il, vr. reflexivity. Qed.
Lemma inv_inv x : inv (inv x) = x. Proof. symmetry. apply inv_unique. apply vl. Qed.
Lemma inv_e : inv e = e. Proof. symmetry. apply inv_unique. apply il. Qed.
Variable v : Z -> A.
Definition sval (id : Z) : A := if (id <? 0)%Z then inv (v (- id)) else v id.
Fixpoint ev (x : list Z) : A := match x with [] => e | id :: x' => sval id ** ev x' end.
Lemma ev_app x y : ev (x ++ y) = ev x ** ev y.
Proof. induction x as [|i x IH]; cbn; [rewrite il; auto|]. rewrite IH, as_. auto. Qed.
Lemma sval_opp i : i <> 0%Z -> sval (- i) = inv (sval i).
Proof. intros H. unfold sval. destruct (Z.ltb_spec (- i) 0), (Z.ltb_spec i 0); try lia; [rewrite Z.opp_involutive|rewrite inv_inv]; auto. Qed.
Lemma ev_inv x : ~ In 0%Z x -> ev (fg_inv x) = inv (ev x).
Proof.
  unfold fg_inv. induction x as [|i x IH]; intros H; cbn [rev map ev]; [rewrite inv_e; auto|]. rewrite map_app, ev_app, IH by (intros H'; apply H; right; auto). cbn [map ev].
  rewrite ir, sval_opp, inv_op; auto. intros ->. apply H. left; auto.
Qed.
Lemma ev_pow_pos x n : ev (fg_pow_pos x n) = gpow e op (ev x) n.
Proof. induction n as [|n IH]; cbn; auto. rewrite ev_app, IH. auto. Qed.
Lemma pow_pos_nz x n : ~ In 0%Z x -> ~ In 0%Z (fg_pow_pos x n).
Proof. intros H. induction n; cbn; auto. intros Hin. apply in_app_or in Hin as [|]; auto. Qed.
Lemma ev_pow x n : ~ In 0%Z x -> ev (fg_pow x n) = if (n <? 0)%Z then inv (gpow e op (ev x) (Z.to_nat (- n))) else gpow e op (ev x) (Z.to_nat n).
Proof.
  intros H. unfold fg_pow. destruct (Z.eqb_spec n 0) as [->|]; [reflexivity|]. destruct (n <? 0)%Z; [|apply ev_pow_pos]. rewrite ev_inv by (apply pow_pos_nz; auto). rewrite ev_pow_pos. auto.
Qed.
Lemma ev_two_sided x y : ~ In 0%Z y -> (ev (two_sided x y) = e <-> ev x = ev y).
Proof.
  intros H. unfold two_sided, fg_mul. rewrite ev_app, ev_inv by auto. split.
  - intros E. rewrite <- (ir (ev x)), <- (vl (ev y)), as_, E, il. auto.
  - intros ->. apply vr.
Qed.
Lemma gen_index_in id gens i : gen_index id gens = Some i -> In (id, i) gens.
Proof. induction gens as [|[k j] gens IH]; cbn; [discriminate|]. destruct (Z.eqb_spec k id) as [->|]; auto. intros [= ->]. auto. Qed.
Lemma gen_index_none id gens : gen_index id gens = None <-> forall i, ~ In (id, i) gens.
Proof.
  induction gens as [|[k j] gens IH]; cbn; [split; auto|]. destruct (Z.eqb_spec k id) as [->|]; [split; [discriminate|intros H; exfalso; apply (H j); auto]|].
  rewrite IH. split; intros H i; [intros [[= -> ->]|]; [congruence|apply (H i); auto]|intros Hi; apply (H i); auto].
Qed.
Lemma translate_value gens val x w : (forall id i, In (id, i) gens -> val i = v id) -> translate gens x = Some w ->
  word_value e inv op val w = ev x /\ length w = length x.
Proof.
  intros Hv. unfold translate. revert w. induction x as [|id x IH]; intros w; cbn [map collect]; [intros [= <-]; auto|].
  destruct (gen_index (Z.abs id) gens) as [i|] eqn:Ei; [|discriminate]. destruct (collect _) as [w'|]; [|discriminate]. intros [= <-]. destruct (IH w' eq_refl) as [E L]. cbn [ev word_value length]. split; [|congruence]. rewrite E. f_equal.
  apply gen_index_in in Ei. apply Hv in Ei. unfold sval. change (i + (i + 0)) with (2 * i). destruct (Z.ltb_spec id 0).
  - replace (2 * i + 1) with (S (2 * i)) by lia. rewrite Nat.even_succ, <- Nat.negb_even. replace (Nat.even (2 * i)) with true by (symmetry; apply Nat.even_spec; eexists; eauto). cbn [negb].
    rewrite Nat.div2_succ_double. rewrite Ei. repeat f_equal. lia.
  - replace (Nat.even (2 * i)) with true by (symmetry; apply Nat.even_spec; eexists; eauto). rewrite Nat.div2_double, Ei. f_equal. lia.
Qed.
Lemma translate_word gens x w : (forall id i, In (id, i) gens -> i < length gens) -> translate gens x = Some w -> word (length gens) w.
Proof.
  intros Hg. unfold translate, word. revert w. induction x as [|id x IH]; intros w; cbn [map collect]; [intros [= <-] d []|].
  destruct (gen_index (Z.abs id) gens) as [i|] eqn:Ei; [|discriminate]. destruct (collect _) as [w'|]; [|discriminate]. intros [= <-] d [<-|Hd]; [|eapply IH; eauto].
  apply gen_index_in in Ei. apply Hg in Ei. destruct (_ <? _)%Z; lia.
Qed.
Lemma translate_some gens x : translate gens x <> None <-> forall id, In id x -> exists i, In (Z.abs id, i) gens.
Proof.
  unfold translate. induction x as [|id x IH]; cbn [map collect]; [split; [intros _ id []|discriminate]|].
  destruct (gen_index (Z.abs id) gens) as [i|] eqn:Ei.
  - apply gen_index_in in Ei. destruct (collect _) as [w'|] eqn:Ew.
    + split; [|discriminate]. intros _ id' [<-|Hid]; eauto. apply IH; auto. discriminate.
    + split; [congruence|]. intros H. exfalso. apply (proj2 IH); auto. intros id' Hid. apply H. right; auto.
  - split; [congruence|]. intros H. destruct (H id) as [i Hi]; [left; auto|]. exfalso. apply (proj1 (gen_index_none _ _) Ei i); auto.
Qed.
(* coset_eq with no subgroup generators implies equal values in every group where the relators hold *)
Lemma coset_eq_value ng rels val u w : (forall r, In r rels -> word_value e inv op val r = e) -> coset_eq ng rels [] u w -> word_value e inv op val u = word_value e inv op val w.
Proof.
  intros Hr. assert (Wapp : forall a b, word_value e inv op val (a ++ b) = word_value e inv op val a ** word_value e inv op val b).
  { induction a as [|d a IH]; intros b; cbn; [rewrite il; auto|]. rewrite IH, as_. auto. }
  induction 1 as [u|u w H IH|u w x H IH H' IH'|d u w H IH|d u Hd|r u Hin|s []]; auto; try congruence.
  - cbn. congruence.
  - cbn [word_value]. rewrite as_. match goal with |- ?a ** _ = _ => replace a with e; [apply il|] end. unfold linv. destruct (Nat.even d) eqn:Ed.
    + rewrite Nat.even_succ, <- Nat.negb_even, Ed. cbn [negb]. apply Nat.even_spec in Ed as [k ->]. rewrite Nat.div2_succ_double, Nat.div2_double. symmetry; apply vr.
    + rewrite <- Nat.negb_odd in Ed. apply negb_false_iff in Ed. apply Nat.odd_spec in Ed as [k ->]. replace (Nat.pred (2 * k + 1)) with (2 * k) by lia. replace (Nat.even (2 * k)) with true by (symmetry; apply Nat.even_spec; eexists; eauto).
      replace (2 * k + 1) with (S (2 * k)) by lia. rewrite Nat.div2_succ_double, Nat.div2_double. symmetry; apply vl.
  - rewrite Wapp, Hr by auto. apply il.
Qed.
End W.
