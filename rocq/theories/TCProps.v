(* Property theorems for coset enumeration: C47, C48, C57. *)
From Coq Require Import List Arith Lia Bool ZArith.
From Verif Require Import PermSpec PermModel PermProofs GroupSpec GroupModel GroupProofs2 TableModel TCSpec TCModel TCProofs TCProofs2 TCProofs3 TCDiverge TCWords.
Import ListNotations.

Lemma gen_action_eq ps g x : gen_action ps g x = pact ps g x.
Proof. unfold gen_action, pact. rewrite call_act. reflexivity. Qed.
Lemma word_acts_ext n p q : (forall g x, p g x = q g x) -> forall w x y, word_acts n p w x y <-> word_acts n q w x y.
Proof.
  intros E. induction w as [|d w IH]; intros x y; cbn [word_acts]; [tauto|]. unfold letter_acts. split; intros (z & H1 & H2 & H3); exists z; (split; [exact H1|split; [apply IH; exact H2|]]); destruct (Nat.even d); rewrite ?E in *; auto; rewrite <- ?E in *; auto.
Qed.
Lemma wa ps n w x y : word_acts n (gen_action ps) w x y <-> word_acts n (pact ps) w x y.
Proof. apply word_acts_ext, gen_action_eq. Qed.
Lemma bij_ext n f g : (forall x, f x = g x) -> bijective_on n f -> bijective_on n g.
Proof. intros E (H1 & H2 & H3). split; [|split]; [intros x; rewrite <- E; auto|intros x y; rewrite <- !E; auto|intros y Hy; destruct (H3 y Hy) as (x & Hx & <-); exists x; rewrite <- E; auto]. Qed.

(* the running example: S3 = < a, b | a^2, b^2, (ab)^3 >, and its subgroup generated by a *)
Definition S3rels : list (list nat) := [[0;0];[2;2];[0;2;0;2;0;2]].
Definition S3acts : list (list nat) := [[1;0;3;2;5;4];[2;5;0;4;3;1]].
Example S3_run : enumerate_cosets 100 2 S3rels [] = Some (Some (6, S3acts)). Proof. vm_compute. reflexivity. Qed.
Example S3_cosets_run : exists r, enumerate_cosets 100 2 S3rels [[0]] = Some (Some (3, r)).
Proof. eexists. vm_compute. reflexivity. Qed.

(* ---------- C47: whatever enumerate_cosets returns, it is a permutation of n >= 1 points for every generator, and two words
   carrying 0 to the same point lie in the same coset.  _partial: the relators need not act trivially on the returned
   points, nor need the action be transitive: see C47_relator_refuted, C47_transitive_refuted and C47_panic_refuted. *)
Theorem C47_sound_partial : forall fuel ng rels subs n ps, enumerate_cosets fuel ng rels subs = Some (Some (n, ps)) ->
  1 <= n /\ length ps = ng /\ (forall g, g < ng -> bijective_on n (gen_action ps g)) /\
  (forall u v k, word ng u -> word ng v -> word_acts n (gen_action ps) u 0 k -> word_acts n (gen_action ps) v 0 k -> coset_eq ng rels subs u v).
Proof.
  intros fuel ng rels subs n ps E. pose proof (enumerate_sound ng rels subs fuel n ps E) as R. split; [apply R|]. split; [apply R|]. split.
  - intros g Hg. apply bij_ext with (f := pact ps g); [intros; symmetry; apply gen_action_eq|]. apply (pact_bij ng rels subs n ps R).
  - intros u v k Hu Hv H1 H2. apply wa in H1, H2. exact (never_merges ng rels subs n ps R u v k Hu Hv H1 H2).
Qed.
Print Assumptions C47_sound_partial.
(* the index is finite and at most the number of cosets returned *)
Theorem C47_index_at_most : forall fuel ng rels subs n ps, enumerate_cosets fuel ng rels subs = Some (Some (n, ps)) ->
  forall ws, (forall w, In w ws -> word ng w) -> ForallOrdPairs (fun u v => ~ coset_eq ng rels subs u v) ws -> length ws <= n.
Proof. intros fuel ng rels subs n ps E. exact (index_bound ng rels subs n ps (enumerate_sound _ _ _ _ _ _ E)). Qed.
Print Assumptions C47_index_at_most.
(* if the caller checks that the relators act trivially on the returned points and the subgroup generators fix 0, the table is exact:
   two words carry 0 to the same point iff they lie in the same coset *)
Theorem C47_exact_when_checked : forall fuel ng rels subs n ps, enumerate_cosets fuel ng rels subs = Some (Some (n, ps)) ->
  (forall r k, In r rels -> k < n -> word_acts n (gen_action ps) r k k) -> (forall s, In s subs -> word_acts n (gen_action ps) s 0 0) ->
  forall u v, word ng u -> word ng v -> (coset_eq ng rels subs u v <-> exists k, word_acts n (gen_action ps) u 0 k /\ word_acts n (gen_action ps) v 0 k).
Proof.
  intros fuel ng rels subs n ps E Hr Hs u v Hu Hv. pose proof (enumerate_sound ng rels subs fuel n ps E) as R.
  rewrite (exact_iff ng rels subs n ps R); auto.
  - split; intros (k & H1 & H2); exists k; [rewrite !wa|rewrite <- !wa]; auto.
  - intros r k Hin Hk. apply wa. auto.
  - intros s Hin. apply wa. auto.
Qed.
Print Assumptions C47_exact_when_checked.
Example C47_S3_checked : forall r k, In r S3rels -> k < 6 -> word_acts 6 (gen_action S3acts) r k k.
Proof.
  assert (D : forall p w x y, forallb (fun d => Nat.even d) w = true -> bijective_on 6 (p 0) -> bijective_on 6 (p 1) -> x < 6 -> (forall d, In d w -> d = 0 \/ d = 2) -> fold_right (fun d z => p (Nat.div2 d) z) x w = y -> word_acts 6 p w x y).
  { induction w as [|d w IH]; intros x y He B0 B1 Hx Hw; cbn [fold_right word_acts]; auto. cbn [forallb] in He. apply andb_true_iff in He as [He1 He2]. intros <-.
    assert (L : forall w, (forall d, In d w -> d = 0 \/ d = 2) -> fold_right (fun d z => p (Nat.div2 d) z) x w < 6).
    { induction w0 as [|d' w0 IH0]; intros Hw0; cbn; auto. destruct (Hw0 d' (or_introl eq_refl)) as [->| ->]; cbn; [apply B0|apply B1]; apply IH0; intros; apply Hw0; right; auto. }
    exists (fold_right (fun d z => p (Nat.div2 d) z) x w). split; [apply L; intros; apply Hw; right; auto|]. split; [apply IH; auto; intros; apply Hw; right; auto|]. unfold letter_acts. rewrite He1. auto. }
  pose proof (C47_sound_partial 100 2 S3rels [] 6 S3acts S3_run) as (_ & _ & B & _).
  intros r k Hr Hk. assert (B0 := B 0 ltac:(lia)). assert (B1 := B 1 ltac:(lia)).
  apply D; auto.
  - cbn in Hr. repeat (destruct Hr as [<-|Hr]; [reflexivity|]). destruct Hr.
  - intros d Hd. cbn in Hr. repeat (destruct Hr as [<-|Hr]; [cbn in Hd; lia|]). destruct Hr.
  - assert (K : k = 0 \/ k = 1 \/ k = 2 \/ k = 3 \/ k = 4 \/ k = 5) by lia.
    cbn in Hr. repeat (destruct Hr as [<-|Hr]; [repeat (destruct K as [->|K]; [reflexivity|]); subst; reflexivity|]). destruct Hr.
Qed.

(* into_finite_group: it panics exactly when the points are not all reachable from 0; otherwise, if the relators act trivially,
   the table is a group with identity 0 in which the product of the labels of u and v is the label of v u *)
Theorem C47_into_finite_group : forall fuel ng rels n ps, enumerate_elements fuel ng rels = Some (Some (n, ps)) ->
  (forall r k, In r rels -> k < n -> word_acts n (gen_action ps) r k k) ->
  forall F, n + 1 <= F -> ((forall k, k < n -> exists w, word ng w /\ word_acts n (gen_action ps) w 0 k) <-> finite_group_of F n ps <> None) /\
  forall t, finite_group_of F n ps = Some t -> tn t = n /\ tident t = 0 /\ is_group_table n 0 (tinv t) (tmuls t) /\
    (forall u v x y, word ng u -> word ng v -> word_acts n (gen_action ps) u 0 x -> word_acts n (gen_action ps) v 0 y ->
       word_acts n (gen_action ps) (v ++ u) 0 (tab_mul (tmuls t) x y)).
Proof.
  intros fuel ng rels n ps E Hr F HF. unfold enumerate_elements in E. pose proof (enumerate_sound ng rels [] fuel n ps E) as R.
  assert (Hr' : forall r k, In r rels -> k < n -> word_acts n (pact ps) r k k) by (intros; apply wa; auto).
  destruct (finite_group_spec ng rels n ps R Hr' F HF) as [T1 T2]. split.
  - rewrite <- T1. unfold transitive_action. split; intros H k Hk; destruct (H k Hk) as (w & A & B); exists w; (split; [auto|apply wa; auto]).
  - intros t Ht. destruct (T2 t Ht) as (A & B & C & D). split; auto. split; auto. split; auto. intros u v x y Hu Hv H1 H2. apply wa. apply wa in H1, H2. auto.
Qed.
Print Assumptions C47_into_finite_group.
Example C47_S3_table : exists t, finite_group_of 7 6 S3acts = Some t /\ check_state t = Some true.
Proof. eexists. split; vm_compute; reflexivity. Qed.

(* Refutations.  The group < x | x x^-1 x x^-1, x^-1 x x^-1 x^-1 x x^-1, x^-3 > is trivial (the second relator is x^-2, the third x^-3),
   but two cosets are returned and x swaps them: the relator x^-3 does not act trivially *)
Definition bad_rels : list (list nat) := [[0;1;0;1];[1;0;1;1;0;1];[1;1;1]].
Theorem C47_relator_refuted : (forall u, word 1 u -> coset_eq 1 bad_rels [] u []) /\
  enumerate_cosets 100 1 bad_rels [] = Some (Some (2, [[1;0]])) /\ ~ word_acts 2 (gen_action [[1;0]]) [1;1;1] 0 0.
Proof.
  split; [|split; [vm_compute; reflexivity|]].
  - assert (C : forall d u, d < 2 -> coset_eq 1 bad_rels [] (d :: linv d :: u) u) by (intros; apply ce_cancel; lia).
    assert (H11 : forall u, coset_eq 1 bad_rels [] (1 :: 1 :: u) u).
    { intros u. apply ce_trans with ([1;0;1;1;0;1] ++ u); [|apply ce_rel; cbn; auto]. cbn [app]. apply ce_sym. apply ce_trans with (1 :: 1 :: 0 :: 1 :: u); [apply (C 1); lia|]. apply ce_left, ce_left || idtac.
      apply (C 0). lia. }
    assert (H1 : forall u, coset_eq 1 bad_rels [] (1 :: u) u).
    { intros u. apply ce_trans with (1 :: 1 :: 1 :: u); [apply ce_left, ce_sym, H11|]. apply (ce_rel 1 bad_rels [] [1;1;1] u). cbn; auto. }
    assert (H0 : forall u, coset_eq 1 bad_rels [] (0 :: u) u).
    { intros u. apply ce_trans with (0 :: 1 :: u); [apply ce_left, ce_sym, H1|]. apply (C 0). lia. }
    induction u as [|d u IH]; intros Hw; [apply ce_refl|]. assert (Hd : d < 2 * 1) by (apply Hw; left; auto). apply ce_trans with u; [|apply IH; intros x Hx; apply Hw; right; auto].
    destruct d as [|[|d]]; auto. lia.
  - intros (z1 & L1 & (z2 & L2 & (z3 & L3 & E & H3) & H2) & H1). cbn in E. subst z3. unfold letter_acts, gen_action in *. cbn in H1. subst z1. cbn in H2. subst z2. cbn in H3. discriminate.
Qed.
Print Assumptions C47_relator_refuted.
(* valid input on which the final permutation check panics *)
Theorem C47_panic_refuted : exists ng rels subs fuel, (forall w, In w (rels ++ subs) -> word ng w) /\ enumerate_cosets fuel ng rels subs = Some None.
Proof.
  exists 1, [[1;1;1;0]], [[0;0;1;1];[0;1];[0;1;1;0];[0;0;0]], 100. split; [|vm_compute; reflexivity].
  intros w Hw. cbn in Hw. intros d Hd. repeat (destruct Hw as [<-|Hw]; [cbn in Hd; lia|]). destruct Hw.
Qed.
Print Assumptions C47_panic_refuted.
(* two points are returned but every generator fixes both: point 1 is not reachable from point 0 *)
Theorem C47_transitive_refuted : exists ng rels fuel n ps, (forall w, In w rels -> word ng w) /\ enumerate_elements fuel ng rels = Some (Some (n, ps)) /\
  1 < n /\ forall w, word ng w -> ~ word_acts n (gen_action ps) w 0 1.
Proof.
  exists 2, [[2;1;1;2;0];[1;0;1];[0;3;2];[1;2];[3;1;3;1;2]], 200, 2, [[];[]]. split; [|split; [vm_compute; reflexivity|split; [lia|]]].
  - intros w Hw. cbn in Hw. intros d Hd. repeat (destruct Hw as [<-|Hw]; [cbn in Hd; lia|]). destruct Hw.
  - assert (F : forall g x, gen_action [[];[]] g x = x). { intros [|[|[|g]]] [|x]; reflexivity. }
    assert (K : forall w y, word_acts 2 (gen_action [[];[]]) w 0 y -> y = 0).
    { induction w as [|d w IH]; intros y; cbn [word_acts]; [auto|]. intros (z & _ & H & L). apply IH in H. subst z. unfold letter_acts in L. rewrite !F in L. destruct (Nat.even d); auto. }
    intros w _ H. apply K in H. discriminate.
Qed.
Print Assumptions C47_transitive_refuted.

(* ---------- C48: a presentation of the trivial group (index 1 in every sense) on which enumerate_cosets runs for ever *)
Theorem C48_halts_refuted : exists ng rels, (forall w, In w rels -> word ng w) /\ (forall u, word ng u -> coset_eq ng rels [] u []) /\
  forall fuel, enumerate_elements fuel ng rels = None.
Proof.
  exists 1, div_rels. split; [|split; [|exact diverges]].
  - intros w Hw d Hd. cbn in Hw. repeat (destruct Hw as [<-|Hw]; [cbn in Hd; lia|]). destruct Hw.
  - assert (H0 : forall u, coset_eq 1 div_rels [] (0 :: u) u).
    { intros u. apply ce_trans with (0 :: 0 :: 1 :: u); [apply ce_left, ce_sym, (ce_cancel 1 div_rels [] 0); lia|]. apply (ce_rel 1 div_rels [] [0;0;1] u). cbn; auto. }
    assert (H1 : forall u, coset_eq 1 div_rels [] (1 :: u) u).
    { intros u. apply ce_trans with (0 :: 1 :: u); [apply ce_sym, H0|]. apply (ce_cancel 1 div_rels [] 0). lia. }
    induction u as [|d u IH]; intros Hw; [apply ce_refl|]. assert (Hd : d < 2 * 1) by (apply Hw; left; auto). apply ce_trans with u; [|apply IH; intros x Hx; apply Hw; right; auto].
    destruct d as [|[|d]]; auto. lia.
Qed.
Print Assumptions C48_halts_refuted.
(* once it has halted, the answer does not depend on how long one waits *)
Theorem C48_stable_partial : forall fuel ng rels subs r, enumerate_cosets fuel ng rels subs = Some r -> forall more, enumerate_cosets (fuel + more) ng rels subs = Some r.
Proof.
  intros fuel ng rels subs r. unfold enumerate_cosets. destruct (negb _); auto. destruct (loopM _ _ _) as [s0|]; auto. intros H more.
  destruct (visit fuel ng (full_rels ng rels) s0 0) as [s|] eqn:E; [|discriminate]. rewrite (visit_mono ng fuel _ _ _ _ more E). auto.
Qed.
Print Assumptions C48_stable_partial.

(* ---------- C57: word expressions mean what they say in every group: for every assignment v of group elements to generator identifiers,
   products, inverses and powers of expressions evaluate to products, inverses and powers; a two-sided relation holds iff both sides agree;
   and the relator stored for an expression has the same value; translation panics exactly on foreign generators *)
Section C57.
Context {A : Type} (e : A) (inv : A -> A) (op : A -> A -> A) (G : is_group (fun _ => True) e inv op).
(* the value of an expression: identifier i > 0 stands for v i and -i for its inverse *)
Fixpoint expr_value (v : Z -> A) (x : list Z) : A :=
  match x with [] => e | i :: x' => op (if (i <? 0)%Z then inv (v (- i)%Z) else v i) (expr_value v x') end.
Lemma expr_ev v x : expr_value v x = ev A e inv op v x. Proof. induction x; cbn; auto. rewrite IHx. reflexivity. Qed.
End C57.
Theorem C57_word_operations : forall A (e : A) inv op, is_group (fun _ => True) e inv op -> forall v x y, ~ In 0%Z x -> ~ In 0%Z y ->
  expr_value e inv op v fg_identity = e /\
  expr_value e inv op v (fg_mul x y) = op (expr_value e inv op v x) (expr_value e inv op v y) /\
  expr_value e inv op v (fg_inv x) = inv (expr_value e inv op v x) /\
  (forall n : nat, expr_value e inv op v (fg_pow x (Z.of_nat n)) = gpow e op (expr_value e inv op v x) n) /\
  (forall n : nat, expr_value e inv op v (fg_pow x (- Z.of_nat n)) = inv (gpow e op (expr_value e inv op v x) n)) /\
  (expr_value e inv op v (two_sided x y) = e <-> expr_value e inv op v x = expr_value e inv op v y).
Proof.
  intros A e inv op G v x y Hx Hy. rewrite !expr_ev. split; [reflexivity|]. split; [apply (ev_app A e inv op G)|]. split; [apply (ev_inv A e inv op G); auto|].
  split; [|split].
  - intros n. rewrite !expr_ev. rewrite (ev_pow A e inv op G) by auto. destruct (Z.ltb_spec (Z.of_nat n) 0); [lia|]. rewrite Nat2Z.id. reflexivity.
  - intros n. rewrite !expr_ev. rewrite (ev_pow A e inv op G) by auto. destruct (Z.ltb_spec (- Z.of_nat n) 0).
    + rewrite Z.opp_involutive, Nat2Z.id. reflexivity.
    + replace n with 0 by lia. cbn. symmetry. apply (inv_e A e inv op G).
  - apply (ev_two_sided A e inv op G); auto.
Qed.
Print Assumptions C57_word_operations.
Theorem C57_translate : forall gens x, (forall id i, In (id, i) gens -> i < length gens) ->
  (translate gens x = None <-> exists id, In id x /\ forall i, ~ In (Z.abs id, i) gens) /\
  forall w, translate gens x = Some w -> word (length gens) w /\ length w = length x /\
    forall A (e : A) inv op, is_group (fun _ => True) e inv op -> forall v val, (forall id i, In (id, i) gens -> val i = v id) -> word_value e inv op val w = expr_value e inv op v x.
Proof.
  intros gens x Hg. split.
  - split.
    + intros E. pose proof (translate_some gens x) as T. rewrite E in T. destruct (existsb (fun id => match gen_index (Z.abs id) gens with None => true | _ => false end) x) eqn:X.
      * apply existsb_exists in X as (id & Hi & Q). exists id. split; auto. apply gen_index_none. destruct (gen_index _ _); auto; discriminate.
      * exfalso. apply (proj2 T); auto. intros id Hi. destruct (gen_index (Z.abs id) gens) as [i|] eqn:Q; [exists i; apply gen_index_in; auto|].
        assert (X' : existsb (fun id => match gen_index (Z.abs id) gens with None => true | _ => false end) x = true) by (apply existsb_exists; exists id; rewrite Q; auto). congruence.
    + intros (id & Hi & H). destruct (translate gens x) eqn:E; auto. exfalso. pose proof (translate_some gens x) as T. rewrite E in T. destruct (proj1 T) with (id := id) as (i & Q); auto; [discriminate|]. apply (H i Q).
  - intros w E. split; [eapply translate_word; eauto|]. split.
    + assert (Gz : is_group (fun _ : unit => True) tt (fun _ => tt) (fun _ _ => tt)) by (constructor; auto; intros []; auto).
      apply (translate_value unit tt (fun _ => tt) (fun _ _ => tt) (fun _ => tt) gens (fun _ => tt) x w); auto.
    + intros A e inv op G v val Hv. rewrite expr_ev. apply (translate_value A e inv op v gens val x w); auto.
Qed.
Print Assumptions C57_translate.
(* the identifications made by C47 are sound for every group satisfying the relators: words in the same coset of the trivial subgroup have equal values *)
Theorem C57_equal_in_every_model : forall A (e : A) inv op, is_group (fun _ => True) e inv op -> forall ng rels val, (forall r, In r rels -> word_value e inv op val r = e) ->
  forall u w, coset_eq ng rels [] u w -> word_value e inv op val u = word_value e inv op val w.
Proof. intros A e inv op G ng rels val Hr u w H. apply (coset_eq_value A e inv op G ng rels val u w); auto. Qed.
Print Assumptions C57_equal_in_every_model.
Example C57_example : is_group (fun _ : Z => True) 0%Z Z.opp Z.add /\ expr_value 0%Z Z.opp Z.add (fun i => (10 * i)%Z) (fg_pow [1;-2]%Z (-3)) = 30%Z /\ translate [(2%Z, 1); (1%Z, 0)] [1;-2]%Z = Some [0;3].
Proof. split; [constructor; intros; auto; lia|]. split; reflexivity. Qed.
