(* into_finite_group *)
From Coq Require Import List Arith Lia Bool Permutation.
From Verif Require Import PermSpec PermModel PermProofs GroupSpec GroupModel GroupProofs2 TCSpec TCModel TCProofs TCProofs2.
Import ListNotations.

Section S.
Variables (ng : nat) (rels : list (list nat)) (n : nat) (ps : list (list nat)).
Hypothesis R : result ng rels [] n ps.
Notation p := (pact ps).
Notation run := (run_path ps).
Definition done (paths : list (option (list nat))) (c : nat) : Prop := nth c paths None <> None.
Definition pathsok (paths : list (option (list nat))) : Prop :=
  length paths = n /\ (forall c q, nth c paths None = Some q -> c < n /\ (forall g, In g q -> g < ng) /\ run q 0 = c) /\ nth 0 paths None = Some [].
Definition cntN (paths : list (option (list nat))) : nat := length (filter (fun o => match o with None => true | _ => false end) paths).
Lemma cntN_setn paths c q : c < length paths -> nth c paths None = None -> S (cntN (setn paths c (Some q))) = cntN paths.
Proof.
  revert c. induction paths as [|o paths IH]; intros [|c] Hc; cbn in *; try lia.
  - intros ->. reflexivity.
  - intros H. destruct o; unfold cntN in *; cbn; rewrite <- (IH c); auto; lia.
Qed.
Lemma run_app q1 q2 x : run (q1 ++ q2) x = run q2 (run q1 x). Proof. unfold run_path. apply fold_left_app. Qed.
Lemma path_gens_spec b bp : b < n -> forall gs paths next, (forall g, In g gs -> g < ng) -> pathsok paths -> nth b paths None = Some bp ->
  let r := path_gens ps b bp gs paths next in pathsok (fst r) /\ (forall c q, nth c paths None = Some q -> nth c (fst r) None = Some q) /\
  (forall g, In g gs -> done (fst r) (p g b)) /\ (forall c, done (fst r) c -> done paths c \/ In c (snd r)) /\ (forall c, In c (snd r) -> In c next \/ done (fst r) c) /\
  (forall c, In c next -> In c (snd r)) /\ cntN (fst r) + length (snd r) = cntN paths + length next.
Proof.
  intros Hb. induction gs as [|g gs IH]; intros paths next Hg Hok Hbp; cbn [path_gens].
  - cbn. split; auto. split; auto. split; [intros g []|]. split; auto.
  - set (c := call (nth g ps []) b). assert (Hc : c < n). { apply (proj1 (pact_bij ng rels [] n ps R g)). auto. }
    assert (Hgg : g < ng) by (apply Hg; left; auto). destruct (nth c paths None) as [q|] eqn:Ec.
    + destruct (IH paths next) as (A1 & A2 & A3 & A4 & A5 & A6 & A7); auto. { intros; apply Hg; cbn; auto. }
      split; auto. split; auto. split; [|auto]. intros g' [<-|Hg']; auto. unfold done. change (p g b) with c. rewrite (A2 _ _ Ec). discriminate.
    + set (paths1 := setn paths c (Some (bp ++ [g]))). pose proof Hok as (K1 & K2 & K3).
      assert (N1 : forall j, nth j paths1 None = if j =? c then Some (bp ++ [g]) else nth j paths None).
      { intros j. unfold paths1. rewrite nth_setn, K1. destruct (Nat.ltb_spec c n); [|lia]. rewrite andb_true_r. reflexivity. }
      assert (Hok1 : pathsok paths1).
      { split; [unfold paths1; rewrite setn_length; auto|]. split.
        - intros j q. rewrite N1. destruct (Nat.eqb_spec j c) as [->|]; [|apply K2]. intros [= <-]. split; auto. destruct (K2 _ _ Hbp) as (_ & B1 & B2). split.
          + intros h Hh. apply in_app_or in Hh as [Hh|[<-|[]]]; auto.
          + rewrite run_app, B2. reflexivity.
        - rewrite N1. destruct (Nat.eqb_spec 0 c) as [<-|]; auto. congruence. }
      assert (Hbp1 : nth b paths1 None = Some bp). { rewrite N1. destruct (Nat.eqb_spec b c) as [e|]; [rewrite <- e in Ec; congruence|auto]. }
      destruct (IH paths1 (next ++ [c])) as (A1 & A2 & A3 & A4 & A5 & A6 & A7); auto. { intros; apply Hg; cbn; auto. }
      assert (D : forall j q, nth j paths None = Some q -> nth j paths1 None = Some q). { intros j q Hj. rewrite N1. destruct (Nat.eqb_spec j c); [congruence|auto]. }
      assert (Dc : done (fst (path_gens ps b bp gs paths1 (next ++ [c]))) c). { unfold done. rewrite (A2 c (bp ++ [g])); [discriminate|]. rewrite N1, Nat.eqb_refl. auto. }
      split; auto. split; auto. split; [|split; [|split; [|split]]].
      * intros g' [<-|Hg']; auto.
      * intros j Hj. destruct (A4 j Hj) as [Hj'|]; auto. unfold done in Hj'. rewrite N1 in Hj'. destruct (Nat.eqb_spec j c) as [->|]; auto. right. apply A6, in_or_app. right; left; auto.
      * intros j Hj. destruct (A5 j Hj) as [Hj'|]; auto. apply in_app_or in Hj' as [|[<-|[]]]; auto.
      * intros j Hj. apply A6, in_or_app. auto.
      * rewrite A7, app_length. cbn. unfold paths1. rewrite <- (cntN_setn paths c (bp ++ [g])); auto; lia.
Qed.
Lemma path_bound_spec : forall bs paths next, pathsok paths -> (forall b, In b bs -> done paths b) ->
  let r := path_bound ps bs paths next in pathsok (fst r) /\ (forall c, done paths c -> done (fst r) c) /\
  (forall b g, In b bs -> g < ng -> done (fst r) (p g b)) /\ (forall c, done (fst r) c -> done paths c \/ In c (snd r)) /\ (forall c, In c (snd r) -> In c next \/ done (fst r) c) /\
  (forall c, In c next -> In c (snd r)) /\ cntN (fst r) + length (snd r) = cntN paths + length next.
Proof.
  induction bs as [|b bs IH]; intros paths next Hok Hbs; cbn [path_bound].
  - cbn. split; [exact Hok|]. repeat split; try tauto; auto. 
  - pose proof (Hbs b (or_introl eq_refl)) as Db. unfold done in Db. destruct (nth b paths None) as [bp|] eqn:Eb; [|congruence]. pose proof Hok as (K1 & K2 & K3). destruct (K2 _ _ Eb) as (Hb & _).
    destruct (path_gens_spec b bp Hb (seq 0 (length ps)) paths next) as (A1 & A2 & A3 & A4 & A5 & A6 & A7); auto.
    { intros g Hg. apply in_seq in Hg. destruct R as (_ & Hl & _). lia. }
    destruct (path_gens ps b bp (seq 0 (length ps)) paths next) as [paths1 next1]. cbn [fst snd] in *. cbn zeta in *.
    assert (M : forall c, done paths c -> done paths1 c). { intros c Hc. unfold done in *. destruct (nth c paths None) eqn:E; [rewrite (A2 _ _ E); discriminate|congruence]. }
    destruct (IH paths1 next1) as (B1 & B2 & B3 & B4 & B5 & B6 & B7); auto. { intros; apply M, Hbs; cbn; auto. }
    split; auto. split; auto. split; [|split; [|split; [|split]]].
    + intros b' g [<-|Hb'] Hg; auto. apply B2, A3. apply in_seq. destruct R as (_ & Hl & _). lia.
    + intros c Hc. destruct (B4 c Hc) as [Hc'|]; auto. destruct (A4 c Hc'); auto.
    + intros c Hc. destruct (B5 c Hc) as [Hc'|]; auto. destruct (A5 c Hc'); auto.
    + auto.
    + lia.
Qed.
Lemma path_loop_spec : forall fuel boundary paths, cntN paths + 2 <= fuel -> pathsok paths -> (forall b, In b boundary -> done paths b) ->
  (forall c, done paths c -> In c boundary \/ forall g, g < ng -> done paths (p g c)) ->
  exists paths', path_loop fuel ps boundary paths = Some paths' /\ pathsok paths' /\ forall c g, done paths' c -> g < ng -> done paths' (p g c).
Proof.
  induction fuel as [|fuel IH]; intros boundary paths Hf Hok Hb Hc; [lia|]. cbn [path_loop]. destruct boundary as [|b0 bs].
  - exists paths. split; auto. split; auto. intros c g Hd Hg. destruct (Hc c Hd) as [[]|]; auto.
  - destruct (path_bound_spec (b0 :: bs) paths [] Hok Hb) as (A1 & A2 & A3 & A4 & A5 & A6 & A7). destruct (path_bound ps (b0 :: bs) paths []) as [paths1 next]. cbn [fst snd] in *. cbn zeta in *. cbn [length] in A7.
    assert (Hb1 : forall b, In b next -> done paths1 b). { intros b Hbn. destruct (A5 b Hbn) as [[]|]; auto. }
    assert (Hc1 : forall c, done paths1 c -> In c next \/ forall g, g < ng -> done paths1 (p g c)).
    { intros c Hd. destruct (A4 c Hd) as [Hd'|]; auto. right. intros g Hg. destruct (Hc c Hd') as [Hin|Hs]; [apply A3; auto|apply A2; auto]. }
    destruct next as [|c0 next].
    + destruct fuel as [|fuel]; [lia|]. cbn [path_loop]. exists paths1. split; auto. split; auto. intros c g Hd Hg. destruct (Hc1 c Hd) as [[]|]; auto.
    + apply IH; auto. cbn [length] in A7. lia.
Qed.
Lemma paths_start : pathsok (setn (repeat None n) 0 (Some [])).
Proof.
  assert (Hn : 0 < n) by apply R. split; [rewrite setn_length, repeat_length; auto|]. assert (N : forall c, nth c (setn (repeat (@None (list nat)) n) 0 (Some [])) None = if c =? 0 then Some [] else None).
  { intros c. rewrite nth_setn, repeat_length, nth_repeat. destruct (Nat.ltb_spec 0 n); [|lia]. rewrite andb_true_r. auto. }
  split; [|rewrite N; auto]. intros c q. rewrite N. destruct (Nat.eqb_spec c 0) as [->|]; [|discriminate]. intros [= <-]. split; auto. split; [intros g []|reflexivity].
Qed.
Lemma start_nth c : nth c (setn (repeat (@None (list nat)) n) 0 (Some [])) None = if c =? 0 then Some [] else None.
Proof. assert (Hn : 0 < n) by apply R. rewrite nth_setn, repeat_length, nth_repeat. destruct (Nat.ltb_spec 0 n); [|lia]. rewrite andb_true_r. auto. Qed.
Lemma start_cnt : cntN (setn (repeat (@None (list nat)) n) 0 (Some [])) + 1 = n.
Proof.
  assert (Hn : 0 < n) by apply R. destruct n as [|m]; [lia|]. cbn. unfold cntN. cbn. clear. induction m; cbn; auto.
Qed.
(* a set closed under the generators is closed under their inverses *)
Lemma closed_inv (D : nat -> Prop) (Ddec : forall c, {D c} + {~ D c}) g : (forall c, c < n -> D c -> D (p g c)) -> forall y, y < n -> D (p g y) -> D y.
Proof.
  intros Hcl. destruct (pact_bij ng rels [] n ps R g) as [(B1 & B2 & B3) _]. set (L := filter (fun c => if Ddec c then true else false) (seq 0 n)).
  assert (HL : forall c, In c L <-> c < n /\ D c). { intros c. unfold L. rewrite filter_In, in_seq. destruct (Ddec c); intuition (try lia; try discriminate). }
  assert (NL : NoDup L) by (apply NoDup_filter, seq_NoDup).
  assert (Np : NoDup (map (p g) L)). { apply NoDup_nth with (d := p g 0). intros i j Hi Hj. rewrite map_length in *. rewrite !(map_nth (p g)). intros E. rewrite NoDup_nth with (d := 0) in NL. apply NL; auto. apply B2; auto; apply HL, nth_In; auto. }
  assert (I : incl (map (p g) L) L). { intros c Hc. apply in_map_iff in Hc as (c' & <- & Hc'). apply HL in Hc' as [H1 H2]. apply HL. auto. }
  assert (I' : incl L (map (p g) L)). { apply NoDup_length_incl; auto. rewrite map_length. auto. }
  intros y Hy Hd. assert (Hin : In (p g y) L) by (apply HL; auto). apply I' in Hin. apply in_map_iff in Hin as (c & E & Hc). apply HL in Hc as [Hc1 Hc2]. assert (c = y) by (apply B2; auto). subst. auto.
Qed.
Definition transitive_action : Prop := forall k, k < n -> exists w, word ng w /\ word_acts n p w 0 k.
Lemma paths_final fuel : n + 1 <= fuel -> exists paths, path_loop fuel ps [0] (setn (repeat None n) 0 (Some [])) = Some paths /\ pathsok paths /\
  (transitive_action <-> forall c, c < n -> done paths c).
Proof.
  intros Hf. destruct (path_loop_spec fuel [0] (setn (repeat None n) 0 (Some []))) as (paths & E & Hok & Hcl).
  - pose proof start_cnt. lia.
  - apply paths_start.
  - intros b [<-|[]]. unfold done. rewrite start_nth. discriminate.
  - intros c Hd. unfold done in Hd. rewrite start_nth in Hd. destruct (Nat.eqb_spec c 0); [left; cbn; auto|congruence].
  - exists paths. split; auto. split; auto. split.
    + intros T. assert (G : forall w k, word ng w -> word_acts n p w 0 k -> done paths k).
      { induction w as [|d w IH]; intros k Hw; cbn [word_acts]; [intros <-; unfold done; destruct Hok as (_ & _ & ->); discriminate|]. intros (z & Hz & H1 & H2).
        assert (Dz : done paths z) by (apply IH; auto; intros e He; apply Hw; cbn; auto). assert (Hd : d < 2 * ng) by (apply Hw; left; auto). assert (Hk : k < n) by exact (letter_lt ng rels [] n ps R d z k Hz H2).
        unfold letter_acts in H2. assert (Hdv : Nat.div2 d < ng) by (destruct (Nat.even d) eqn:Ed; [apply even_div2 in Ed|apply odd_div2 in Ed]; lia). destruct (Nat.even d).
        - rewrite <- H2. apply Hcl; auto.
        - apply (closed_inv (done paths)) with (g := Nat.div2 d); auto.
          + intros c. unfold done. destruct (nth c paths None); [left; discriminate|right; auto].
          + rewrite H2. auto. }
      intros c Hc. destruct (T c Hc) as (w & H1 & H2). eauto.
    + intros HD k Hk. specialize (HD k Hk). unfold done in HD. destruct (nth k paths None) as [q|] eqn:Eq; [|congruence]. destruct Hok as (_ & K2 & _). destruct (K2 _ _ Eq) as (_ & Q1 & Q2).
      exists (rev (map (fun g => 2 * g) q)). split.
      * intros d Hd. apply in_rev in Hd. apply in_map_iff in Hd as (g & <- & Hg). apply Q1 in Hg. lia.
      * clear Eq HD. revert k Hk Q2 Q1. induction q as [|g q IH] using rev_ind; intros k Hk Q2 Q1; [cbn in *; auto|]. rewrite map_app, rev_app_distr. cbn [map rev app word_acts].
        rewrite run_app in Q2. exists (run q 0). assert (Hz : run q 0 < n). { clear -R. assert (0 < n) by apply R. revert H. generalize 0. induction q as [|g q IH]; intros x Hx; cbn; auto. apply IH. apply (pact_bij ng rels [] n ps R g); auto. }
        split; auto. split; [apply IH; auto; intros; apply Q1, in_or_app; auto|]. unfold letter_acts. replace (Nat.even (2 * g)) with true by (symmetry; apply Nat.even_spec; eexists; eauto). rewrite Nat.div2_double. exact Q2.
Qed.
Definition W (q : list nat) : list nat := rev (map (fun g => 2 * g) q).
Lemma run_lt q : forall x, x < n -> run q x < n.
Proof. induction q as [|g q IH]; intros x Hx; cbn; auto. apply IH. apply (pact_bij ng rels [] n ps R g); auto. Qed.
Lemma W_word q : (forall g, In g q -> g < ng) -> word ng (W q).
Proof. intros H d Hd. apply in_rev in Hd. apply in_map_iff in Hd as (g & <- & Hg). apply H in Hg. lia. Qed.
Lemma W_acts q : forall x y, x < n -> (word_acts n p (W q) x y <-> run q x = y).
Proof.
  unfold W. induction q as [|g q IH] using rev_ind; intros x y Hx; [reflexivity|]. rewrite map_app, rev_app_distr. cbn [map rev app word_acts]. rewrite run_app. unfold letter_acts.
  replace (Nat.even (2 * g)) with true by (symmetry; apply Nat.even_spec; eexists; eauto). rewrite Nat.div2_double. split.
  - intros (z & Hz & H1 & H2). apply (proj1 (IH x z Hx)) in H1. rewrite <- H1 in H2. exact H2.
  - intros E. exists (run q x). split; [apply run_lt; auto|]. split; [apply IH; auto|exact E].
Qed.
Hypothesis Hrel : forall r k, In r rels -> k < n -> word_acts n p r k k.
Lemma regular u v k : word ng u -> word ng v -> word_acts n p u 0 k -> word_acts n p v 0 k -> forall x y, x < n -> (word_acts n p u x y <-> word_acts n p v x y).
Proof.
  intros Hu Hv H1 H2 x y Hx. apply (exact_acts_at ng rels [] n ps R Hrel x Hx); [intros s []|]. apply (never_merges ng rels [] n ps R u v k); auto.
Qed.
Lemma inv_run invs : length invs = length ps -> (forall g x, call (nth g ps []) (call (nth g invs []) x) = x) -> forall q x, run q (run_path invs (rev q) x) = x.
Proof.
  intros Hl Hi. induction q as [|g q IH]; intros x; cbn; auto. unfold run_path. rewrite fold_left_app. cbn. rewrite Hi. apply IH.
Qed.
Lemma invs_spec : exists invs, collect (map perm_inverse ps) = Some invs /\ length invs = length ps /\ (forall g x, call (nth g ps []) (call (nth g invs []) x) = x) /\
  (forall g x, x < n -> call (nth g invs []) x < n).
Proof.
  destruct (collect_spec (map perm_inverse ps)) as (invs & E & L & N).
  { intros o Ho. apply in_map_iff in Ho as (q & <- & Hq). destruct R as (_ & _ & R3 & _). destruct (R3 q Hq) as (B & _). destruct (inverse_spec q B) as (q' & -> & _). discriminate. }
  rewrite map_length in *. exists invs. split; auto. split; auto.
  assert (G : forall g x, call (nth g ps []) (call (nth g invs []) x) = x).
  { intros g x. destruct (Nat.lt_ge_cases g (length ps)) as [Hg|Hg].
    - specialize (N g [] Hg). rewrite (nth_indep _ None (perm_inverse [])) in N by (rewrite map_length; auto). rewrite (map_nth perm_inverse) in N.
      destruct R as (_ & _ & R3 & _). destruct (R3 (nth g ps [])) as (B & _ & B3); [apply nth_In; auto|]. destruct (inverse_spec _ B) as (q & E' & _ & _ & Q1 & Q2). assert (q = nth g invs []) by congruence. subst q. rewrite !call_act. auto.
    - rewrite !nth_overflow by lia. unfold call. destruct x; reflexivity. }
  split; auto. intros g x Hx. destruct (pact_bij ng rels [] n ps R g) as [_ B4]. specialize (G g x). destruct (Nat.lt_ge_cases (call (nth g invs []) x) n) as [|Hge]; auto.
  specialize (B4 _ Hge). unfold pact in B4. lia.
Qed.
Lemma finite_group_spec fuel : n + 1 <= fuel -> (transitive_action <-> finite_group_of fuel n ps <> None) /\
  forall t, finite_group_of fuel n ps = Some t -> tn t = n /\ tident t = 0 /\ is_group_table n 0 (tinv t) (tmuls t) /\
    (forall u v x y, word ng u -> word ng v -> word_acts n p u 0 x -> word_acts n p v 0 y -> word_acts n p (v ++ u) 0 (tab_mul (tmuls t) x y)).
Proof.
  intros Hf. destruct (paths_final fuel Hf) as (paths & E & (K1 & K2 & K3) & HT). destruct invs_spec as (invs & Ei & Li & Hi & Hil).
  unfold finite_group_of. rewrite Ei, E. assert (Hn : 0 < n) by apply R.
  destruct (collect paths) as [qs|] eqn:Ec.
  2:{ split; [|discriminate]. split; [|congruence]. intros T. exfalso. rewrite HT in T. assert (G : exists r, collect paths = Some r); [|destruct G; congruence].
      destruct (collect_spec paths) as (r & Er & _); [|eauto]. intros o Ho. apply (In_nth _ _ None) in Ho as (c & Hc & <-). apply T. lia. }
  assert (G : length qs = n /\ forall c, c < n -> nth c paths None = Some (nth c qs [])).
  { assert (G : forall l r, collect l = Some r -> length r = length l /\ forall c, c < length l -> nth c l None = Some (nth c r (@nil nat))).
    { induction l as [|[o|] l IH]; intros r; cbn; [intros [= <-]; cbn; split; auto; lia| |discriminate]. destruct (collect l); [|discriminate]. intros [= <-]. destruct (IH l0 eq_refl). split; [cbn; lia|]. intros [|c] Hc; cbn in *; auto. apply H0. lia. }
    apply G in Ec. rewrite K1 in Ec. auto. }
  destruct G as [Lq Nq]. split.
  - split; [discriminate|]. intros _. apply HT. intros c Hc. unfold done. rewrite Nq by auto. discriminate.
  - intros t [= <-]. cbn [tn tident tinv tmuls]. split; auto. split; auto.
    assert (Q : forall c, c < n -> (forall g, In g (nth c qs []) -> g < ng) /\ run (nth c qs []) 0 = c). { intros c Hc. destruct (K2 c _ (Nq c Hc)) as (_ & H). auto. }
    assert (Q0 : nth 0 qs [] = []). { specialize (Nq 0 Hn). rewrite K3 in Nq. congruence. }
    set (M := map (fun x => map (fun y => run (nth y qs []) (run (nth x qs []) 0)) (seq 0 n)) (seq 0 n)). set (I := map (fun x => run_path invs (rev (nth x qs [])) 0) (seq 0 n)).
    assert (HM : forall x y, x < n -> y < n -> tab_mul M x y = run (nth y qs []) x).
    { intros x y Hx Hy. unfold tab_mul, M. rewrite (nth_indep _ [] (map (fun y => run (nth y qs []) (run (nth 0 qs []) 0)) (seq 0 n))) by (rewrite map_length, seq_length; auto).
      rewrite (map_nth (fun x => map (fun y => run (nth y qs []) (run (nth x qs []) 0)) (seq 0 n))). rewrite seq_nth by auto. cbn [Nat.add].
      rewrite (nth_indep _ 0 (run (nth 0 qs []) (run (nth x qs []) 0))) by (rewrite map_length, seq_length; auto). rewrite (map_nth (fun y => run (nth y qs []) (run (nth x qs []) 0))). rewrite seq_nth by auto. cbn [Nat.add].
      f_equal. apply Q; auto. }
    assert (HI : forall x, x < n -> tab_inv I x = run_path invs (rev (nth x qs [])) 0).
    { intros x Hx. unfold tab_inv, I. rewrite (nth_indep _ 0 (run_path invs (rev (nth 0 qs [])) 0)) by (rewrite map_length, seq_length; auto). rewrite (map_nth (fun x => run_path invs (rev (nth x qs [])) 0)). rewrite seq_nth by auto. reflexivity. }
    assert (Hac : forall u v x y, word ng u -> word ng v -> word_acts n p u 0 x -> word_acts n p v 0 y -> word_acts n p (v ++ u) 0 (tab_mul M x y)).
    { intros u v x y Hu Hv Hux Hvy. assert (Hx : x < n) by exact (word_lt ng rels [] n ps R u 0 x Hn Hux). assert (Hy : y < n) by exact (word_lt ng rels [] n ps R v 0 y Hn Hvy). rewrite HM by auto. apply (word_app ng rels [] n ps R); auto. exists x. split; auto. split; auto.
      apply (regular (W (nth y qs [])) v y); auto; [apply W_word, Q; auto|apply W_acts; auto; apply Q; auto|]. apply W_acts; auto. }
    split; [|exact Hac]. split; [unfold I; rewrite map_length, seq_length; auto|]. split; [unfold M; rewrite map_length, seq_length; auto|]. split. { intros r Hr. apply in_map_iff in Hr as (x & <- & _). rewrite map_length, seq_length. auto. }
    assert (Hlt : forall x y, x < n -> y < n -> tab_mul M x y < n) by (intros; rewrite HM by auto; apply run_lt; auto).
    assert (Hilt : forall x, x < n -> tab_inv I x < n). { intros x Hx. rewrite HI by auto. generalize (rev (nth x qs [])). intros l. assert (GG : forall z, z < n -> run_path invs l z < n) by (induction l as [|g l IH]; intros z Hz; cbn; auto; apply IH; apply Hil; auto). apply GG; auto. }
    assert (Has : forall x y z, x < n -> y < n -> z < n -> tab_mul M x (tab_mul M y z) = tab_mul M (tab_mul M x y) z).
    { intros x y z Hx Hy Hz. rewrite (HM x (tab_mul M y z)) by auto. set (m := tab_mul M y z). assert (Hm : m < n) by (apply Hlt; auto). rewrite (HM (tab_mul M x y) z) by auto. rewrite (HM x y) by auto.
      rewrite <- run_app. symmetry. apply W_acts; auto. apply (regular (W (nth y qs [] ++ nth z qs [])) (W (nth m qs [])) m); auto.
      - apply W_word. intros g Hg. apply in_app_or in Hg as [Hg|Hg]; [apply (Q y)|apply (Q z)]; auto.
      - apply W_word, Q; auto.
      - apply W_acts; auto. rewrite run_app. rewrite (proj2 (Q y Hy)). unfold m. rewrite HM; auto.
      - apply W_acts; auto. apply Q; auto.
      - apply W_acts; auto. }
    assert (Hil' : forall x, x < n -> tab_mul M (tab_inv I x) x = 0). { intros x Hx. rewrite HM by auto. rewrite HI by auto. apply inv_run; auto. }
    assert (Hl0 : forall x, x < n -> tab_mul M 0 x = x) by (intros x Hx; rewrite HM by auto; apply Q; auto).
    assert (Hr0 : forall x, x < n -> tab_mul M x 0 = x) by (intros x Hx; rewrite HM by auto; rewrite Q0; reflexivity).
    constructor; auto. intros x Hx. set (i := tab_inv I x). assert (Hi' : i < n) by (apply Hilt; auto). set (j := tab_inv I i). assert (Hj : j < n) by (apply Hilt; auto).
    assert (Hxi : tab_mul M x i < n) by auto. rewrite <- (Hl0 (tab_mul M x i)) by auto. rewrite <- (Hil' i Hi') at 1. fold j. rewrite <- Has; auto. rewrite (Has i x i) by auto. assert (Ezz : tab_mul M i x = 0) by (unfold i; auto). rewrite Ezz. rewrite Hl0 by auto. apply Hil'; auto.
Qed.
End S.
