(* The result of coset enumeration: it never identifies two different cosets; exactness under checkable conditions. *)
From Coq Require Import List Arith Lia Bool Permutation.
From Verif Require Import PermSpec PermModel PermProofs TCSpec TCModel TCProofs.
Import ListNotations.

Section S.
Variables (ng : nat) (rels subs : list (list nat)).
Notation "u ~ v" := (coset_eq ng rels subs u v) (at level 70).
Notation Snd := (Sound ng rels subs).
Lemma words_ok_spec ws : words_ok ng ws = true <-> forall w, In w ws -> word ng w.
Proof.
  unfold words_ok, word. rewrite forallb_forall. split.
  - intros H w Hw d Hd. specialize (H w Hw). rewrite forallb_forall in H. apply Nat.ltb_lt. auto.
  - intros H w Hw. apply forallb_forall. intros d Hd. apply Nat.ltb_lt. eauto.
Qed.
Lemma visit_spec : forall fuel rs s t, wf ng s -> (forall w, In w rs -> word ng w) -> (forall w u, In w rs -> w ++ u ~ u) ->
  forall phi, Snd phi s -> forall s', visit fuel ng rs s t = Some s' -> wf ng s' /\ exists phi', Snd phi' s'.
Proof.
  induction fuel as [|fuel IH]; intros rs s t W Hw Hr phi Hs s'; cbn [visit]; [discriminate|].
  destruct (Nat.ltb_spec t (length (ids s))) as [Ht|Ht]; [|intros [= <-]; eauto]. destruct (find s t =? t).
  - destruct (traces_spec ng rels subs rs s t W Ht Hw) as (s1 & E & A1 & A2 & A3 & A4 & A5). rewrite E. intros E'. destruct (A5 phi Hs) as (phi1 & B1 & B2); [auto|]. eapply IH; eauto.
  - intros E'. eapply IH; eauto.
Qed.
Lemma visit_mono fuel rs : forall s t s' k, visit fuel ng rs s t = Some s' -> visit (fuel + k) ng rs s t = Some s'.
Proof.
  induction fuel as [|fuel IH]; intros s t s' k; cbn [visit Nat.add]; [discriminate|]. destruct (_ <? _); auto. destruct (_ =? _); auto. destruct (loopM _ _ _); auto.
Qed.
Lemma full_rels_ok : (forall r, In r rels -> word ng r) -> forall w, In w (full_rels ng rels) -> word ng w.
Proof.
  intros H w Hw. apply in_app_or in Hw as [Hw|Hw]; auto. apply in_map_iff in Hw as (i & <- & Hi). apply in_seq in Hi. intros d [<-|[<-|[]]]; lia.
Qed.
Lemma linv_odd i : linv (2 * i + 1) = 2 * i.
Proof. unfold linv. replace (2 * i + 1) with (S (2 * i)) by lia. rewrite Nat.even_succ, <- Nat.negb_even. replace (Nat.even (2 * i)) with true by (symmetry; apply Nat.even_spec; exists i; auto). reflexivity. Qed.
Lemma linv_even i : linv (2 * i) = 2 * i + 1.
Proof. unfold linv. replace (Nat.even (2 * i)) with true by (symmetry; apply Nat.even_spec; exists i; auto). lia. Qed.
Lemma full_rels_sound w u : In w (full_rels ng rels) -> w ++ u ~ u.
Proof.
  intros Hw. apply in_app_or in Hw as [Hw|Hw]; [apply ce_rel; auto|]. apply in_map_iff in Hw as (i & <- & Hi). apply in_seq in Hi. cbn [app].
  pose proof (ce_cancel ng rels subs (2 * i + 1) u ltac:(lia)) as H. rewrite linv_odd in H. exact H.
Qed.
Lemma wf_start : wf ng (new_coset ng (mkSG [] [])).
Proof. apply wf_new. constructor; cbn; auto; try lia. intros i d x. unfold nb. cbn. destruct i, d; discriminate. Qed.
Lemma Sound_start : Snd (fun _ => []) (new_coset ng (mkSG [] [])).
Proof.
  split; [|split; [|split]]; auto; [intros; apply ce_refl|]. intros i d x. rewrite (nb_new ng).
  - unfold nb. cbn. destruct i, d; discriminate.
  - constructor; cbn; auto; try lia. intros i' d' x'. unfold nb. cbn. destruct i', d'; discriminate.
Qed.
(* ---------- reading off the permutations *)
Lemma index_of_spec x l : forall i j, index_of x i l = Some j -> i <= j /\ j - i < length l /\ nth (j - i) l 0 = x.
Proof.
  induction l as [|y l IH]; intros i j; cbn [index_of]; [discriminate|]. destruct (Nat.eqb_spec x y) as [->|].
  - intros [= <-]. rewrite Nat.sub_diag. cbn. repeat split; lia.
  - intros E. apply IH in E as (H1 & H2 & H3). split; [lia|]. replace (j - i) with (S (j - S i)) by lia. cbn. split; [lia|auto].
Qed.
Lemma images_spec cosets g : 2 * g < 2 * ng -> forall cs s s' l phi, wf ng s -> Snd phi s -> (forall c, In c cosets -> c < length (ids s)) -> (forall c, In c cs -> c < length (ids s)) ->
  images ng cosets g cs s = Some (s', l) -> wf ng s' /\ length (ids s) <= length (ids s') /\ length l = length cs /\
  (exists phi', Snd phi' s' /\ forall i, i < length (ids s) -> phi' i = phi i) /\
  forall k, k < length cs -> nth k l 0 < length cosets /\ (2 * g) :: phi (nth k cs 0) ~ phi (nth (nth k l 0) cosets 0).
Proof.
  intros Hg. induction cs as [|c cs IH]; intros s s' l phi W Hs Hco Hcs E; cbn [images] in E.
  - inversion E; subst. split; auto. split; auto. split; auto. split; [exists phi; auto|]. cbn. lia.
  - destruct (follow_spec ng rels subs s c (2 * g) W) as (A1 & A2 & A3 & A4 & A5 & A6 & A7 & A8); [apply Hcs; left; auto|auto|].
    destruct (follow ng s c (2 * g)) as [s1 x1]. cbn [fst snd] in *. cbn zeta in *. destruct (index_of x1 0 cosets) as [i|] eqn:Ei; [|discriminate].
    apply index_of_spec in Ei as (I1 & I2 & I3). rewrite Nat.sub_0_r in *. destruct (images ng cosets g cs s1) as [[s2 l2]|] eqn:E2; [|discriminate]. inversion E; subst s2 l.
    destruct (A8 phi Hs) as (phi1 & B1 & B2 & B3). destruct (IH s1 s' l2 phi1 A1 B1) as (C1 & C2 & C3 & (phi2 & C4 & C5) & C6); auto.
    { intros c' Hc'. apply Hco in Hc'. lia. } { intros c' Hc'. specialize (Hcs c' (or_intror Hc')). lia. }
    split; auto. split; [lia|]. split; [cbn; lia|]. split; [exists phi2; split; auto; intros j Hj; rewrite C5, B2; auto; lia|].
    intros [|k] Hk; cbn [nth] in *.
    + split; auto. rewrite I3. assert (Hx1 : x1 < length (ids s)) by (rewrite <- I3; apply Hco, nth_In; auto). rewrite <- (B2 x1 Hx1). exact B3.
    + destruct (C6 k) as [D1 D2]; [cbn in Hk; lia|]. split; auto. rewrite !B2 in D2; auto.
      * apply Hco, nth_In; auto.
      * apply Hcs. right. apply nth_In. cbn in Hk. lia.
Qed.
Lemma gen_perms_spec cosets : forall gs s phi ps, (forall g, In g gs -> g < ng) -> wf ng s -> Snd phi s -> (forall c, In c cosets -> c < length (ids s)) ->
  gen_perms ng cosets gs s = Some ps -> length ps = length gs /\
  forall j, j < length gs -> exists l, length l = length cosets /\ is_bij l /\ is_bij (nth j ps []) /\ is_reduced (nth j ps []) /\ (forall x, call (nth j ps []) x = act l x) /\
    forall k, k < length cosets -> (2 * nth j gs 0) :: phi (nth k cosets 0) ~ phi (nth (nth k l 0) cosets 0).
Proof.
  induction gs as [|g gs IH]; intros s phi ps Hg W Hs Hco E; cbn [gen_perms] in E.
  - inversion E; subst. split; auto. cbn. lia.
  - destruct (images ng cosets g cosets s) as [[s1 l]|] eqn:Ei; [|discriminate].
    assert (Hgg : g < ng) by (apply Hg; left; auto).
    destruct (images_spec cosets g ltac:(lia) cosets s s1 l phi W Hs Hco Hco Ei) as (A1 & A2 & A3 & (phi1 & A4 & A5) & A6).
    destruct (perm_new l) as [[p|]|] eqn:Ep; try discriminate. destruct (gen_perms ng cosets gs s1) as [ps1|] eqn:Eg; [|discriminate]. inversion E; subst ps.
    destruct (IH s1 phi1 ps1) as [B1 B2]; auto. { intros; apply Hg; cbn; auto. } { intros c Hc. apply Hco in Hc. lia. }
    split; [cbn; lia|]. intros [|j] Hj; cbn [nth].
    + exists l. split; auto. assert (Hb : is_bij l). { destruct (valid_check_spec l) as (b & Eb & Hb). unfold perm_new in Ep. rewrite Eb in Ep. destruct b; [apply Hb; auto|discriminate]. }
      destruct (proj1 (perm_new_spec l) Hb) as (p' & E' & P1 & P2 & P3). assert (p' = p) by congruence. subst p'. split; auto. split; auto. split; auto. split; auto. intros k Hk. apply A6; auto.
    + destruct (B2 j) as (l' & C1 & C2 & C3 & C4 & C5 & C6); [cbn in Hj; lia|]. exists l'. split; auto. split; auto. split; auto. split; auto. split; auto. intros k Hk. specialize (C6 k Hk).
      rewrite !A5 in C6; auto.
      * apply Hco, nth_In. rewrite <- C1. apply is_bij_iff in C2 as [_ C2]. apply C2, nth_In. lia.
      * apply Hco, nth_In; auto.
Qed.
Definition pact (ps : list (list nat)) (g x : nat) : nat := call (nth g ps []) x.
Definition result (n : nat) (ps : list (list nat)) : Prop :=
  0 < n /\ length ps = ng /\ (forall p, In p ps -> is_bij p /\ is_reduced p /\ length p <= n) /\
  exists psi, psi 0 = [] /\ forall g k, g < ng -> k < n -> (2 * g) :: psi k ~ psi (pact ps g k).
Lemma live_cosets_spec s : forall c, In c (live_cosets s) -> c < length (ids s).
Proof. intros c Hc. apply filter_In in Hc as [Hc _]. apply in_seq in Hc. lia. Qed.
Lemma live_cosets_0 s : wf ng s -> 0 < length (ids s) -> exists l, live_cosets s = 0 :: l.
Proof.
  intros W H. unfold live_cosets. destruct (length (ids s)) as [|k] eqn:E; [lia|]. cbn [seq filter]. pose proof (wf_id _ _ W 0 ltac:(lia)). destruct (Nat.eqb_spec (idOf s 0) 0); [eauto|lia].
Qed.
Lemma enumerate_sound fuel n ps : enumerate_cosets fuel ng rels subs = Some (Some (n, ps)) -> result n ps.
Proof.
  unfold enumerate_cosets. destruct (words_ok ng (full_rels ng rels) && words_ok ng subs) eqn:Ew; [|discriminate]. cbn [negb]. apply andb_true_iff in Ew as [Ew1 Ew2].
  rewrite words_ok_spec in Ew1, Ew2. pose proof wf_start as W0. pose proof Sound_start as S0.
  destruct (traces_spec ng rels subs subs (new_coset ng (mkSG [] [])) 0 W0 ltac:(cbn; lia) Ew2) as (s0 & -> & A1 & A2 & A3 & A4 & A5).
  destruct (A5 _ S0) as (phi0 & B1 & B2). { intros w Hw. rewrite app_nil_r. apply ce_sub. auto. }
  destruct (visit fuel ng (full_rels ng rels) s0 0) as [s|] eqn:Ev; [|discriminate].
  destruct (visit_spec fuel (full_rels ng rels) s0 0 A1) with (phi := phi0) (s' := s) as (W & phi & Hs); auto. { intros; apply full_rels_sound; auto. }
  destruct (gen_perms ng (live_cosets s) (seq 0 ng) s) as [ps'|] eqn:Eg; [|discriminate]. intros [= <- <-].
  destruct (live_cosets_0 s W) as (l0 & El); [apply Hs|].
  destruct (gen_perms_spec (live_cosets s) (seq 0 ng) s phi ps') as [C1 C2]; auto. { intros g Hg. apply in_seq in Hg. lia. } { apply live_cosets_spec. }
  rewrite seq_length in *. split; [rewrite El; cbn; lia|]. split; [auto|]. split.
  - intros p Hp. apply (In_nth _ _ []) in Hp as (j & Hj & <-). destruct (C2 j ltac:(lia)) as (l & D1 & D2 & D3 & D4 & D5 & D6). split; auto. split; auto.
    rewrite <- D1. rewrite <- Nat.nlt_ge. intros Hlt. destruct D4 as [Q|Q]; [rewrite Q in Hlt; cbn in Hlt; lia|]. apply Q. set (p := nth j ps' []) in *.
    assert (last p 0 = length p - 1); [|lia]. destruct (snoc_case p) as [Ep|(p' & z & Ep)]; [rewrite Ep in Hlt; cbn in Hlt; lia|]. rewrite Ep in *. rewrite last_last, app_length in *. cbn [length] in *.
    specialize (D5 (length p')). rewrite call_act in D5. unfold act in D5. rewrite app_nth2, Nat.sub_diag in D5 by lia. cbn in D5. rewrite (nth_overflow l) in D5 by lia. lia.
  - exists (fun k => phi (nth k (live_cosets s) 0)). split; [rewrite El; cbn; apply Hs|]. intros g k Hg Hk. destruct (C2 g Hg) as (l & D1 & D2 & D3 & D4 & D5 & D6). specialize (D6 k Hk). rewrite seq_nth in D6 by auto.
    unfold pact. rewrite D5. rewrite (act_nth l k 0) by lia. exact D6.
Qed.
(* ---------- consequences *)
Section R.
Variables (n : nat) (ps : list (list nat)).
Hypothesis R : result n ps.
Notation p := (pact ps).
Lemma pact_over g k : ng <= g -> p g k = k.
Proof. intros H. destruct R as (_ & Hl & _). unfold pact. rewrite nth_overflow by lia. unfold call. destruct k; reflexivity. Qed.
Lemma pact_bij g : bijective_on n (p g) /\ forall k, n <= k -> p g k = k.
Proof.
  destruct R as (R1 & R2 & R3 & _). destruct (Nat.lt_ge_cases g ng) as [Hg|Hg].
  - destruct (R3 (nth g ps [])) as (B1 & B2 & B3); [apply nth_In; lia|]. unfold pact. split; [split; [|split]|].
    + intros x Hx. rewrite call_act. apply act_lt_N; auto.
    + intros x y Hx Hy. rewrite !call_act. destruct (inverse_spec _ B1) as (q & _ & _ & _ & Q1 & Q2). intros E. rewrite <- (Q1 x), <- (Q1 y), E. auto.
    + intros y Hy. destruct (inverse_spec _ B1) as (q & _ & Q0 & _ & Q1 & Q2). exists (act q y). rewrite call_act. split; [|apply Q2].
      destruct (Nat.lt_ge_cases (act q y) n) as [|Hge]; auto. pose proof (Q2 y) as E. rewrite act_over in E by lia. lia.
    + intros k Hk. rewrite call_act. apply act_over. lia.
  - split; [split; [|split]|]; intros; rewrite ?pact_over in *; auto. exists y. rewrite pact_over; auto.
Qed.
Lemma letter_total d z : z < n -> exists y, y < n /\ letter_acts p d z y.
Proof.
  intros Hz. unfold letter_acts. destruct (pact_bij (Nat.div2 d)) as [(B1 & B2 & B3) _]. destruct (Nat.even d); [eauto|]. destruct (B3 z Hz) as (y & Hy & E). eauto.
Qed.
Lemma letter_lt d z y : z < n -> letter_acts p d z y -> y < n.
Proof.
  intros Hz. unfold letter_acts. destruct (pact_bij (Nat.div2 d)) as [(B1 & B2 & B3) B4]. destruct (Nat.even d); [intros <-; auto|].
  intros E. destruct (Nat.lt_ge_cases y n) as [|Hge]; auto. rewrite B4 in E; lia.
Qed.
Lemma letter_fun d z y y' : z < n -> letter_acts p d z y -> letter_acts p d z y' -> y = y'.
Proof.
  intros Hz H H'. pose proof (letter_lt _ _ _ Hz H). pose proof (letter_lt _ _ _ Hz H'). unfold letter_acts in *. destruct (pact_bij (Nat.div2 d)) as [(B1 & B2 & B3) _]. destruct (Nat.even d); [congruence|]. apply B2; auto. congruence.
Qed.
Lemma word_lt w : forall x y, x < n -> word_acts n p w x y -> y < n.
Proof. induction w as [|d w IH]; cbn; [intros; subst; auto|]. intros x y Hx (z & Hz & _ & H). eapply letter_lt; eauto. Qed.
Lemma word_total w : forall x, x < n -> exists y, y < n /\ word_acts n p w x y.
Proof.
  induction w as [|d w IH]; intros x Hx; cbn; [eauto|]. destruct (IH x Hx) as (z & Hz & Hw). destruct (letter_total d z Hz) as (y & Hy & Hd). exists y. split; auto. exists z. auto.
Qed.
Lemma word_fun w : forall x y y', x < n -> word_acts n p w x y -> word_acts n p w x y' -> y = y'.
Proof.
  induction w as [|d w IH]; cbn; [congruence|]. intros x y y' Hx (z & Hz & H1 & H2) (z' & Hz' & H1' & H2'). assert (z = z') by exact (IH x z z' Hx H1 H1'). subst. eapply letter_fun; eauto.
Qed.
Lemma even_div2 d : Nat.even d = true -> d = 2 * Nat.div2 d.
Proof. intros E. rewrite Nat.even_spec in E. destruct E as (k & ->). rewrite Nat.div2_double. auto. Qed.
Lemma odd_div2 d : Nat.even d = false -> d = 2 * Nat.div2 d + 1.
Proof. intros E. assert (O : Nat.odd d = true) by (rewrite <- Nat.negb_even, E; auto). rewrite Nat.odd_spec in O. destruct O as (k & ->). replace (2 * k + 1) with (S (2 * k)) by lia. rewrite Nat.div2_succ_double. lia. Qed.
Lemma word_label psi : psi 0 = [] -> (forall g k, g < ng -> k < n -> (2 * g) :: psi k ~ psi (p g k)) -> forall w k, word ng w -> word_acts n p w 0 k -> w ~ psi k.
Proof.
  intros P0 P. induction w as [|d w IH]; intros k Hw; cbn [word_acts]; [intros <-; rewrite P0; apply ce_refl|]. intros (z & Hz & H1 & H2).
  assert (Hd : d < 2 * ng) by (apply Hw; left; auto). assert (Hk : k < n) by (eapply letter_lt; eauto).
  apply ce_trans with (d :: psi z); [apply ce_left, IH; auto; intros e He; apply Hw; cbn; auto|]. unfold letter_acts in H2. destruct (Nat.even d) eqn:Ed.
  - apply even_div2 in Ed. rewrite Ed at 1. rewrite <- H2. apply P; lia.
  - apply odd_div2 in Ed. rewrite <- H2. apply ce_trans with (d :: 2 * Nat.div2 d :: psi k); [apply ce_left, ce_sym, P; lia|].
    replace (2 * Nat.div2 d) with (linv d) by (rewrite Ed at 1; apply linv_odd). apply ce_cancel. auto.
Qed.
Lemma never_merges u v k : word ng u -> word ng v -> word_acts n p u 0 k -> word_acts n p v 0 k -> u ~ v.
Proof.
  intros Hu Hv H1 H2. destruct R as (_ & _ & _ & psi & P0 & P). apply ce_trans with (psi k); [eapply word_label; eauto|]. apply ce_sym. eapply word_label; eauto.
Qed.
Lemma word_app u : forall v x y, x < n -> (word_acts n p (u ++ v) x y <-> exists z, z < n /\ word_acts n p v x z /\ word_acts n p u z y).
Proof.
  induction u as [|d u IH]; intros v x y Hx; cbn [app word_acts].
  - split; [intros H; exists y; split; [eapply word_lt; eauto|]; split; auto|]. intros (z & _ & H & <-). auto.
  - split.
    + intros (z & Hz & H1 & H2). apply IH in H1 as (t & Ht & H3 & H4); auto. exists t. split; auto. split; auto. exists z. auto.
    + intros (t & Ht & H3 & z & Hz & H4 & H5). exists z. split; auto. split; auto. apply IH; eauto.
Qed.
Lemma letter_inv d y z : y < n -> z < n -> (letter_acts p d z y <-> letter_acts p (linv d) y z).
Proof.
  intros Hy Hz. unfold letter_acts. destruct (Nat.even d) eqn:Ed.
  - pose proof (even_div2 _ Ed) as E. assert (El : linv d = 2 * Nat.div2 d + 1) by (rewrite E at 1; apply linv_even). rewrite El. replace (2 * Nat.div2 d + 1) with (S (2 * Nat.div2 d)) by lia.
    rewrite Nat.even_succ, <- Nat.negb_even, <- E, Ed. cbn [negb]. rewrite E at 2. rewrite Nat.div2_succ_double. reflexivity.
  - pose proof (odd_div2 _ Ed) as E. assert (El : linv d = 2 * Nat.div2 d) by (rewrite E at 1; apply linv_odd). rewrite El.
    replace (Nat.even (2 * Nat.div2 d)) with true by (symmetry; apply Nat.even_spec; eexists; eauto). rewrite Nat.div2_double. reflexivity.
Qed.
(* if the permutations satisfy the relations (and 0 is fixed by the subgroup), the enumeration is exact on the orbit of 0 *)
Hypothesis Hrel : forall r k, In r rels -> k < n -> word_acts n p r k k.
Lemma exact_acts_at x : x < n -> (forall s, In s subs -> word_acts n p s x x) -> forall u v, u ~ v -> forall k, word_acts n p u x k <-> word_acts n p v x k.
Proof.
  intros Hn Hsub u v.
  induction 1 as [u|u v H IH|u v w H IH H' IH'|d u v H IH|d u Hd|r u Hr|s Hs]; intros k.
  - reflexivity.
  - symmetry. apply IH.
  - rewrite IH. apply IH'.
  - cbn [word_acts]. split; intros (z & Hz & H1 & H2); exists z; (split; [auto|]; split; [apply IH; auto|auto]).
  - cbn [word_acts]. split.
    + intros (z & Hz & (t & Ht & H1 & H2) & H3). assert (Hk : k < n) by exact (letter_lt d z k Hz H3).
      assert (H4 : letter_acts p d z t) by (apply (letter_inv d t z); auto). assert (k = t) by exact (letter_fun d z k t Hz H3 H4). subst; auto.
    + intros H1. assert (Hk : k < n) by (eapply word_lt; eauto). destruct (letter_total (linv d) k Hk) as (z & Hz & H2). exists z. split; auto. split; [exists k; auto|]. apply letter_inv; auto.
  - rewrite word_app by auto. split.
    + intros (z & Hz & H1 & H2). assert (z = k); [|subst; auto]. eapply word_fun; [|apply (Hrel r z Hr Hz)|]; auto.
    + intros H1. assert (Hk : k < n) by (eapply word_lt; eauto). exists k. auto.
  - cbn [word_acts]. split; [|intros <-; auto]. intros H1. eapply word_fun; [|apply Hsub; eauto|]; auto.
Qed.
Hypothesis Hsub : forall s, In s subs -> word_acts n p s 0 0.
Lemma exact_acts u v : u ~ v -> forall k, word_acts n p u 0 k <-> word_acts n p v 0 k.
Proof. apply exact_acts_at; auto. apply R. Qed.
Lemma exact_iff u v : word ng u -> word ng v -> (u ~ v <-> exists k, word_acts n p u 0 k /\ word_acts n p v 0 k).
Proof.
  intros Hu Hv. split; [|intros (k & H1 & H2); eapply never_merges; eauto]. intros H. destruct (word_total u 0) as (k & Hk & Hw); [apply R|]. exists k. split; auto. apply (exact_acts u v H). auto.
Qed.
End R.
(* pairwise different cosets are at most n *)
Lemma index_bound n ps : result n ps -> forall ws, (forall w, In w ws -> word ng w) -> ForallOrdPairs (fun u v => ~ u ~ v) ws -> length ws <= n.
Proof.
  intros R ws Hw HF. assert (G : exists ks, length ks = length ws /\ NoDup ks /\ incl ks (seq 0 n) /\ forall k, In k ks -> exists w, In w ws /\ word_acts n (pact ps) w 0 k).
  { induction HF as [|w ws Hall HF IH].
    - exists []. split; auto. split; [constructor|]. split; [intros x []|intros k []].
    - destruct IH as (ks & L & N & I & A); [intros; apply Hw; cbn; auto|]. destruct (word_total n ps R w 0) as (k & Hk & Hwk); [apply R|]. exists (k :: ks). split; [cbn; lia|]. split; [|split].
      + constructor; auto. intros Hin. destruct (A k Hin) as (w' & Hw' & Ha). rewrite Forall_forall in Hall. apply (Hall w' Hw'). eapply never_merges; eauto; apply Hw; cbn; auto.
      + intros x [<-|Hx]; [apply in_seq; lia|auto].
      + intros x [<-|Hx]; [exists w; cbn; auto|]. destruct (A x Hx) as (w' & H1 & H2). exists w'. cbn. auto. }
  destruct G as (ks & L & N & I & _). rewrite <- L. rewrite <- (seq_length n 0). apply NoDup_incl_length; auto.
Qed.
End S.
