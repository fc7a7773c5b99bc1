(* Proofs: combinations.rs *)
From Coq Require Import List Arith Bool Lia Sorted.
From Verif Require Import SetsSpec SetsModel SetsProofs1.
Import ListNotations.

Definition valid (m k : nat) (c : list nat) := length c = k /\ StronglySorted lt c /\ Forall (fun x => x < m) c.

Fixpoint succ_comb (m : nat) (c : list nat) : option (list nat) :=
  match c with
  | [] => None
  | x :: xs => match succ_comb m xs with
               | Some xs' => Some (x :: xs')
               | None => if x + length xs + 1 <? m then Some (seq (x + 1) (S (length xs))) else None
               end
  end.
Fixpoint fpos (m : nat) (c : list nat) : option nat :=
  match c with
  | [] => None
  | x :: xs => match fpos m xs with
               | Some i => Some i
               | None => if x + length xs + 1 <? m then Some (length xs) else None
               end
  end.

Lemma find_i_app m : forall l1 i l2,
  find_i m i (l1 ++ l2) = match find_i m i l1 with Some None => find_i m (i + length l1) l2 | r => r end.
Proof.
  induction l1 as [|s l1 IH]; intros i l2; cbn [app find_i length].
  - rewrite Nat.add_0_r; reflexivity.
  - destruct (usub m i); [|reflexivity]. destruct (usub n 1); [|reflexivity].
    destruct (s <? n0); [reflexivity|]. rewrite IH. replace (i + S (length l1)) with (S i + length l1) by lia. reflexivity.
Qed.
Lemma find_i_rev m c : length c <= m -> find_i m 0 (rev c) = Some (fpos m c).
Proof.
  induction c as [|x xs IH]; intros H; [reflexivity|].
  cbn [rev length fpos] in *. rewrite find_i_app, IH by lia.
  destruct (fpos m xs); [reflexivity|]. rewrite rev_length. cbn [find_i plus].
  unfold usub at 1. destruct (Nat.ltb_spec m (length xs)); [lia|].
  unfold usub. destruct (Nat.ltb_spec (m - length xs) 1); [lia|].
  destruct (Nat.ltb_spec x (m - length xs - 1)); destruct (Nat.ltb_spec (x + length xs + 1) m); try lia; reflexivity.
Qed.
Lemma fpos_succ m c :
  match fpos m c with
  | Some i => exists p v t, c = p ++ v :: t /\ length t = i /\ succ_comb m c = Some (p ++ seq (v + 1) (S i))
  | None => succ_comb m c = None
  end.
Proof.
  induction c as [|x xs IH]; [reflexivity|]. cbn [fpos succ_comb].
  destruct (fpos m xs) as [i|].
  - destruct IH as (p & v & t & -> & Hl & ->). exists (x :: p), v, t. auto.
  - rewrite IH. destruct (x + length xs + 1 <? m); [|reflexivity].
    exists [], x, xs. auto.
Qed.

Lemma upd_app {A} (p : list A) v t w : upd (p ++ v :: t) (length p) w = Some (p ++ w :: t).
Proof. induction p as [|a p IH]; cbn; [reflexivity|]. rewrite IH. reflexivity. Qed.
Lemma fill_ok k i base : forall j p done rest,
  length p + 1 + i = k -> length done + length rest = i -> j = length done -> done = seq (base + 1) (length done) ->
  fill k i base (seq j (length rest)) (p ++ base :: done ++ rest) = Some (p ++ base :: seq (base + 1) i).
Proof.
  intros j p done rest; revert j done; induction rest as [|r rest IH]; intros j done Hk Hi Hj Hd.
  - cbn [length seq fill]. rewrite app_nil_r. rewrite Nat.add_0_r in Hi. rewrite Hd, Hi. reflexivity.
  - cbn [length seq fill].
    replace (p ++ base :: done ++ r :: rest) with ((p ++ base :: done) ++ r :: rest) by (rewrite <- app_assoc; reflexivity).
    replace (k - i + j) with (length (p ++ base :: done)) by (rewrite app_length; cbn [length] in *; lia).
    rewrite upd_app. rewrite <- app_assoc. cbn [app].
    replace (done ++ base + 1 + j :: rest) with ((done ++ [base + 1 + j]) ++ rest) by (rewrite <- app_assoc; reflexivity).
    apply IH; auto.
    + rewrite app_length; cbn [length] in *; lia.
    + rewrite app_length; cbn; lia.
    + rewrite app_length. cbn [length]. rewrite seq_app, <- Hd. cbn. rewrite Hj. reflexivity.
Qed.

Lemma comb_next_eq c : length (c_subset c) <= c_n c -> Forall (fun x => x < length (c_items c)) (c_subset c) ->
  comb_next c =
    let out := if c_finished c then None else Some (map (fun i => nth i (c_items c) 0) (c_subset c)) in
    match succ_comb (c_n c) (c_subset c) with
    | Some s' => Some (out, Comb (c_n c) (c_idx c) (c_items c) s' (c_finished c))
    | None => Some (out, Comb (c_n c) (c_idx c) (c_items c) (c_subset c) true)
    end.
Proof.
  intros Hl Hb. unfold comb_next. rewrite (index_all_nth (c_items c) 0) by auto.
  assert (Hout : (if c_finished c then Some None else Some (Some (map (fun i : nat => nth i (c_items c) 0) (c_subset c))))
                 = Some (if c_finished c then None else Some (map (fun i => nth i (c_items c) 0) (c_subset c)))).
  { destruct (c_finished c); reflexivity. }
  rewrite Hout. rewrite find_i_rev by auto.
  pose proof (fpos_succ (c_n c) (c_subset c)) as H.
  destruct (fpos (c_n c) (c_subset c)) as [i|].
  - destruct H as (p & v & t & Hc & Ht & Hs). rewrite Hs. rewrite Hc.
    replace (length (p ++ v :: t) - 1 - i) with (length p) by (rewrite app_length; cbn; lia).
    rewrite nth_error_app2 by lia. rewrite Nat.sub_diag. cbn [nth_error]. rewrite upd_app.
    pose proof (fill_ok (length (p ++ v :: t)) i (v + 1) 0 p [] t) as Hf. cbn [app length] in Hf.
    rewrite Ht in Hf. rewrite Hf; auto.
    + cbn [seq]. replace (v + 1 + 1) with (S (v + 1)) by lia. reflexivity.
    + rewrite app_length; cbn; lia.
  - rewrite H. reflexivity.
Qed.

(* order properties of succ_comb *)
Lemma seq_min k : forall a s, length s = k -> StronglySorted lt s -> Forall (fun x => a <= x) s ->
  seq a k = s \/ lex_lt (seq a k) s.
Proof.
  induction k as [|k IH]; intros a [|x s] Hl Hs Hf; try discriminate; [left; reflexivity|].
  inversion Hs as [|? ? Hs' Hx]; subst. inversion Hf; subst. cbn [seq].
  destruct (Nat.eq_dec a x) as [->|Hn]; [|right; apply lex_head; lia].
  destruct (IH (S x) s) as [H|H]; auto.
  - left; congruence.
  - right; apply lex_tail; auto.
Qed.
Lemma incr_bound m : forall s y, StronglySorted lt (y :: s) -> Forall (fun x => x < m) (y :: s) -> y + length s < m.
Proof.
  induction s as [|z s IH]; intros y Hs Hf; inversion Hs as [|? ? Hs' Hy]; subst; inversion Hf as [|? ? Hym Hf']; subst.
  - cbn; lia.
  - specialize (IH z Hs' Hf'). inversion Hy; subst. cbn; lia.
Qed.
Lemma succ_low m lo : forall c c', succ_comb m c = Some c' -> Forall (fun b => lo < b) c -> Forall (fun b => lo < b) c'.
Proof.
  induction c as [|x xs IH]; intros c' H Hf; [discriminate|]. cbn [succ_comb] in H.
  inversion Hf; subst. destruct (succ_comb m xs) as [xs'|].
  - inversion H; subst. constructor; auto.
  - destruct (x + length xs + 1 <? m); inversion H; subst.
    apply Forall_forall. intros b Hb. apply (in_seq (S (length xs)) (x + 1) b) in Hb. lia.
Qed.
Lemma succ_spec m : forall c k, valid m k c ->
  match succ_comb m c with
  | Some c' => valid m k c' /\ lex_lt c c' /\ forall s, valid m k s -> lex_lt c s -> c' = s \/ lex_lt c' s
  | None => forall s, valid m k s -> ~ lex_lt c s
  end.
Proof.
  induction c as [|x xs IH]; intros k (Hl & Hs & Hf).
  - cbn. intros s (Hl' & _) H. cbn in Hl. subst. destruct s; [inversion H|discriminate].
  - cbn [succ_comb length] in *. inversion Hs as [|? ? Hs' Hx]; subst. inversion Hf as [|? ? Hxm Hf']; subst.
    specialize (IH (length xs) (conj eq_refl (conj Hs' Hf'))).
    destruct (succ_comb m xs) as [xs'|] eqn:Esucc.
    + destruct IH as ((Hl1 & Hs1 & Hf1) & Hlt & Hmin). split; [|split].
      * repeat split; [cbn; lia| |constructor; auto].
        constructor; auto. eapply succ_low; eauto.
      * apply lex_tail; auto.
      * intros [|y ys] (Hl2 & Hs2 & Hf2) Hlex; [discriminate|].
        inversion Hs2; subst. inversion Hf2; subst. inversion Hlex; subst.
        -- right; apply lex_head; auto.
        -- destruct (Hmin ys) as [->|?]; auto.
           ++ repeat split; auto.
           ++ right; apply lex_tail; auto.
    + destruct (Nat.ltb_spec (x + length xs + 1) m) as [Hc|Hc].
      * split; [|split].
        -- repeat split; [apply seq_length|apply StronglySorted_seq|].
           apply Forall_forall. intros b Hb. apply (in_seq (S (length xs)) (x + 1) b) in Hb. lia.
        -- cbn [seq]. apply lex_head; lia.
        -- intros [|y ys] (Hl2 & Hs2 & Hf2) Hlex; [discriminate|].
           inversion Hlex; subst.
           ++ apply seq_min; auto. inversion Hs2 as [|? ? ? Hy]; subst.
              constructor; [lia|]. eapply Forall_impl; [|exact Hy]. cbn; lia.
           ++ exfalso. inversion Hs2; subst. inversion Hf2; subst. eapply (IH ys); auto.
              repeat split; auto.
      * intros [|y ys] (Hl2 & Hs2 & Hf2) Hlex; [discriminate|].
        inversion Hlex; subst.
        -- pose proof (incr_bound m ys y Hs2 Hf2). cbn in Hl2. lia.
        -- inversion Hs2; subst. inversion Hf2; subst. eapply (IH ys); auto. repeat split; auto.
Qed.

(* transport along a strictly increasing list *)
Lemma sorted_nth_lt l : StronglySorted lt l -> forall i j, i < j -> j < length l -> nth i l 0 < nth j l 0.
Proof.
  induction 1 as [|a l H IH Hf]; intros i j Hij Hj; [cbn in Hj; lia|].
  destruct j as [|j]; [lia|]. cbn [length] in Hj. destruct i as [|i]; cbn [nth].
  - rewrite Forall_forall in Hf. apply Hf. apply nth_In. lia.
  - apply IH; lia.
Qed.
Lemma sorted_nth_inj l : StronglySorted lt l -> forall i j, i < length l -> j < length l -> nth i l 0 = nth j l 0 -> i = j.
Proof.
  intros H i j Hi Hj He. destruct (lt_eq_lt_dec i j) as [[Hlt|]|Hlt]; auto.
  - pose proof (sorted_nth_lt l H i j Hlt Hj). lia.
  - pose proof (sorted_nth_lt l H j i Hlt Hi). lia.
Qed.
Lemma lex_map_nth l : StronglySorted lt l -> forall c s, Forall (fun x => x < length l) c -> Forall (fun x => x < length l) s ->
  lex_lt c s <-> lex_lt (map (fun i => nth i l 0) c) (map (fun i => nth i l 0) s).
Proof.
  intros H. induction c as [|x c IH]; intros [|y s] Hc Hs; cbn [map].
  - split; intros HH; inversion HH.
  - split; intros; constructor.
  - split; intros HH; inversion HH.
  - inversion Hc; subst. inversion Hs; subst. split; intros HH; inversion HH; subst.
    + apply lex_head. apply sorted_nth_lt; auto.
    + apply lex_tail. apply IH; auto.
    + destruct (lt_eq_lt_dec x y) as [[Hlt| ->]|Hlt]; [apply lex_head; auto| |].
      * lia.
      * pose proof (sorted_nth_lt l H y x Hlt). lia.
    + assert (x = y) by (apply (sorted_nth_inj l); auto). subst. apply lex_tail. apply IH; auto.
Qed.
Definition vals (l c : list nat) := map (fun i => nth i l 0) c.

Lemma vals_of_values l : StronglySorted lt l -> forall s, StronglySorted lt s -> incl s l ->
  exists c, valid (length l) (length s) c /\ vals l c = s.
Proof.
  intros Hl s Hs. induction Hs as [|a s Hs IH Hf]; intros Hi.
  - exists []. repeat split; constructor.
  - destruct IH as (c & (Hc1 & Hc2 & Hc3) & Hc).
    { intros x Hx; apply Hi; right; auto. }
    destruct (In_nth l a 0 (Hi a (or_introl eq_refl))) as (i & Hil & Hia).
    exists (i :: c). unfold vals in *. cbn [map]. split; [|congruence].
    repeat split; [cbn; lia| |constructor; auto].
    constructor; auto. apply Forall_forall. intros j Hj.
    rewrite Forall_forall in Hf, Hc3. assert (Hlt : a < nth j l 0).
    { apply Hf. rewrite <- Hc. apply in_map_iff; eauto. }
    destruct (lt_eq_lt_dec i j) as [[Hlt'| ->]|Hlt']; auto; [lia|].
    pose proof (sorted_nth_lt l Hl j i Hlt' Hil). lia.
Qed.
Lemma vals_valid l : StronglySorted lt l -> forall k c, valid (length l) k c ->
  length (vals l c) = k /\ StronglySorted lt (vals l c) /\ incl (vals l c) l.
Proof.
  intros Hl k c (H1 & H2 & H3). unfold vals. split; [rewrite map_length; auto|]. split.
  - eapply StronglySorted_map; [|exact H2]. intros x y Hx Hy Hxy.
    rewrite Forall_forall in H3. apply sorted_nth_lt; auto.
  - intros x Hx. apply in_map_iff in Hx as (i & <- & Hi). apply nth_In. rewrite Forall_forall in H3; auto.
Qed.

(* the refinement relation *)
Record Inv (n0 k : nat) (c : comb) : Prop := {
  inv_sorted : StronglySorted lt (c_items c);
  inv_n : c_n c = length (c_items c);
  inv_idx_len : length (c_idx c) = n0;
  inv_idx_some : forall a i, nth_error (c_idx c) a = Some (Some i) -> nth_error (c_items c) i = Some a;
  inv_idx_none : forall a, nth_error (c_idx c) a = Some None -> ~ In a (c_items c);
  inv_lt : Forall (fun x => x < n0) (c_items c);
  inv_sub : valid (length (c_items c)) k (c_subset c)
}.
Definition Pend (k : nat) (c : comb) (L : list (list nat)) : Prop :=
  if c_finished c then L = []
  else StronglySorted lex_lt L /\
       forall s, In s L <-> length s = k /\ StronglySorted lt s /\ incl s (c_items c) /\
                            (vals (c_items c) (c_subset c) = s \/ lex_lt (vals (c_items c) (c_subset c)) s).

Lemma valid_len m k c : valid m k c -> k <= m.
Proof.
  intros (Hl & Hs & Hf). rewrite <- Hl. rewrite <- (seq_length m 0).
  apply NoDup_incl_length.
  - eapply StronglySorted_NoDup; [apply Nat.lt_irrefl|exact Hs].
  - intros x Hx. rewrite Forall_forall in Hf. specialize (Hf x Hx). apply in_seq; lia.
Qed.

Lemma next_refines n0 k c L : Inv n0 k c -> Pend k c L ->
  exists o c', comb_next c = Some (o, c') /\ Inv n0 k c' /\ Pend k c' (tl L) /\ o = hd_error L /\
    c_items c' = c_items c /\ c_idx c' = c_idx c /\
    (c_finished c = true -> c_finished c' = true) /\
    (c_finished c = false -> L = vals (c_items c) (c_subset c) :: tl L).
Proof.
  intros HI HP. destruct HI as [Hs Hn Hil His Hin Hlt Hv].
  pose proof Hv as (Hv1 & Hv2 & Hv3).
  rewrite comb_next_eq; [|rewrite Hv1, Hn; eapply valid_len; eauto | exact Hv3].
  cbn zeta. unfold Pend in HP.
  pose proof (succ_spec (c_n c) (c_subset c) k) as Hsucc. rewrite Hn in Hsucc. specialize (Hsucc Hv).
  rewrite Hn.
  destruct (c_finished c) eqn:Efin.
  - subst L. destruct (succ_comb (length (c_items c)) (c_subset c)) as [s'|] eqn:Es;
      eexists _, _; (split; [reflexivity|]); (split; [constructor; cbn; auto|]);
      try tauto; (split; [unfold Pend; cbn; auto|]); repeat split; cbn; auto; discriminate.
  - destruct HP as [HL HM].
    set (cur := vals (c_items c) (c_subset c)) in *.
    assert (Hcur : In cur L).
    { apply HM. destruct (vals_valid _ Hs k _ Hv) as (? & ? & ?). repeat split; auto. }
    assert (HLc : exists L', L = cur :: L').
    { destruct L as [|s L']; [destruct Hcur|]. inversion HL as [|? ? HL' Hf]; subst.
      assert (Hsin : In s (s :: L')) by (left; auto).
      apply HM in Hsin as (_ & _ & _ & [Hc|Hc]).
      - exists L'. congruence.
      - destruct Hcur as [->|Hcur]; [exfalso; eapply lex_lt_irrefl; eauto|].
        rewrite Forall_forall in Hf. exfalso. eapply lex_lt_irrefl. eapply lex_lt_trans; [exact Hc|]. auto. }
    destruct HLc as [L' ->]. cbn [hd_error tl].
    assert (HL' : StronglySorted lex_lt L') by (inversion HL; auto).
    assert (Hf : Forall (lex_lt cur) L') by (inversion HL; auto). rewrite Forall_forall in Hf.
    assert (HM' : forall s, In s L' <-> length s = k /\ StronglySorted lt s /\ incl s (c_items c) /\ lex_lt cur s).
    { intros s. split.
      - intros Hin'. assert (Hin2 : In s (cur :: L')) by (right; auto).
        apply HM in Hin2 as (? & ? & ? & _). auto.
      - intros (H1 & H2 & H3 & H4). assert (Hin2 : In s (cur :: L')) by (apply HM; auto).
        destruct Hin2 as [->|]; auto. exfalso; eapply lex_lt_irrefl; eauto. }
    destruct (succ_comb (length (c_items c)) (c_subset c)) as [s'|] eqn:Es.
    + destruct Hsucc as (Hv' & Hlt' & Hmin).
      eexists _, _. split; [reflexivity|]. split; [constructor; cbn; auto|].
      split; [|repeat split; auto; cbn; discriminate]. unfold Pend. cbn [c_finished c_items c_subset]. split; [exact HL'|].
      intros s. rewrite HM'. split.
      * intros (H1 & H2 & H3 & H4). repeat split; auto.
        destruct (vals_of_values _ Hs s H2 H3) as (cs & Hcs & <-).
        rewrite H1 in Hcs. destruct (Hmin cs Hcs) as [->|Hm].
        -- apply (lex_map_nth _ Hs); auto. apply Hcs.
        -- left; reflexivity.
        -- right. apply (lex_map_nth _ Hs) in Hm; auto; [apply Hv'|apply Hcs].
      * intros (H1 & H2 & H3 & H4). repeat split; auto.
        assert (Hcl : lex_lt cur (vals (c_items c) s')).
        { unfold cur, vals. rewrite <- (lex_map_nth _ Hs); auto. apply Hv'. }
        destruct H4 as [<-|H4]; auto. eapply lex_lt_trans; eauto.
    + eexists _, _. split; [reflexivity|]. split; [constructor; cbn; auto|].
      split; [|repeat split; auto; cbn; congruence]. unfold Pend. cbn [c_finished].
      destruct L' as [|s L']; [reflexivity|]. exfalso.
      destruct (proj1 (HM' s) (or_introl eq_refl)) as (H1 & H2 & H3 & H4).
      destruct (vals_of_values _ Hs s H2 H3) as (cs & Hcs & <-). rewrite H1 in Hcs.
      apply (Hsucc cs Hcs). apply (lex_map_nth _ Hs); auto. apply Hcs.
Qed.

Definition avoids (a : nat) (s : list nat) : bool := negb (existsb (Nat.eqb a) s).
Lemma avoids_spec a s : avoids a s = true <-> ~ In a s.
Proof.
  unfold avoids. rewrite negb_true_iff. split.
  - intros H Hin. assert (existsb (Nat.eqb a) s = true); [|congruence].
    apply existsb_exists. exists a. split; auto. apply Nat.eqb_refl.
  - intros H. destruct (existsb (Nat.eqb a) s) eqn:E; [|reflexivity].
    apply existsb_exists in E as (x & Hx & He). apply Nat.eqb_eq in He; subst. contradiction.
Qed.

Lemma any_is_spec items a s : Forall (fun x => x < length items) s ->
  any_is items a s = Some (negb (avoids a (vals items s))).
Proof.
  unfold avoids, vals. rewrite negb_involutive.
  induction 1 as [|x s Hx H IH]; cbn [any_is map existsb]; [reflexivity|].
  rewrite (nth_error_nth' items 0 Hx). rewrite (Nat.eqb_sym a).
  destruct (nth x items 0 =? a); cbn [orb]; auto.
Qed.

Ltac sp := repeat match goal with |- _ /\ _ => split end.
Lemma skip_refines n0 k a : forall L c fuel, Inv n0 k c -> Pend k c L -> length L + 2 <= fuel ->
  exists c' L', skip_containing fuel a c = Some c' /\ Inv n0 k c' /\ Pend k c' L' /\
    filter (avoids a) L' = filter (avoids a) L /\ length L' <= length L /\
    c_items c' = c_items c /\ c_idx c' = c_idx c /\
    (c_finished c' = false -> ~ In a (vals (c_items c') (c_subset c'))).
Proof.
  induction L as [|s L IH]; intros c fuel HI HP Hfuel; (destruct fuel as [|fuel]; [lia|]); cbn [skip_containing].
  - rewrite any_is_spec by apply HI.
    destruct (avoids a (vals (c_items c) (c_subset c))) eqn:Ea; cbn [negb].
    + exists c, []. sp; auto. intros _. apply avoids_spec; auto.
    + destruct (next_refines n0 k c [] HI HP) as (o & c' & Hnx & HI' & HP' & -> & Hit & Hid & Hfin & Hfin').
      rewrite Hnx. cbn [hd_error tl] in *. exists c', []. sp; auto.
      intros Hf. exfalso. destruct (c_finished c) eqn:E.
      * rewrite Hfin in Hf; congruence.
      * specialize (Hfin' eq_refl). discriminate.
  - rewrite any_is_spec by apply HI.
    destruct (avoids a (vals (c_items c) (c_subset c))) eqn:Ea; cbn [negb].
    + exists c, (s :: L). sp; auto. intros _. apply avoids_spec; auto.
    + destruct (next_refines n0 k c (s :: L) HI HP) as (o & c' & Hnx & HI' & HP' & -> & Hit & Hid & Hfin & Hfin').
      rewrite Hnx. cbn [hd_error tl] in *.
      destruct (IH c' fuel HI' HP') as (c2 & L2 & H1 & H2 & H3 & H4 & H5 & H6 & H7 & H8); [cbn in Hfuel; lia|].
      exists c2, L2. split; [exact H1|]. split; [exact H2|]. split; [exact H3|]. split.
      * rewrite H4. cbn [filter].
        destruct (c_finished c) eqn:E.
        -- unfold Pend in HP. rewrite E in HP. discriminate.
        -- specialize (Hfin' eq_refl). injection Hfin' as Hs. rewrite Hs, Ea. reflexivity.
      * sp; [cbn; lia|congruence|congruence|auto].
Qed.

Lemma remove_at_spec {A} (l : list A) : forall i, i < length l -> remove_at l i = Some (firstn i l ++ skipn (S i) l).
Proof.
  induction l as [|h t IH]; intros i Hi; [cbn in Hi; lia|]. destruct i as [|i]; [reflexivity|].
  cbn [length] in Hi. cbn [remove_at]. rewrite IH by lia. reflexivity.
Qed.
Lemma nth_removed {A} (l : list A) i d : i < length l ->
  forall j, nth j (firstn i l ++ skipn (S i) l) d = if j <? i then nth j l d else nth (S j) l d.
Proof.
  revert i. induction l as [|h t IH]; intros i Hi j; [cbn in Hi; lia|].
  destruct i as [|i].
  - cbn. reflexivity.
  - cbn [length] in Hi. cbn [firstn skipn app]. destruct j as [|j]; [reflexivity|].
    cbn [nth]. rewrite IH by lia. reflexivity.
Qed.
Lemma shift_spec ai s : ~ In ai s -> shift_subset ai s = Some (map (fun x => if x <? ai then x else x - 1) s).
Proof.
  induction s as [|x s IH]; intros H; [reflexivity|]. cbn [shift_subset map].
  rewrite IH by (intros ?; apply H; right; auto).
  destruct (Nat.ltb_spec x ai); [reflexivity|]. destruct (Nat.eqb_spec x ai); [|reflexivity].
  exfalso; apply H; left; auto.
Qed.
Lemma dec_after_spec a : forall l i, (forall j o, a < i + j -> nth_error l j = Some (Some o) -> 1 <= o) ->
  exists l', dec_after a i l = Some l' /\ length l' = length l /\
    forall j, nth_error l' j = match nth_error l j with
                               | Some (Some o) => Some (Some (if a <? i + j then o - 1 else o))
                               | r => r
                               end.
Proof.
  induction l as [|o l IH]; intros i H; cbn [dec_after].
  - exists []. repeat split. intros [|]; reflexivity.
  - destruct (IH (S i)) as (l' & -> & Hl & Hn).
    { intros j o' Hj Ho'. apply (H (S j)); [lia|exact Ho']. }
    assert (Hhead : (if a <? i then match o with Some idx => match usub idx 1 with Some d => Some (Some d) | None => None end | None => Some None end else Some o)
             = Some (match o with Some x => Some (if a <? i + 0 then x - 1 else x) | None => None end)).
    { rewrite Nat.add_0_r. destruct (Nat.ltb_spec a i) as [Hai|Hai]; [|destruct o; reflexivity].
      destruct o as [x|]; [|reflexivity]. unfold usub.
      assert (1 <= x) by (apply (H 0 x); [lia|reflexivity]).
      destruct (Nat.ltb_spec x 1); [lia|reflexivity]. }
    rewrite Hhead. eexists. split; [reflexivity|]. split; [cbn; congruence|].
    intros [|j]; cbn [nth_error].
    + destruct o; reflexivity.
    + rewrite Hn. replace (S i + j) with (i + S j) by lia. reflexivity.
Qed.
Lemma upd_spec {A} (l : list A) : forall a v, a < length l ->
  exists l', upd l a v = Some l' /\ length l' = length l /\
    forall j, nth_error l' j = if j =? a then Some v else nth_error l j.
Proof.
  induction l as [|h t IH]; intros a v Ha; [cbn in Ha; lia|]. destruct a as [|a]; cbn [upd].
  - eexists; split; [reflexivity|]. split; [reflexivity|]. intros [|j]; reflexivity.
  - cbn [length] in Ha. destruct (IH a v) as (t' & -> & Hl & Hn); [lia|].
    eexists; split; [reflexivity|]. split; [cbn; congruence|]. intros [|j]; [reflexivity|]. cbn. apply Hn.
Qed.

Lemma exclude_refines n0 k c L a fuel : a < n0 -> Inv n0 k c -> Pend k c L -> length L + 2 <= fuel ->
  exists c', comb_exclude fuel a c = Some c' /\ Inv n0 k c' /\ Pend k c' (filter (avoids a) L).
Proof.
  intros Ha HI HP Hfuel. unfold comb_exclude.
  destruct (nth_error (c_idx c) a) as [[i0|]|] eqn:Eidx.
  3:{ apply nth_error_None in Eidx. destruct HI; lia. }
  2:{ exists c. split; [reflexivity|]. split; [exact HI|]. unfold Pend in *.
      destruct (c_finished c); [subst; reflexivity|]. destruct HP as [HL HM].
      assert (Hall : filter (avoids a) L = L).
      { clear HL. assert (Hav : forall s, In s L -> avoids a s = true).
        { intros s Hs. apply HM in Hs as (_ & _ & Hinc & _). apply avoids_spec. intros Hin.
          apply (inv_idx_none _ _ _ HI a Eidx). auto. }
        clear HM. induction L as [|s L IHL]; [reflexivity|]. cbn. rewrite Hav by (left; auto).
        f_equal. apply IHL; [cbn in Hfuel; lia|]. intros; apply Hav; right; auto. }
      rewrite Hall. auto. }
  destruct (skip_refines n0 k a L c fuel HI HP Hfuel) as (c1 & L1 & Hsk & HI1 & HP1 & Hfil & Hlen & Hit & Hid & Hav).
  rewrite Hsk. rewrite <- Hfil. clear HP Hfil HI Hsk.
  destruct (c_finished c1) eqn:Efin.
  { exists c1. split; [reflexivity|]. split; [exact HI1|]. unfold Pend in *. rewrite Efin in *. subst; reflexivity. }
  specialize (Hav eq_refl). rewrite <- Hid in Eidx. rewrite Eidx. clear Hit Hid c.
  destruct HI1 as [Hs Hn Hil His Hin Hlt Hv].
  pose proof (His a i0 Eidx) as Hai.
  assert (Hi0 : i0 < length (c_items c1)) by (apply nth_error_Some; congruence).
  rewrite remove_at_spec by exact Hi0.
  destruct (upd_spec (c_idx c1) a None) as (idx1 & -> & Hl1 & Hn1); [lia|].
  (* every later live index is positive *)
  assert (Hord : forall b ib, nth_error (c_idx c1) b = Some (Some ib) -> (a < b -> i0 < ib) /\ (b < a -> ib < i0)).
  { intros b ib Hb. pose proof (His b ib Hb) as Hib.
    assert (ib < length (c_items c1)) by (apply nth_error_Some; congruence).
    pose proof (nth_error_nth _ _ 0 Hib) as E1. pose proof (nth_error_nth _ _ 0 Hai) as E2.
    split; intros Hab.
    - destruct (lt_eq_lt_dec ib i0) as [[Hlt'| ->]|]; auto.
      + pose proof (sorted_nth_lt _ Hs ib i0 Hlt' Hi0). lia.
      + lia.
    - destruct (lt_eq_lt_dec i0 ib) as [[Hlt'| ->]|]; auto.
      + pose proof (sorted_nth_lt _ Hs i0 ib Hlt' H). lia.
      + lia. }
  destruct (dec_after_spec a idx1 0) as (idx2 & -> & Hl2 & Hn2).
  { intros j o Hj Ho. rewrite Hn1 in Ho. destruct (Nat.eqb_spec j a); [lia|].
    cbn in Hj. destruct (Hord j o Ho) as [HH _]. specialize (HH Hj). lia. }
  set (items' := firstn i0 (c_items c1) ++ skipn (S i0) (c_items c1)).
  assert (Hlen' : length items' = length (c_items c1) - 1).
  { unfold items'. rewrite app_length, firstn_length, skipn_length. lia. }
  assert (Hnth : forall j, nth j items' 0 = if j <? i0 then nth j (c_items c1) 0 else nth (S j) (c_items c1) 0).
  { intros j. apply nth_removed; auto. }
  destruct Hv as (Hv1 & Hv2 & Hv3).
  assert (Hnot : ~ In i0 (c_subset c1)).
  { intros H. apply Hav. unfold vals. apply in_map_iff. exists i0. split; auto.
    apply (nth_error_nth _ _ 0 Hai). }
  rewrite shift_spec by exact Hnot.
  unfold usub. destruct (Nat.ltb_spec (c_n c1) 1); [lia|].
  eexists. split; [reflexivity|].
  set (sh := fun x => if x <? i0 then x else x - 1).
  assert (Hsh : forall x, x < length (c_items c1) -> x <> i0 -> nth (sh x) items' 0 = nth x (c_items c1) 0).
  { intros x Hx Hne. unfold sh. rewrite Hnth. destruct (Nat.ltb_spec x i0) as [Hxi|Hxi].
    - destruct (Nat.ltb_spec x i0); [reflexivity|lia].
    - destruct (Nat.ltb_spec (x - 1) i0); [lia|]. replace (S (x - 1)) with x by lia. reflexivity. }
  assert (Hvals : vals items' (map sh (c_subset c1)) = vals (c_items c1) (c_subset c1)).
  { unfold vals. rewrite map_map. apply map_ext_in. intros x Hx. apply Hsh.
    - rewrite Forall_forall in Hv3; auto.
    - intros ->; auto. }
  assert (Hin' : forall b, In b items' <-> In b (c_items c1) /\ b <> a).
  { intros b. split.
    - intros Hb. destruct (In_nth _ _ 0 Hb) as (j & Hj & <-). rewrite Hnth.
      rewrite <- (nth_error_nth _ _ 0 Hai).
      destruct (Nat.ltb_spec j i0) as [Hji|Hji].
      + split; [apply nth_In; lia|]. intros E. apply (sorted_nth_inj _ Hs) in E; lia.
      + split; [apply nth_In; lia|]. intros E. apply (sorted_nth_inj _ Hs) in E; lia.
    - intros [Hb Hne]. destruct (In_nth _ _ 0 Hb) as (j & Hj & <-).
      assert (j <> i0). { intros ->. apply Hne. apply (nth_error_nth _ _ 0 Hai). }
      rewrite <- (Hsh j) by auto. apply nth_In. unfold sh. destruct (Nat.ltb_spec j i0); lia. }
  assert (Hs' : StronglySorted lt items').
  { unfold items'. apply StronglySorted_app.
    - clear - Hs. revert i0. induction Hs as [|x l H IH Hf]; intros [|i]; cbn; try constructor; auto.
      apply Forall_forall. intros y Hy. rewrite Forall_forall in Hf. apply Hf.
      rewrite <- (firstn_skipn i l). apply in_or_app; left; exact Hy.
    - clear - Hs. generalize (S i0). induction Hs as [|x l H IH Hf]; intros [|i]; cbn; try constructor; auto.
    - intros x y Hx Hy. destruct (In_nth _ _ 0 Hx) as (j & Hj & Ejx). destruct (In_nth _ _ 0 Hy) as (j' & Hj' & Ejy).
      rewrite firstn_length in Hj. rewrite skipn_length in Hj'.
      assert (Hx' : nth j (c_items c1) 0 = x).
      { rewrite <- Ejx. rewrite <- (firstn_skipn i0 (c_items c1)) at 1. rewrite app_nth1; [reflexivity|]. rewrite firstn_length; lia. }
      assert (Hy' : nth (S i0 + j') (c_items c1) 0 = y).
      { rewrite <- Ejy. rewrite <- (firstn_skipn (S i0) (c_items c1)) at 1. rewrite app_nth2; rewrite firstn_length; [|lia].
        replace (S i0 + j' - Nat.min (S i0) (length (c_items c1))) with j' by lia. reflexivity. }
      rewrite <- Hx', <- Hy'. apply sorted_nth_lt; auto; lia. }
  assert (HvN : valid (length items') k (map sh (c_subset c1))).
  { repeat split; [rewrite map_length; auto| |].
    - eapply StronglySorted_map; [|exact Hv2]. intros x y Hx Hy Hxy. unfold sh.
      assert (x <> i0) by (intros ->; auto). assert (y <> i0) by (intros ->; auto).
      destruct (Nat.ltb_spec x i0), (Nat.ltb_spec y i0); lia.
    - apply Forall_forall. intros y Hy. apply in_map_iff in Hy as (x & <- & Hx).
      rewrite Forall_forall in Hv3. specialize (Hv3 x Hx). assert (x <> i0) by (intros ->; auto).
      unfold sh. destruct (Nat.ltb_spec x i0); lia. }
  split.
  - constructor; cbn [c_items c_n c_idx c_subset]; fold items' sh.
    + exact Hs'.
    + lia.
    + congruence.
    + intros b ib Hb. rewrite Hn2, Hn1 in Hb. destruct (Nat.eqb_spec b a) as [ -> |Hba]; [discriminate|].
      destruct (nth_error (c_idx c1) b) as [[o|]|] eqn:Eb; try discriminate. inversion Hb; subst ib. clear Hb.
      pose proof (His b o Eb) as Hbo.
      assert (Ho : o < length (c_items c1)) by (apply nth_error_Some; congruence).
      destruct (Hord b o Eb) as [Ho1 Ho2]. cbn [plus].
      assert (Hoi : o <> i0). { destruct (lt_eq_lt_dec a b) as [[?|?]|?]; [specialize (Ho1 l)| |specialize (Ho2 l)]; lia. }
      assert (Eo : (if a <? b then o - 1 else o) = sh o).
      { unfold sh. destruct (Nat.ltb_spec a b) as [Hab|Hab].
        - specialize (Ho1 Hab). destruct (Nat.ltb_spec o i0); lia.
        - assert (b < a) by lia. specialize (Ho2 H0). destruct (Nat.ltb_spec o i0); lia. }
      rewrite Eo. assert (Hb' : nth (sh o) items' 0 = b).
      { rewrite Hsh by auto. apply (nth_error_nth _ _ 0 Hbo). }
      rewrite <- Hb'. apply nth_error_nth'. unfold sh. destruct (Nat.ltb_spec o i0); lia.
    + intros b Hb. rewrite Hn2, Hn1 in Hb. rewrite Hin'. destruct (Nat.eqb_spec b a) as [Eab|Hba]; [tauto|].
      destruct (nth_error (c_idx c1) b) as [[o|]|] eqn:Eb; try discriminate.
      intros [Hb' _]. apply (Hin b Eb Hb').
    + apply Forall_forall. intros b Hb. apply Hin' in Hb as [Hb _]. rewrite Forall_forall in Hlt; auto.
    + exact HvN.
  - unfold Pend in *. cbn [c_finished c_items c_subset]. rewrite Efin in *. fold items' sh.
    destruct HP1 as [HL HM]. split.
    + clear - HL. induction HL as [|s l HL IH Hf]; cbn; [constructor|]. destruct (avoids a s); auto.
      constructor; auto. apply Forall_forall. intros x Hx. apply filter_In in Hx as [Hx _]. rewrite Forall_forall in Hf; auto.
    + intros s. rewrite filter_In, HM, avoids_spec, Hvals. split.
      * intros ((H1 & H2 & H3 & H4) & H5). repeat split; auto. intros b Hb. apply Hin'. split; auto. intros ->; auto.
      * intros (H1 & H2 & H3 & H4). split.
        -- repeat split; auto. intros b Hb. apply H3 in Hb. apply Hin' in Hb. tauto.
        -- intros Hb. apply H3 in Hb. apply Hin' in Hb. tauto.
Qed.

Definition op_ok (n : nat) (o : op) := match o with Next => True | Exclude a => a < n end.

Lemma run_refines n0 k fuel : forall ops c L, Forall (op_ok n0) ops -> Inv n0 k c -> Pend k c L -> length L + 2 <= fuel ->
  comb_run fuel c ops = Some (abs_run L ops).
Proof.
  induction ops as [|o ops IH]; intros c L Ho HI HP Hf; [reflexivity|].
  inversion Ho as [|? ? Ho1 Ho2]; subst. destruct o as [|a]; cbn [comb_run abs_run].
  - destruct (next_refines n0 k c L HI HP) as (o & c' & Hnx & HI' & HP' & -> & _).
    rewrite Hnx. destruct L as [|s L]; cbn [hd_error tl] in *.
    + rewrite (IH c' [] Ho2 HI' HP') by (cbn; lia). reflexivity.
    + rewrite (IH c' L Ho2 HI' HP') by (cbn in Hf; lia). reflexivity.
  - destruct (exclude_refines n0 k c L a fuel Ho1 HI HP Hf) as (c' & Hx & HI' & HP').
    rewrite Hx. apply IH; auto.
    assert (length (filter (avoids a) L) <= length L).
    { clear. induction L as [|s L IH]; cbn; [lia|]. destruct (avoids a s); cbn; lia. }
    change (filter (fun s => negb (existsb (Nat.eqb a) s)) L) with (filter (avoids a) L). lia.
Qed.

Lemma comb_new_inv n k : k < n -> Inv n k (comb_new n k) /\ Pend k (comb_new n k) (subsets n k).
Proof.
  intros Hk. split.
  - constructor; cbn [comb_new c_items c_n c_idx c_subset].
    + apply StronglySorted_seq.
    + rewrite seq_length; auto.
    + rewrite map_length, seq_length; auto.
    + intros a i H. rewrite nth_error_map in H. destruct (nth_error (seq 0 n) a) as [x|] eqn:E; [|discriminate].
      cbn in H. inversion H; subst i. assert (Ha : a < n). { rewrite <- (seq_length n 0). apply nth_error_Some. congruence. }
      rewrite (nth_error_nth' _ 0) in E by (rewrite seq_length; auto). rewrite seq_nth in E by auto.
      inversion E; subst x. cbn. rewrite (nth_error_nth' _ 0) by (rewrite seq_length; auto). rewrite seq_nth; auto.
    + intros a H. rewrite nth_error_map in H. destruct (nth_error (seq 0 n) a); discriminate.
    + apply Forall_forall. intros x Hx. apply in_seq in Hx. lia.
    + rewrite seq_length. repeat split; [apply seq_length|apply StronglySorted_seq|].
      apply Forall_forall. intros x Hx. apply in_seq in Hx. lia.
  - unfold Pend. cbn [comb_new c_finished c_items c_subset]. destruct (Nat.leb_spec n k); [lia|].
    split; [apply subsets_sorted|]. intros s.
    assert (Hv : vals (seq 0 n) (seq 0 k) = seq 0 k).
    { unfold vals. rewrite <- (map_id (seq 0 k)) at 2. apply map_ext_in. intros x Hx. apply in_seq in Hx. rewrite seq_nth; lia. }
    rewrite Hv. unfold subsets. rewrite subsets_in. unfold is_k_subset. split.
    + intros (H1 & H2 & H3). repeat split; auto.
      * intros x Hx. rewrite Forall_forall in H3. specialize (H3 x Hx). apply in_seq; lia.
      * rewrite <- H1. apply seq_min; auto. apply Forall_forall; intros; lia.
    + intros (H1 & H2 & H3 & _). repeat split; auto. apply Forall_forall. intros x Hx. apply H3 in Hx. apply in_seq in Hx; lia.
Qed.

Lemma comb_run_ok n k ops fuel : k < n -> Forall (op_ok n) ops -> length (subsets n k) + 2 <= fuel ->
  comb_run fuel (comb_new n k) ops = Some (abs_run (subsets n k) ops).
Proof. intros Hk Ho Hf. destruct (comb_new_inv n k Hk). eapply run_refines; eauto. Qed.

Lemma comb_full_none n fuel : comb_run fuel (comb_new n n) [Next] = Some [None].
Proof.
  cbn [comb_run]. rewrite comb_next_eq.
  - cbn [comb_new c_finished c_n c_items c_subset c_idx]. rewrite Nat.leb_refl. cbn zeta.
    destruct (succ_comb n (seq 0 n)); reflexivity.
  - cbn. rewrite seq_length; auto.
  - cbn. rewrite seq_length. apply Forall_forall. intros x Hx. apply in_seq in Hx; lia.
Qed.
Lemma find_i_over n : forall l i, i <= n -> n < i + length l -> Forall (fun x => n <= x + i + 1) l \/ True ->
  (forall j s, nth_error l j = Some s -> n <= s + (i + j) + 1) -> find_i n i l = None.
Proof.
  induction l as [|s l IH]; intros i Hi Hl _ Hs; [cbn in Hl; lia|].
  cbn [find_i]. unfold usub at 1. destruct (Nat.ltb_spec n i); [reflexivity|].
  unfold usub. destruct (Nat.ltb_spec (n - i) 1); [reflexivity|].
  pose proof (Hs 0 s eq_refl). destruct (Nat.ltb_spec s (n - i - 1)); [lia|].
  apply IH; [lia|cbn in Hl; lia|auto|]. intros j s' Hj. specialize (Hs (S j) s' Hj). lia.
Qed.
Lemma comb_over_panics n k : n < k -> comb_next (comb_new n k) = None.
Proof.
  intros H. unfold comb_next. cbn [comb_new c_finished c_n c_items c_subset].
  destruct (Nat.leb_spec n k); [|lia]. rewrite find_i_over; auto.
  - lia.
  - rewrite rev_length, seq_length; lia.
  - intros j s Hj. assert (Hjl : j < k). { rewrite <- (seq_length k 0), <- rev_length. apply nth_error_Some; congruence. }
    rewrite (nth_error_nth' _ 0) in Hj by (rewrite rev_length, seq_length; auto).
    rewrite rev_nth, seq_length, seq_nth in Hj by (rewrite ?seq_length; lia). inversion Hj; subst. lia.
Qed.
