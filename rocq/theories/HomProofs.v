From Coq Require Import List Arith Lia Bool Sorting.Sorted Sorting.Permutation.
From Verif Require Import GroupSpec GroupModel GroupProofs GroupProofs2 TableSpec TableModel TableProofs TableProofs2 TableProofs3 TableProofs4 HomModel.
Import ListNotations.

Lemma set_word_length l : forall i v, length (set_word l i v) = length l.
Proof. induction l as [|h l IH]; intros [|i] v; cbn; auto. Qed.
Lemma set_word_nth l : forall i v x, nth x (set_word l i v) [] = if (x =? i) && (x <? length l) then v else nth x l [].
Proof.
  induction l as [|h l IH]; intros i v x; cbn [set_word length].
  - destruct i; cbn; destruct x; cbn; rewrite ?andb_false_r; reflexivity.
  - destruct i as [|i], x as [|x]; cbn [set_word nth]; try reflexivity. rewrite IH. reflexivity.
Qed.
Lemma set_insert_length y l : asc l -> ~ In y l -> length (set_insert y l) = S (length l).
Proof.
  intros Ha Hy. destruct (set_insert_spec y l Ha) as [H1 H2]. change (S (length l)) with (length (y :: l)). apply Permutation_length. apply NoDup_Permutation.
  - apply asc_NoDup; auto.
  - constructor; auto. apply asc_NoDup; auto.
  - intros z. rewrite H2. cbn. split; intros [Q|Q]; auto.
Qed.
Lemma fold_flat {A B C} (f : C -> B -> C) (g : A -> list B) l : forall c, fold_left (fun c x => fold_left f (g x) c) l c = fold_left f (flat_map g l) c.
Proof. induction l as [|x l IH]; intros c; cbn; auto. rewrite fold_left_app. apply IH. Qed.
Lemma enum_from_in {A} (l : list A) d : forall i k x, In (k, x) (enum_from i l) <-> i <= k < i + length l /\ nth (k - i) l d = x.
Proof.
  induction l as [|y l IH]; intros i k x; cbn [enum_from]; [cbn; split; [intros []|lia]|]. cbn [In length]. rewrite IH. split.
  - intros [[= <- <-]|[H1 H2]]; [rewrite Nat.sub_diag; split; [lia|reflexivity]|]. split; [lia|]. replace (k - i) with (S (k - S i)) by lia. exact H2.
  - intros [H1 H2]. destruct (Nat.eq_dec k i) as [->|Hk]; [left; rewrite Nat.sub_diag in H2; cbn in H2; congruence|right]. split; [lia|]. replace (k - i) with (S (k - S i)) in H2 by lia. exact H2.
Qed.

Section G.
Variable t : table.
Hypothesis Ht : vt t.
Let G : tgroup t := vt_group t Ht.
Notation n := (tn t).
Notation e := (tident t).
Definition wprod (gens w : list nat) : nat := fold_right (mulT t) e (map (fun i => nth i gens 0) w).
Lemma wprod_lt gens w : (forall g, In g gens -> g < n) -> (forall i, In i w -> i < length gens) -> wprod gens w < n.
Proof.
  intros Hg. unfold wprod. induction w as [|i w IH]; intros Hw; cbn; [apply Ge; auto|]. apply Gop; auto; [apply Hg, nth_In, Hw; left; auto|apply IH; intros; apply Hw; right; auto].
Qed.
Lemma wprod_snoc gens w i : (forall g, In g gens -> g < n) -> (forall i, In i w -> i < length gens) -> i < length gens ->
  wprod gens (w ++ [i]) = mulT t (wprod gens w) (nth i gens 0).
Proof.
  intros Hg Hw Hi. assert (Hgi : nth i gens 0 < n) by (apply Hg, nth_In; auto). induction w as [|j w IH].
  - cbn. rewrite Gil, Gir; auto.
  - cbn [app]. change (wprod gens (j :: w ++ [i])) with (mulT t (nth j gens 0) (wprod gens (w ++ [i]))). rewrite IH by (intros; apply Hw; right; auto).
    change (wprod gens (j :: w)) with (mulT t (nth j gens 0) (wprod gens w)). apply Gas; auto.
    + apply Hg, nth_In, Hw. left; auto.
    + apply wprod_lt; auto. intros; apply Hw; right; auto.
Qed.
Lemma wprod_app_gens gens g w : (forall i, In i w -> i < length gens) -> wprod (gens ++ [g]) w = wprod gens w.
Proof. intros Hw. unfold wprod. f_equal. apply map_ext_in. intros i Hi. apply app_nth1. auto. Qed.

Record ginv (gens : list nat) (st : gst) : Prop := {
  gi_asc : asc (g_sg st);
  gi_lt : forall x, In x (g_sg st) -> x < n;
  gi_e : In e (g_sg st);
  gi_miss : forall x, In x (g_missing st) <-> x < n /\ ~ In x (g_sg st);
  gi_wlen : length (g_words st) = n;
  gi_word : forall x, In x (g_sg st) -> (forall i, In i (nth x (g_words st) []) -> i < length gens) /\ wprod gens (nth x (g_words st) []) = x;
  gi_we : nth e (g_words st) [] = [];
}.
Definition vis (t : table) st (a : nat * nat * nat) := g_visit t (fst (fst a)) (snd (fst a)) (snd a) st.
Lemma fold_vis (l : list (nat * nat)) b : forall s0, fold_left (fun st x => fold_left (fun st ig => g_visit t x (fst ig) (snd ig) st) l st) b s0 =
  fold_left (fun c x => fold_left (vis t) (map (fun ig => (x, fst ig, snd ig)) l) c) b s0.
Proof.
  induction b as [|x b IH]; intros s0; cbn [fold_left]; auto. rewrite IH. f_equal. clear. revert s0. induction l as [|ig l IHl]; intros s0; cbn [fold_left map]; auto.
Qed.
Lemma visits gens (Hg : forall g, In g gens -> g < n) L : forall st, ginv gens st ->
  (forall x i g, In (x, i, g) L -> In x (g_sg st) /\ i < length gens /\ nth i gens 0 = g) ->
  let st' := fold_left (vis t) L st in ginv gens st' /\ exists new, g_next st' = g_next st ++ new /\ (forall z, In z (g_sg st') <-> In z (g_sg st) \/ In z new) /\
    length (g_sg st') = length (g_sg st) + length new /\ (forall z, In z (g_sg st) -> nth z (g_words st') [] = nth z (g_words st) []) /\
    (forall x i g, In (x, i, g) L -> In (mulT t x g) (g_sg st')) /\
    (forall y, In y new -> ~ In y (g_sg st) /\ exists x i g, In (x, i, g) L /\ y = mulT t x g /\ nth y (g_words st') [] = nth x (g_words st) [] ++ [i]).
Proof.
  induction L as [|[[x i] g] L IH]; intros st I HL; cbn [fold_left].
  - split; auto. exists []. rewrite app_nil_r. split; auto. split; [cbn; tauto|]. split; [cbn; lia|]. split; auto. split; [intros ? ? ? []|intros ? []].
  - destruct (HL x i g) as (Hx & Hi & Hgi); [left; auto|].
    assert (Hgn : g < n) by (subst g; apply Hg, nth_In; auto). assert (Hy : mulT t x g < n) by (apply Gop; auto; apply I; auto).
    set (st1 := vis t st (x, i, g)).
    assert (H1 : ginv gens st1 /\ exists new, g_next st1 = g_next st ++ new /\ (forall z, In z (g_sg st1) <-> In z (g_sg st) \/ In z new) /\
      length (g_sg st1) = length (g_sg st) + length new /\ (forall z, In z (g_sg st) -> nth z (g_words st1) [] = nth z (g_words st) []) /\ In (mulT t x g) (g_sg st1) /\
      (forall y, In y new -> ~ In y (g_sg st) /\ y = mulT t x g /\ nth y (g_words st1) [] = nth x (g_words st) [] ++ [i])).
    { unfold st1, vis, g_visit. cbn [fst snd]. destruct (has (mulT t x g) (g_sg st)) eqn:Eh.
      - apply has_iff in Eh. split; auto. exists []. rewrite app_nil_r. split; auto. split; [cbn; tauto|]. split; [cbn; lia|]. split; auto. split; auto. intros ? [].
      - apply has_false in Eh. set (y := mulT t x g) in *. destruct (set_insert_spec y (g_sg st) (gi_asc _ _ I)) as [S1 S2].
        assert (Hw : forall z, In z (g_sg st) -> nth z (set_word (g_words st) y (nth x (g_words st) [] ++ [i])) [] = nth z (g_words st) []).
        { intros z Hz. rewrite set_word_nth. destruct (Nat.eqb_spec z y); [subst; contradiction|reflexivity]. }
        assert (Hwy : nth y (set_word (g_words st) y (nth x (g_words st) [] ++ [i])) [] = nth x (g_words st) [] ++ [i]).
        { rewrite set_word_nth, Nat.eqb_refl, (gi_wlen _ _ I). destruct (Nat.ltb_spec y n); [reflexivity|lia]. }
        split.
        + constructor; cbn [g_sg g_missing g_words g_next]; auto.
          * intros z Hz. apply S2 in Hz as [->|Hz]; auto. apply I; auto.
          * apply S2. right. apply I.
          * intros z. rewrite remove_all_in, (gi_miss _ _ I), S2. cbn [In]. split; [intros [[A B] C]; split; [auto|]; intros [Q|Q]; subst; tauto|]. intros [A B]. split; [split; auto|]. intros [Q|[]]. apply B. auto.
          * rewrite set_word_length. apply I.
          * intros z Hz. apply S2 in Hz as [->|Hz]; [|rewrite Hw by auto; apply I; auto]. rewrite Hwy. destruct (gi_word _ _ I x Hx) as [W1 W2]. split.
            -- intros j Hj. apply in_app_iff in Hj as [Hj|[<-|[]]]; auto.
            -- rewrite wprod_snoc, W2, Hgi; auto.
          * rewrite Hw by apply I. apply I.
        + exists [y]. cbn [g_sg g_next g_words]. split; auto. split; [intros z; rewrite S2; cbn; split; [intros [Q|Q]; auto|intros [Q|[Q|[]]]; auto]|].
          split; [rewrite set_insert_length by (auto; apply I); cbn; lia|]. split; auto. split; [apply S2; auto|]. intros z [<-|[]]. auto. }
    destruct H1 as (I1 & new1 & N1 & N2 & N3 & N4 & N5 & N6).
    destruct (IH st1 I1) as (I2 & new2 & M1 & M2 & M3 & M4 & M5 & M6).
    { intros x' i' g' Hin. destruct (HL x' i' g') as (Q1 & Q2); [right; auto|]. split; auto. apply N2. auto. }
    split; auto. exists (new1 ++ new2). split; [rewrite M1, N1, app_assoc; auto|]. split; [intros z; rewrite M2, N2, in_app_iff; tauto|].
    split; [rewrite M3, N3, app_length; lia|]. split; [intros z Hz; rewrite M4, N4; auto; apply N2; auto|]. split.
    + intros x' i' g' [[= <- <- <-]|Hin]; [apply M2; left; auto|apply (M5 x' i' g'); auto].
    + intros y Hyn. apply in_app_iff in Hyn as [Hyn|Hyn].
      * destruct (N6 y Hyn) as (Q1 & Q2 & Q3). split; auto. exists x, i, g. split; [left; auto|]. split; auto. rewrite M4; auto. apply N2; auto.
      * destruct (M6 y Hyn) as (Q1 & x' & i' & g' & Q2 & Q3 & Q4). split; [intros Q; apply Q1, N2; auto|]. exists x', i', g'. split; [right; auto|]. split; auto.
        rewrite Q4, N4; auto. apply (HL x' i' g'). right; auto.
Qed.
Lemma sg_le gens st : ginv gens st -> 1 <= length (g_sg st) <= n.
Proof.
  intros I. split; [pose proof (gi_e _ _ I); destruct (g_sg st); [contradiction|cbn; lia]|].
  rewrite <- (seq_length n 0). apply NoDup_incl_length; [apply asc_NoDup, I|]. intros x Hx. apply (gi_lt _ _ I) in Hx. apply in_seq. lia.
Qed.
Lemma ginv_next gens st nx : ginv gens st -> ginv gens (mkGst (g_sg st) (g_missing st) (g_words st) nx).
Proof. intros []. constructor; auto. Qed.
Definition closed (gens : list nat) st := forall x g, In x (g_sg st) -> In g gens -> In (mulT t x g) (g_sg st).
Lemma g_bfs_spec gens (Hg : forall g, In g gens -> g < n) fuel : forall boundary st, ginv gens st -> (forall x, In x boundary -> In x (g_sg st)) ->
  (forall x g, In x (g_sg st) -> In g gens -> In x boundary \/ In (mulT t x g) (g_sg st)) -> 1 <= fuel -> (boundary <> [] -> 2 + n - length (g_sg st) <= fuel) ->
  exists st', g_bfs fuel t gens boundary st = Some st' /\ ginv gens st' /\ closed gens st' /\ (forall x, In x (g_sg st) -> In x (g_sg st') /\ nth x (g_words st') [] = nth x (g_words st) []) /\ length (g_sg st) <= length (g_sg st').
Proof.
  induction fuel as [|fuel IH]; intros boundary st I Hb Hc Hf Hf'; [lia|]. cbn [g_bfs]. destruct (list_eq_dec Nat.eq_dec boundary []) as [->|Hne].
  - exists st. split; auto. split; auto. split; [|split; auto]. intros x g Hx Hgi. destruct (Hc x g Hx Hgi) as [[]|]; auto.
  - specialize (Hf' Hne). pose proof (sg_le _ _ I) as Hle. set (st0 := mkGst (g_sg st) (g_missing st) (g_words st) []).
    set (L := flat_map (fun x => map (fun ig => (x, fst ig, snd ig)) (enum_from 0 gens)) boundary).
    assert (Ef : fold_left (fun st x => fold_left (fun st ig => g_visit t x (fst ig) (snd ig) st) (enum_from 0 gens) st) boundary st0 = fold_left (vis t) L st0).
    { unfold L. rewrite <- fold_flat. apply fold_vis. }
    assert (HLin : forall x i g, In (x, i, g) L <-> In x boundary /\ i < length gens /\ nth i gens 0 = g).
    { intros x i g. unfold L. rewrite in_flat_map. split.
      - intros (x' & Hx' & Hin). apply in_map_iff in Hin as ([i' g'] & [= <- <- <-] & Hin). apply (enum_from_in gens 0) in Hin as [Q1 Q2]. cbn [fst snd]. rewrite Nat.sub_0_r in Q2. split; auto. split; [lia|auto].
      - intros (Q1 & Q2 & Q3). exists x. split; auto. apply in_map_iff. exists (i, g). split; auto. apply (enum_from_in gens 0). rewrite Nat.sub_0_r. split; [lia|auto]. }
    destruct (visits gens Hg L st0) as (I1 & new & V1 & V2 & V3 & V4 & V5 & V6); [apply ginv_next; auto| |].
    { intros x i g Hin. apply HLin in Hin as (Q1 & Q2). split; [apply Hb; auto|auto]. }
    destruct boundary as [|b0 bs] eqn:Eb; [contradiction|]. rewrite <- Eb in *. rewrite Ef. set (st1 := fold_left (vis t) L st0) in *. cbn [g_next st0 app] in V1. cbn [g_sg st0] in V2, V3.
    destruct (IH (g_next st1) st1) as (st' & E & I' & C' & W' & L'); auto.
    + rewrite V1. intros x Hx. apply V2. auto.
    + intros x g Hx Hgi. rewrite V1. destruct (in_dec Nat.eq_dec x new) as [Hn|Hn]; auto. right. apply V2 in Hx as [Hx|Hx]; [|contradiction].
      destruct (Hc x g Hx Hgi) as [Q|Q]; [|apply V2; auto]. apply (In_nth _ _ 0) in Hgi as (i & Hi & Egi). apply (V5 x i g). apply HLin. auto.
    + lia.
    + intros Hnn. rewrite V1 in Hnn. destruct new; [contradiction|]. cbn [length] in V3. lia.
    + exists st'. split; auto. split; auto. split; auto. split; [|lia]. intros x Hx. destruct (W' x) as [Q1 Q2]; [apply V2; auto|]. split; auto. rewrite Q2. apply V4. auto.
Qed.
(* what a generating set must be *)
Definition genset_ok (s : genset) : Prop := (forall g, In g (gs_gens s) -> g < n) /\ length (gs_elems s) = n /\
  (forall x, x < n -> (forall i, In i (nth x (gs_elems s) []) -> i < length (gs_gens s)) /\ wprod (gs_gens s) (nth x (gs_elems s) []) = x) /\
  (forall i, i < length (gs_gens s) -> nth (nth i (gs_gens s) 0) (gs_elems s) [] = [i]).
Lemma g_outer_spec pick max (Hp : choice pick) fuel : forall gens st, ginv gens st -> closed gens st -> (forall g, In g gens -> g < n) ->
  (forall i, i < length gens -> In (nth i gens 0) (g_sg st) /\ nth (nth i gens 0) (g_words st) [] = [i]) -> n - length (g_sg st) < fuel ->
  (forall m, max = Some m -> length gens <= m) ->
  exists r, g_outer fuel pick t max gens st = Some r /\ match r with None => max <> None | Some s => genset_ok s /\ forall m, max = Some m -> length (gs_gens s) <= m end.
Proof.
  induction fuel as [|fuel IH]; intros gens st I C Hg Hw Hf Hm; [lia|]. cbn [g_outer]. pose proof (sg_le _ _ I) as Hle. destruct (Nat.ltb_spec (length (g_sg st)) n) as [Hlt|Hge].
  - destruct (match max with Some m => length gens =? m | None => false end) eqn:Emax.
    { exists None. split; auto. destruct max; discriminate. }
    assert (Hne : g_missing st <> []).
    { intros E. assert (Hi : incl (seq 0 n) (g_sg st)).
      { intros x Hx. apply in_seq in Hx. destruct (in_dec Nat.eq_dec x (g_sg st)); auto. exfalso. assert (In x (g_missing st)) by (apply I; split; [lia|auto]). rewrite E in H. destruct H. }
      apply NoDup_incl_length in Hi; [|apply seq_NoDup]. rewrite seq_length in Hi. lia. }
    destruct (g_missing st) as [|m0 ms] eqn:Em; [contradiction|]. rewrite <- Em in *. pose proof (Hp _ Hne) as Hin. set (ng := pick (g_missing st)) in *.
    apply (gi_miss _ _ I) in Hin as [Hng Hns]. set (gens' := gens ++ [ng]). assert (Hl' : length gens' = S (length gens)) by (unfold gens'; rewrite app_length; cbn; lia).
    replace (length gens' - 1) with (length gens) by lia.
    assert (Hg' : forall g, In g gens' -> g < n). { intros g Hgi. apply in_app_iff in Hgi as [Hgi|[<-|[]]]; auto. }
    assert (Hnth : nth (length gens) gens' 0 = ng). { unfold gens'. rewrite app_nth2 by lia. rewrite Nat.sub_diag. reflexivity. }
    assert (Hnth1 : forall i, i < length gens -> nth i gens' 0 = nth i gens 0). { intros i Hi. unfold gens'. apply app_nth1; auto. }
    set (st0 := mkGst (g_sg st) (g_missing st) (g_words st) []).
    assert (I0 : ginv gens' st0).
    { constructor; cbn [g_sg g_missing g_words st0]; try apply I. intros x Hx. destruct (gi_word _ _ I x Hx) as [Q1 Q2]. split; [intros i Hi; apply Q1 in Hi; lia|]. unfold gens'. rewrite wprod_app_gens; auto. }
    set (L := map (fun s => (s, length gens, ng)) (g_sg st)).
    assert (Ef : fold_left (fun st s => g_visit t s (length gens) ng st) (g_sg st) st0 = fold_left (vis t) L st0).
    { unfold L. generalize (g_sg st) as l. intros l. generalize st0 as s0. induction l as [|x l IHl]; intros s0; cbn [fold_left map]; auto. }
    rewrite Ef. destruct (visits gens' Hg' L st0 I0) as (I1 & new & V1 & V2 & V3 & V4 & V5 & V6).
    { intros x i g Hi. unfold L in Hi. apply in_map_iff in Hi as (s & [= <- <- <-] & Hs). split; auto. split; [lia|auto]. }
    set (st1 := fold_left (vis t) L st0) in *. cbn [g_next st0 app] in V1. cbn [g_sg g_words st0] in V2, V3, V4, V6.
    assert (Hngin : In ng (g_sg st1)). { rewrite <- (Gil t Ht ng Hng). apply (V5 e (length gens) ng). unfold L. apply in_map_iff. exists e. split; auto. apply I. }
    assert (Hngnew : In ng new) by (apply V2 in Hngin as [|]; [contradiction|auto]).
    assert (Hngw : nth ng (g_words st1) [] = [length gens]).
    { destruct (V6 ng Hngnew) as (_ & x & i & g & Q1 & Q2 & Q3). unfold L in Q1. apply in_map_iff in Q1 as (s & [= -> <- <-] & Hs).
      assert (Es : x = e). { apply (cancel_r _ _ _ _ G x e ng); auto; [apply I; auto|apply Ge; auto|]. rewrite (Gil t Ht) by auto. auto. }
      subst x. rewrite Q3, (gi_we _ _ I). reflexivity. }
    destruct (g_bfs_spec gens' Hg' (S n) (g_next st1) st1 I1) as (st2 & E2 & I2 & C2 & W2 & L2).
    { rewrite V1. intros x Hx. apply V2; auto. }
    { intros x g Hx Hgi. rewrite V1. apply V2 in Hx as [Hx|Hx]; auto. right. apply in_app_iff in Hgi as [Hgi|[<-|[]]].
      - apply V2. left. apply C; auto.
      - apply (V5 x (length gens) ng). unfold L. apply in_map_iff. exists x. auto. }
    { lia. }
    { intros _. pose proof (sg_le _ _ I1). lia. }
    rewrite E2. apply IH; auto.
    + intros i Hi. rewrite Hl' in Hi. destruct (Nat.eq_dec i (length gens)) as [->|Hi'].
      * rewrite Hnth. destruct (W2 ng Hngin) as [Q1 Q2]. split; auto. rewrite Q2. auto.
      * rewrite Hnth1 by lia. destruct (Hw i) as [Q1 Q2]; [lia|]. destruct (W2 (nth i gens 0)) as [Q3 Q4]; [apply V2; auto|]. split; auto. rewrite Q4, V4; auto.
    + assert (1 <= length new) by (destruct new; [contradiction|cbn; lia]). lia.
    + intros m ->. specialize (Hm m eq_refl). apply Nat.eqb_neq in Emax. lia.
  - exists (Some (mkGen gens (g_words st))). split; auto. split; auto. split; [auto|]. cbn [gs_gens gs_elems]. split; [apply I|]. split; [|intros i Hi; apply Hw; auto].
    assert (Hall : forall x, x < n -> In x (g_sg st)).
    { intros x Hx. assert (Hi : incl (seq 0 n) (g_sg st)).
      { apply NoDup_length_incl; [apply asc_NoDup, I|rewrite seq_length; lia|]. intros y Hy. apply (gi_lt _ _ I) in Hy. apply in_seq. lia. }
      apply Hi, in_seq. lia. }
    intros x Hx. apply I. auto.
Qed.
Lemma try_find_spec pick max : choice pick -> exists r, try_find_generating_set pick t max = Some r /\
   match r with None => max <> None | Some s => genset_ok s /\ forall m, max = Some m -> length (gs_gens s) <= m end.
Proof.
  intros Hp. unfold try_find_generating_set. pose proof (Ge t Ht) as He. apply g_outer_spec; auto.
  - assert (Hw : nth e (set_word (repeat [] n) e []) [] = []).
    { rewrite set_word_nth. destruct ((e =? e) && _); auto. apply nth_repeat. }
    constructor; cbn [g_sg g_missing g_words].
    + repeat constructor.
    + intros x [<-|[]]. auto.
    + left; auto.
    + intros x. rewrite remove_all_in. unfold elemsT. rewrite in_seq. split; intros [A B]; (split; [lia|auto]).
    + rewrite set_word_length. apply repeat_length.
    + intros x [<-|[]]. rewrite Hw. split; [intros ? []|reflexivity].
    + exact Hw.
  - intros x g _ [].
  - intros g [].
  - intros i Hi. cbn in Hi. lia.
  - cbn. lia.
  - intros m _. cbn. lia.
Qed.
Lemma generating_set_spec pick : choice pick -> exists s, generating_set pick t = Some s /\ genset_ok s.
Proof.
  intros Hp. unfold generating_set. destruct (try_find_spec pick None Hp) as (r & -> & Hr). destruct r as [s|]; [|contradiction]. exists s. split; auto. apply Hr.
Qed.
Lemma wprod_mul_many gens w : (forall g, In g gens -> g < n) -> (forall i, In i w -> i < length gens) -> mul_many t (map (fun i => nth i gens 0) w) = wprod gens w.
Proof. intros Hg Hw. unfold wprod. apply (mul_many_spec t Ht). intros x Hx. apply in_map_iff in Hx as (i & <- & Hi). apply Hg, nth_In. auto. Qed.
Lemma genset_check s : genset_ok s -> gs_check t s = true.
Proof.
  intros (H1 & H2 & H3 & H4). unfold gs_check. rewrite !andb_true_iff. split; [split|].
  - apply forallb_forall. intros g Hgi. apply Nat.ltb_lt. auto.
  - apply Nat.eqb_eq. auto.
  - apply forallb_forall. intros x Hx. apply in_seq in Hx. destruct (H3 x) as [Q1 Q2]; [lia|]. rewrite wprod_mul_many, Q2 by auto. apply Nat.eqb_refl.
Qed.
Lemma wprod_generated gens w : (forall i, In i w -> i < length gens) -> generated e (invT t) (mulT t) (fun g => In g gens) (wprod gens w).
Proof.
  unfold wprod. induction w as [|i w IH]; intros Hw; cbn; [apply gen_e|]. apply gen_op; [apply gen_in, nth_In, Hw; left; auto|]. apply IH. intros; apply Hw; right; auto.
Qed.
Lemma genset_generates s : genset_ok s -> forall x, x < n -> generated e (invT t) (mulT t) (fun g => In g (gs_gens s)) x.
Proof. intros (H1 & H2 & H3 & H4) x Hx. destruct (H3 x Hx) as [Q1 Q2]. rewrite <- Q2. apply wprod_generated. auto. Qed.
End G.

(* ---------- homomorphisms *)
Notation thom d r f := (is_hom (fun x => x < tn d) (mulT d) (fun x => x < tn r) (mulT r) f).
Section H.
Variables (d r : table).
Hypotheses (Hd : vt d) (Hr : vt r).
Let Gd : tgroup d := vt_group d Hd.
Let Gr : tgroup r := vt_group r Hr.
Lemma hom_ident f : thom d r f -> f (tident d) = tident r.
Proof.
  intros [H1 H2]. pose proof (Ge d Hd) as He. apply (cancel_l _ _ _ _ Gr _ _ (f (tident d))); auto; [apply Ge; auto|]. rewrite <- H2 by auto. rewrite (Gil d Hd), (Gir r Hr); auto.
Qed.
Lemma hom_wprod f gens w : thom d r f -> (forall g, In g gens -> g < tn d) -> (forall i, In i w -> i < length gens) -> f (wprod d gens w) = wprod r (map f gens) w.
Proof.
  intros Hf Hg. unfold wprod. induction w as [|i w IH]; intros Hw; cbn; [apply hom_ident; auto|]. pose proof Hf as [H1 H2].
  assert (Hi : i < length gens) by (apply Hw; left; auto). rewrite H2.
  - rewrite IH by (intros; apply Hw; right; auto). f_equal. rewrite (nth_indep (map f gens) 0 (f 0)) by (rewrite map_length; auto). symmetry. apply map_nth.
  - apply Hg, nth_In; auto.
  - apply (wprod_lt d Hd gens w); auto. intros; apply Hw; right; auto.
Qed.
Lemma generated_homomorphism_spec s pf : genset_ok d s -> length pf = length (gs_gens s) -> (forall x, In x pf -> x < tn r) ->
  exists o, generated_homomorphism d s pf r = Some o /\ match o with
    | Some f => length f = tn d /\ thom d r (fun x => nth x f 0) /\ (forall i, i < length pf -> nth (nth i (gs_gens s) 0) f 0 = nth i pf 0)
    | None => ~ exists f, thom d r f /\ forall i, i < length pf -> f (nth i (gs_gens s) 0) = nth i pf 0 end.
Proof.
  intros (S1 & S2 & S3 & S4) Hl Hpf. unfold generated_homomorphism. rewrite Hl, Nat.eqb_refl. cbn [negb].
  assert (Hb : forallb (fun x => x <? tn r) pf = true) by (apply forallb_forall; intros x Hx; apply Nat.ltb_lt; auto). rewrite Hb. cbn [negb].
  set (func := map (fun x => mul_many r (map (fun g => nth g pf 0) (nth x (gs_elems s) []))) (elemsT d)).
  assert (Hfl : length func = tn d) by (unfold func; rewrite map_length; apply seq_length).
  assert (Hfn : forall x, x < tn d -> nth x func 0 = wprod r pf (nth x (gs_elems s) []) /\ nth x func 0 < tn r).
  { intros x Hx. unfold func, elemsT. rewrite (nth_map_seq (fun x => mul_many r (map (fun g => nth g pf 0) (nth x (gs_elems s) []))) (tn d) x 0 Hx). destruct (S3 x Hx) as [Q1 Q2].
    rewrite wprod_mul_many; auto; [|intros i Hi; apply Q1 in Hi; lia]. split; auto. apply wprod_lt; auto. intros i Hi. apply Q1 in Hi. lia. }
  assert (Hgen : forall i, i < length pf -> nth (nth i (gs_gens s) 0) func 0 = nth i pf 0).
  { intros i Hi. rewrite Hl in Hi. assert (Hgi : nth i (gs_gens s) 0 < tn d) by (apply S1, nth_In; auto). rewrite (proj1 (Hfn _ Hgi)), S4 by auto. unfold wprod. cbn. apply Gir; auto. apply Hpf, nth_In. lia. }
  destruct (forallb _ (elemsT d)) eqn:E.
  - exists (Some func). split; auto. split; auto. split; [|rewrite <- Hl; exact Hgen]. split; [intros x Hx; apply Hfn; auto|].
    rewrite forallb_forall in E.
    assert (Hstep : forall x i, x < tn d -> i < length (gs_gens s) -> nth (mulT d x (nth i (gs_gens s) 0)) func 0 = mulT r (nth x func 0) (nth i pf 0)).
    { intros x i Hx Hi. specialize (E x (proj2 (in_seq _ _ _) (conj (Nat.le_0_l _) Hx))). rewrite forallb_forall in E. specialize (E (nth i (gs_gens s) 0) (nth_In _ _ Hi)). apply Nat.eqb_eq in E. rewrite E, Hgen; auto. lia. }
    assert (Hw : forall w x, x < tn d -> (forall i, In i w -> i < length (gs_gens s)) -> nth (mulT d x (wprod d (gs_gens s) w)) func 0 = mulT r (nth x func 0) (wprod r pf w)).
    { induction w as [|i w IH]; intros x Hx Hi.
      - unfold wprod. cbn. rewrite (Gir d Hd), (Gir r Hr); auto. apply Hfn; auto.
      - change (wprod d (gs_gens s) (i :: w)) with (mulT d (nth i (gs_gens s) 0) (wprod d (gs_gens s) w)). change (wprod r pf (i :: w)) with (mulT r (nth i pf 0) (wprod r pf w)).
        assert (Hii : i < length (gs_gens s)) by (apply Hi; left; auto). assert (Hgi : nth i (gs_gens s) 0 < tn d) by (apply S1, nth_In; auto). assert (Hi' : forall j, In j w -> j < length (gs_gens s)) by (intros; apply Hi; right; auto).
        assert (nth i pf 0 < tn r) by (apply Hpf, nth_In; lia).
        rewrite (Gas d Hd) by (auto; apply wprod_lt; auto). rewrite IH; auto; [|apply Gop; auto]. rewrite Hstep by auto. symmetry. apply Gas; auto; [apply Hfn; auto|]. apply wprod_lt; auto. intros j Hj. rewrite Hl. auto. }
    intros x y Hx Hy. destruct (S3 y Hy) as [Q1 Q2]. rewrite <- Q2 at 1. rewrite Hw by auto. f_equal. symmetry. apply Hfn; auto.
  - exists None. split; auto. intros (f & Hf & Hfp). rewrite <- ?Hl in Hfp. assert (Heq : forall x, x < tn d -> nth x func 0 = f x).
    { intros x Hx. rewrite (proj1 (Hfn x Hx)). destruct (S3 x Hx) as [Q1 Q2]. rewrite <- Q2 at 2. rewrite (hom_wprod f) by auto. unfold wprod. f_equal. apply map_ext_in. intros i Hi. apply Q1 in Hi.
      rewrite <- Hfp by lia. rewrite (nth_indep (map f _) 0 (f 0)) by (rewrite map_length; auto). rewrite (map_nth f). auto. }
    assert (Ht : forallb (fun x => forallb (fun g => Nat.eqb (nth (mulT d x g) func 0) (mulT r (nth x func 0) (nth g func 0))) (gs_gens s)) (elemsT d) = true); [|congruence].
    apply forallb_forall. intros x Hx. apply in_seq in Hx. apply forallb_forall. intros g Hgi. apply Nat.eqb_eq. pose proof (S1 _ Hgi). rewrite !Heq; auto; try lia; [|apply Gop; auto; lia]. apply Hf; auto. lia.
Qed.
Lemma hom_check_spec f : hom_check d r f = true <-> length f = tn d /\ thom d r (fun x => nth x f 0).
Proof.
  unfold hom_check. rewrite !andb_true_iff, Nat.eqb_eq, !forallb_forall. split.
  - intros [[H1 H2] H3]. split; auto. split.
    + intros x Hx. apply Nat.ltb_lt, H2, in_seq. lia.
    + intros x y Hx Hy. specialize (H3 x (proj2 (in_seq _ _ _) (conj (Nat.le_0_l _) Hx))). rewrite forallb_forall in H3. apply Nat.eqb_eq, H3, in_seq. lia.
  - intros (H1 & H2 & H3). split; [split; auto|].
    + intros x Hx. apply in_seq in Hx. apply Nat.ltb_lt, H2. lia.
    + intros x Hx. apply in_seq in Hx. apply forallb_forall. intros y Hy. apply in_seq in Hy. apply Nat.eqb_eq, H3; lia.
Qed.
(* to_isomorphism *)
Lemma iso_inv_spec func N : length func = N -> (forall x, x < N -> nth x func 0 < N) -> forall xs dn iv, length iv = N -> NoDup (dn ++ xs) -> (forall x, In x (dn ++ xs) -> x < N) ->
  (forall x, In x dn -> nth (nth x func 0) iv None = Some x) -> (forall y x, nth y iv None = Some x -> In x dn /\ nth x func 0 = y) ->
  exists o, iso_inv xs func iv = Some o /\ match o with
    | Some iv' => length iv' = N /\ (forall x, In x (dn ++ xs) -> nth (nth x func 0) iv' None = Some x) /\ (forall y x, nth y iv' None = Some x -> In x (dn ++ xs) /\ nth x func 0 = y)
    | None => exists x y, x < N /\ y < N /\ x <> y /\ nth x func 0 = nth y func 0 end.
Proof.
  intros Hfl Hfr. induction xs as [|x xs IH]; intros dn iv Hil Hnd Hlt H1 H2; cbn [iso_inv].
  - exists (Some iv). rewrite app_nil_r in *. auto.
  - assert (Hx : x < N) by (apply Hlt, in_or_app; right; left; auto). rewrite (nth_error_nth' func 0) by lia.
    rewrite (nth_error_nth' iv None) by (rewrite Hil; auto). destruct (nth (nth x func 0) iv None) as [y|] eqn:E.
    + exists None. split; auto. apply H2 in E as [E1 E2]. exists x, y. split; auto. split; [apply Hlt, in_or_app; auto|]. split; auto. intros <-. apply NoDup_remove_2 in Hnd. apply Hnd, in_or_app; auto.
    + destruct (upd_spec iv (fun _ => Some (Some x)) (nth x func 0) None (Some x)) as (iv' & -> & L1 & N1); [|reflexivity|].
      { rewrite (nth_error_nth' iv None) by (rewrite Hil; auto). congruence. }
      replace (dn ++ x :: xs) with ((dn ++ [x]) ++ xs) in * by (rewrite <- app_assoc; reflexivity).
      apply IH; auto; [lia| |].
      * intros z Hz. rewrite N1. destruct (Nat.eqb_spec (nth z func 0) (nth x func 0)) as [Ez|Ez].
        -- apply in_app_iff in Hz as [Hz|[<-|[]]]; auto. apply H1 in Hz. rewrite Ez in Hz. congruence.
        -- apply in_app_iff in Hz as [Hz|[<-|[]]]; auto. contradiction.
      * intros y z. rewrite N1. destruct (Nat.eqb_spec y (nth x func 0)) as [->|Ey].
        -- intros [= <-]. split; auto. apply in_or_app; right; left; auto.
        -- intros Q. apply H2 in Q as [Q1 Q2]. split; auto. apply in_or_app; auto.
Qed.
Lemma to_isomorphism_spec f : length f = tn d -> (forall x, x < tn d -> nth x f 0 < tn r) -> exists o, to_isomorphism d r f = Some o /\ match o with
   | Some (f', g) => f' = f /\ length g = tn r /\ mutually_inverse (fun x => x < tn d) (fun y => y < tn r) (fun x => nth x f 0) (fun y => nth y g 0)
   | None => ~ exists g, mutually_inverse (fun x => x < tn d) (fun y => y < tn r) (fun x => nth x f 0) g end.
Proof.
  intros Hl Hr'. unfold to_isomorphism. destruct (Nat.eqb_spec (tn d) (tn r)) as [En|En]; cbn [negb].
  - rewrite En in *. destruct (iso_inv_spec f (tn r) Hl Hr' (seq 0 (tn r)) [] (repeat None (tn r))) as (o & Eo & Ho).
    + apply repeat_length.
    + apply seq_NoDup.
    + intros x Hx. apply in_seq in Hx. lia.
    + intros x [].
    + intros y x. rewrite nth_repeat. discriminate.
    + rewrite Eo. cbn [app] in Ho. destruct o as [iv|].
      * destruct Ho as (H1 & H2 & H3). assert (Hsome : forall y, y < tn r -> exists x, x < tn r /\ nth x f 0 = y).
        { intros y Hy. destruct (inj_surj (seq 0 (tn r)) (fun x => nth x f 0)) with (y := y) as (x & Hx & E); try (apply in_seq; lia).
          - apply seq_NoDup.
          - intros x Hx. apply in_seq in Hx. apply in_seq. specialize (Hr' x). lia.
          - intros x z Hx Hz E. apply H2 in Hx, Hz. rewrite E in Hx. congruence.
          - exists x. apply in_seq in Hx. split; [lia|auto]. }
        destruct (collect_spec iv) as (g & Eg & L & N).
        { intros z Hz. apply (In_nth _ _ None) in Hz as (y & Hy & <-). destruct (Hsome y) as (x & Hx & <-); [lia|]. rewrite H2 by (apply in_seq; lia). discriminate. }
        rewrite Eg. exists (Some (f, g)). split; auto. split; auto. split; [lia|].
        assert (Hg : forall y, y < tn r -> nth y g 0 < tn r /\ nth (nth y g 0) f 0 = y).
        { intros y Hy. specialize (N y 0). rewrite H1 in N. specialize (N Hy). apply H3 in N as [N1 N2]. apply in_seq in N1. split; [lia|auto]. }
        split; auto. intros x Hx. split; auto. specialize (N (nth x f 0) 0). rewrite H1 in N. specialize (N (Hr' x Hx)). rewrite H2 in N by (apply in_seq; lia). congruence.
      * exists None. split; auto. destruct Ho as (x & y & Hx & Hy & Hxy & E). intros (g & M1 & M2). apply Hxy. destruct (M1 x Hx) as [_ <-]. destruct (M1 y Hy) as [_ <-]. congruence.
  - exists None. split; auto. intros (g & M1 & M2). apply En.
    assert (Hle : forall a b (F G : nat -> nat), (forall x, x < a -> F x < b /\ G (F x) = x) -> a <= b).
    { clear. intros a b F G H. rewrite <- (seq_length a 0), <- (seq_length b 0), <- (map_length F). apply NoDup_incl_length.
      - assert (Gn : forall m s, s + m <= a -> NoDup (map F (seq s m))).
        { induction m as [|m IH]; intros s Hs; cbn; constructor; [|apply IH; lia]. intros Hin. apply in_map_iff in Hin as (j & E & Hj). apply in_seq in Hj.
          destruct (H j) as [_ Q1]; [lia|]. destruct (H s) as [_ Q2]; [lia|]. rewrite E in Q1. lia. }
        apply Gn. lia.
      - intros y Hy. apply in_map_iff in Hy as (x & <- & Hx). apply in_seq in Hx. apply in_seq. specialize (H x). lia. }
    apply Nat.le_antisymm; [apply (Hle _ _ (fun x => nth x f 0) g M1)|apply (Hle _ _ g (fun x => nth x f 0) M2)].
Qed.
Lemma iso_check_spec lf rf : iso_check d r lf rf = true <-> length lf = tn d /\ length rf = tn r /\ thom d r (fun x => nth x lf 0) /\
   is_hom (fun x => x < tn r) (mulT r) (fun x => x < tn d) (mulT d) (fun x => nth x rf 0) /\
   mutually_inverse (fun x => x < tn d) (fun y => y < tn r) (fun x => nth x lf 0) (fun y => nth y rf 0).
Proof.
  unfold iso_check. rewrite !andb_true_iff, hom_check_spec, Nat.eqb_eq, forallb_forall.
  assert (Hc : hom_check r d rf = true <-> length rf = tn r /\ is_hom (fun x => x < tn r) (mulT r) (fun x => x < tn d) (mulT d) (fun x => nth x rf 0)).
  { unfold hom_check. rewrite !andb_true_iff, Nat.eqb_eq, !forallb_forall. split.
    - intros [[H1 H2] H3]. split; auto. split.
      + intros x Hx. apply Nat.ltb_lt, H2, in_seq. lia.
      + intros x y Hx Hy. specialize (H3 x (proj2 (in_seq _ _ _) (conj (Nat.le_0_l _) Hx))). rewrite forallb_forall in H3. apply Nat.eqb_eq, H3, in_seq. lia.
    - intros (H1 & H2 & H3). split; [split; auto|].
      + intros x Hx. apply in_seq in Hx. apply Nat.ltb_lt, H2. lia.
      + intros x Hx. apply in_seq in Hx. apply forallb_forall. intros y Hy. apply in_seq in Hy. apply Nat.eqb_eq, H3; lia. }
  rewrite Hc. split.
  - intros [[[[A1 A2] [B1 B2]] C1] D]. split; auto. split; auto. split; auto. split; auto.
    assert (HD : forall x, x < tn d -> nth (nth x lf 0) rf 0 = x). { intros x Hx. specialize (D x (proj2 (in_seq _ _ _) (conj (Nat.le_0_l _) Hx))). apply Nat.eqb_eq in D. auto. }
    split; [intros x Hx; split; [apply A2; auto|auto]|]. intros y Hy. split; [apply B2; auto|].
    destruct (inj_surj (seq 0 (tn d)) (fun x => nth x lf 0)) with (y := y) as (x & Hx & E).
    + apply seq_NoDup.
    + intros x Hx. apply in_seq in Hx. apply in_seq. split; [lia|]. cbn. rewrite C1. apply A2. lia.
    + intros x z Hx Hz E. apply in_seq in Hx, Hz. rewrite <- (HD x), <- (HD z) by lia. congruence.
    + apply in_seq. lia.
    + apply in_seq in Hx. rewrite <- E, HD; auto; lia.
  - intros (A1 & B1 & A2 & B2 & M1 & M2). split; [split; [split; auto|]|].
    + assert (Hle : forall a b (F G : nat -> nat), (forall x, x < a -> F x < b /\ G (F x) = x) -> a <= b).
      { clear. intros a b F G H. rewrite <- (seq_length a 0), <- (seq_length b 0), <- (map_length F). apply NoDup_incl_length.
        - assert (Gn : forall m s, s + m <= a -> NoDup (map F (seq s m))).
          { induction m as [|m IH]; intros s Hs; cbn; constructor; [|apply IH; lia]. intros Hin. apply in_map_iff in Hin as (j & E & Hj). apply in_seq in Hj.
            destruct (H j) as [_ Q1]; [lia|]. destruct (H s) as [_ Q2]; [lia|]. rewrite E in Q1. lia. }
          apply Gn. lia.
        - intros y Hy. apply in_map_iff in Hy as (x & <- & Hx). apply in_seq in Hx. apply in_seq. specialize (H x). lia. }
      apply Nat.le_antisymm; [apply (Hle _ _ (fun x => nth x lf 0) (fun x => nth x rf 0) M1)|apply (Hle _ _ (fun x => nth x rf 0) (fun x => nth x lf 0) M2)].
    + intros x Hx. apply in_seq in Hx. destruct (M1 x) as [_ ->]; [lia|]. apply Nat.eqb_refl.
Qed.
End H.
