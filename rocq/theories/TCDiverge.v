(* Todd-Coxeter does not halt on < x | x x^-1 x^-1 x x^-1 x^-1, x x x^-1 >: from the 33rd iteration on the state repeats
   itself, shifted by 8 cosets, every 8 iterations. *)
From Coq Require Import List Arith Lia Bool.
From Verif Require Import PermModel GroupModel TCSpec TCModel TCProofs TCProofs2.
Import ListNotations.

Section Shift.
Variable k : nat.
Definition rho (k c : nat) : nat := if c <? 25 then c else c + 8 * k.
Notation r := (rho k).
Definition D (c : nat) : Prop := c = 0 \/ c = 1 \/ c = 2 \/ c = 9 \/ c = 25 \/ 33 <= c.
Definition D2 (c : nat) : Prop := c = 0 \/ 33 <= c.
Record Sim (s s' : sg) : Prop := {
  si_wf : wf 1 s; si_wf' : wf 1 s';
  si_len : length (ids s') = length (ids s) + 8 * k;
  si_33 : 33 <= length (ids s);
  si_id : forall c, D c -> c < length (ids s) -> idOf s' (r c) = r (idOf s c) /\ D (idOf s c);
  si_nb : forall c d, D2 c -> nb s' (r c) d = option_map r (nb s c d) /\ (forall x, nb s c d = Some x -> D x);
  si_live : forall c, D c -> c < length (ids s) -> idOf s c = c -> D2 c }.
Lemma rho_mono a b : a < b <-> r a < r b.
Proof. unfold rho. destruct (Nat.ltb_spec a 25), (Nat.ltb_spec b 25); lia. Qed.
Lemma rho_inj a b : r a = r b <-> a = b.
Proof. unfold rho. destruct (Nat.ltb_spec a 25), (Nat.ltb_spec b 25); lia. Qed.
Lemma rho_eqb a b : (r a =? r b) = (a =? b).
Proof. destruct (Nat.eqb_spec a b) as [->|H]; [apply Nat.eqb_refl|]. apply Nat.eqb_neq. rewrite rho_inj. auto. Qed.
Lemma rho_ltb a b : (r a <? r b) = (a <? b).
Proof. unfold rho. destruct (Nat.ltb_spec a 25), (Nat.ltb_spec b 25), (Nat.ltb_spec a b); try reflexivity; try (apply Nat.ltb_lt; lia); try (apply Nat.ltb_ge; lia). Qed.
Lemma D2_D c : D2 c -> D c. Proof. unfold D, D2. lia. Qed.
Lemma rho_len c s s' : Sim s s' -> c < length (ids s) -> r c < length (ids s').
Proof. intros S. rewrite (si_len _ _ S). unfold rho. destruct (c <? 25); lia. Qed.
Lemma find_sim s s' : Sim s s' -> forall c, D c -> c < length (ids s) -> find s' (r c) = r (find s c) /\ D2 (find s c).
Proof.
  intros S. induction c as [c IH] using lt_wf_ind. intros Hd Hc. destruct (si_id _ _ S c Hd Hc) as [E1 E2].
  destruct (Nat.eq_dec (idOf s c) c) as [E|E].
  - rewrite E in E1. rewrite (find_live s c E), (find_live s' (r c) E1). split; auto. apply (si_live _ _ S); auto.
  - rewrite (find_step 1 s c (si_wf _ _ S) Hc). rewrite (find_step 1 s' (r c) (si_wf' _ _ S)) by (apply (rho_len c s s'); auto). rewrite E1.
    pose proof (wf_id _ _ (si_wf _ _ S) c Hc). apply IH; auto; lia.
Qed.
Lemma sim_set_id s s' a b : Sim s s' -> D a -> D b -> a < b -> b < length (ids s) -> Sim (set_id s b a) (set_id s' (r b) (r a)).
Proof.
  intros S Ha Hb Hab Hl. pose proof (rho_len _ _ _ S Hl) as Hl'. pose proof (proj1 (rho_mono a b) Hab) as Hr. constructor; rewrite ?len_set_id; try apply S.
  - apply wf_set_id; [apply S|lia].
  - apply wf_set_id; [apply S|lia].
  - intros c Hc Hcl. rewrite !idOf_set_id. rewrite rho_eqb. destruct (Nat.ltb_spec b (length (ids s))); [|lia]. destruct (Nat.ltb_spec (r b) (length (ids s'))); [|lia].
    rewrite !andb_true_r. destruct (c =? b); [auto|]. apply S; auto.
  - intros c Hc Hcl. rewrite idOf_set_id. destruct (Nat.eqb_spec c b) as [->|]; cbn [andb].
    + destruct (Nat.ltb_spec b (length (ids s))); [|lia]. lia.
    + apply (si_live _ _ S); auto.
Qed.
Lemma sim_set_nb s s' a d v : Sim s s' -> D2 a -> a < length (ids s) -> d < 2 -> (forall x, v = Some x -> x < length (ids s) /\ D x) -> Sim (set_nb s a d v) (set_nb s' (r a) d (option_map r v)).
Proof.
  intros S Ha Hl Hd Hv. pose proof (rho_len _ _ _ S Hl) as Hl'. constructor; try apply S.
  - apply wf_set_nb; auto; [apply S|]. intros x Hx. apply Hv; auto.
  - apply wf_set_nb; auto; [apply S|]. intros x Hx. destruct v as [y|]; [|discriminate]. injection Hx as <-. apply (rho_len _ _ _ S). apply Hv; auto.
  - intros c e Hc. rewrite (nb_set_nb 1) by (auto; apply S). rewrite (nb_set_nb 1) by (auto; apply S). rewrite rho_eqb. destruct ((c =? a) && (e =? d)).
    + split; auto. intros x Hx. apply Hv; auto.
    + apply S; auto.
Qed.
Lemma sim_new s s' : Sim s s' -> Sim (new_coset 1 s) (new_coset 1 s').
Proof.
  intros S. pose proof (si_33 _ _ S) as H33. pose proof (si_len _ _ S) as HL. assert (E : length (ids s') = r (length (ids s))). { unfold rho. destruct (Nat.ltb_spec (length (ids s)) 25); lia. }
  constructor; rewrite ?len_new; try lia.
  - apply wf_new, S.
  - apply wf_new, S.
  - intros c Hc Hcl. rewrite (idOf_new 1 s c) by lia. rewrite (idOf_new 1 s' (r c)) by (destruct (Nat.eq_dec c (length (ids s))) as [->|]; [lia|apply Nat.lt_le_incl, (rho_len _ _ _ S); lia]).
    rewrite E, rho_eqb. destruct (Nat.eqb_spec c (length (ids s))); auto. apply S; auto; lia.
  - intros c d Hc. rewrite !nb_new by apply S. apply S; auto.
  - intros c Hc Hcl. rewrite (idOf_new 1 s c) by lia. destruct (Nat.eqb_spec c (length (ids s))) as [->|]; [right; lia|]. apply (si_live _ _ S); auto; lia.
Qed.
Lemma unify_sim : forall f s s' c1 c2 t, Sim s s' -> D c1 -> D c2 -> c1 < length (ids s) -> c2 < length (ids s) -> unify_fuel f 1 s c1 c2 = Some t ->
  length (ids t) = length (ids s) /\ exists t', unify_fuel f 1 s' (r c1) (r c2) = Some t' /\ Sim t t'.
Proof.
  induction f as [|f IH]; intros s s' c1 c2 t S H1 H2 L1 L2; [discriminate|]. cbn [unify_fuel].
  destruct (find_sim s s' S c1 H1 L1) as [E1 K1]. destruct (find_sim s s' S c2 H2 L2) as [E2 K2]. rewrite E1, E2, rho_eqb, rho_ltb.
  destruct (Nat.eqb_spec (find s c1) (find s c2)) as [E|E]; [intros [= <-]; eauto|].
  set (loop := fun a b (s : sg) (d : nat) => match nb s a d with None => Some (set_nb s a d (nb s b d)) | Some n1 => match nb s b d with None => Some s | Some n2 => unify_fuel f 1 s n1 n2 end end).
  assert (L : forall a b, D2 a -> D2 b -> forall ds s s' t, Sim s s' -> a < length (ids s) -> b < length (ids s) -> (forall d, In d ds -> d < 2) -> loopM (loop a b) ds s = Some t ->
            length (ids t) = length (ids s) /\ exists t', loopM (loop (r a) (r b)) ds s' = Some t' /\ Sim t t').
  { intros a b Ha Hb. induction ds as [|d ds IHd]; intros s1 s1' t1 S1 La Lb Hds; cbn [loopM]; [intros [= <-]; eauto|].
    assert (Hd : d < 2) by (apply Hds; left; auto). unfold loop at 1 3. destruct (si_nb _ _ S1 a d Ha) as [Na Da]. destruct (si_nb _ _ S1 b d Hb) as [Nb Db]. rewrite Na, Nb.
    pose proof (wf_nb _ _ (si_wf _ _ S1)) as Wn.
    destruct (nb s1 a d) as [n1|] eqn:En1; cbn [option_map].
    - destruct (nb s1 b d) as [n2|] eqn:En2; cbn [option_map].
      + destruct (unify_fuel f 1 s1 n1 n2) as [s2|] eqn:Eu; [|discriminate]. intros Ht.
        destruct (IH s1 s1' n1 n2 s2 S1) as (Ln & s2' & Eu' & S2); auto; try (eapply Wn; eassumption). rewrite Eu'.
        destruct (IHd s2 s2' t1 S2) as (Lt & t' & Et & St); auto; try lia; [intros; apply Hds; right; auto|]. split; [lia|eauto].
      + intros Ht. apply IHd; auto. intros; apply Hds; right; auto.
    - intros Ht. destruct (IHd (set_nb s1 a d (nb s1 b d)) (set_nb s1' (r a) d (option_map r (nb s1 b d))) t1) as (Lt & t' & Et & St); auto.
      + apply sim_set_nb; auto. intros x Hx. split; auto. eapply Wn; eauto.
      + intros; apply Hds; right; auto.
      + split; auto. eauto. }
  pose proof (find_lt 1 s c1 (si_wf _ _ S) L1) as F1. pose proof (find_lt 1 s c2 (si_wf _ _ S) L2) as F2.
  destruct (Nat.ltb_spec (find s c2) (find s c1)) as [Hlt|Hlt]; intros Ht.
  - destruct (L (find s c2) (find s c1) K2 K1 (seq 0 (2 * 1)) (set_id s (find s c1) (find s c2)) (set_id s' (r (find s c1)) (r (find s c2))) t) as (Lt & t' & Et & St); rewrite ?len_set_id in *; auto.
    + apply sim_set_id; auto using D2_D.
    + intros d Hd. apply in_seq in Hd. lia.
    + eauto.
  - destruct (L (find s c1) (find s c2) K1 K2 (seq 0 (2 * 1)) (set_id s (find s c2) (find s c1)) (set_id s' (r (find s c2)) (r (find s c1))) t) as (Lt & t' & Et & St); rewrite ?len_set_id in *; auto.
    + apply sim_set_id; auto using D2_D. lia.
    + intros d Hd. apply in_seq in Hd. lia.
    + eauto.
Qed.
Lemma unify_fuel_mono : forall f ng s c1 c2 t, unify_fuel f ng s c1 c2 = Some t -> forall g, f <= g -> unify_fuel g ng s c1 c2 = Some t.
Proof.
  induction f as [|f IH]; intros ng s c1 c2 t; [discriminate|]. intros H [|g] Hg; [lia|]. revert H. cbn [unify_fuel]. destruct (_ =? _); auto.
  destruct (if find s c2 <? find s c1 then _ else _) as [a b]. generalize (set_id s b a). generalize (seq 0 (2 * ng)). induction l as [|d l IHl]; intros s1; cbn [loopM]; auto.
  destruct (nb s1 a d) as [n1|]; [|apply IHl]. destruct (nb s1 b d) as [n2|]; [|apply IHl]. destruct (unify_fuel f ng s1 n1 n2) as [s2|] eqn:E; [|discriminate]. rewrite (IH _ _ _ _ _ E g) by lia. apply IHl.
Qed.
Lemma unify1_sim s s' c1 c2 t : Sim s s' -> D c1 -> D c2 -> c1 < length (ids s) -> c2 < length (ids s) -> unify 1 s c1 c2 = Some t ->
  length (ids t) = length (ids s) /\ exists t', unify 1 s' (r c1) (r c2) = Some t' /\ Sim t t'.
Proof.
  unfold unify. intros S H1 H2 L1 L2 E. destruct (unify_sim _ s s' c1 c2 t S H1 H2 L1 L2 E) as (L & t' & E' & S'). split; auto. exists t'. split; auto.
  apply (unify_fuel_mono _ _ _ _ _ _ E'). rewrite (si_len _ _ S). lia.
Qed.
Lemma follow_sim s s' c d : Sim s s' -> D c -> c < length (ids s) -> d < 2 ->
  Sim (fst (follow 1 s c d)) (fst (follow 1 s' (r c) d)) /\ snd (follow 1 s' (r c) d) = r (snd (follow 1 s c d)) /\ D (snd (follow 1 s c d)) /\
  snd (follow 1 s c d) < length (ids (fst (follow 1 s c d))) /\ length (ids s) <= length (ids (fst (follow 1 s c d))).
Proof.
  intros S Hc Hl Hd. unfold follow. destruct (find_sim s s' S c Hc Hl) as [E K]. rewrite E. destruct (si_nb _ _ S _ d K) as [N Dn]. rewrite N.
  pose proof (find_lt 1 s c (si_wf _ _ S) Hl) as Fl. pose proof (si_33 _ _ S) as H33.
  destruct (nb s (find s c) d) as [x|] eqn:En; cbn [option_map fst snd].
  - pose proof (wf_nb _ _ (si_wf _ _ S) _ _ _ En) as (_ & _ & Hx). destruct (find_sim s s' S x (Dn x eq_refl) Hx) as [Ex Kx]. split; auto. split; auto. split; auto using D2_D. split; auto. apply (find_lt 1); auto. apply S.
  - assert (El : length (ids s') = r (length (ids s))). { rewrite (si_len _ _ S). unfold rho. destruct (Nat.ltb_spec (length (ids s)) 25); lia. }
    rewrite El. split; [|rewrite len_set_nb, len_new; split; [auto|split; [unfold D; lia|lia]]].
    change (Some (r (length (ids s)))) with (option_map r (Some (length (ids s)))). apply sim_set_nb; auto; rewrite ?len_new.
    + apply sim_new; auto.
    + lia.
    + intros x [= <-]. split; [lia|]. unfold D; lia.
Qed.
Lemma follow_loop_sim : forall ds s s' c, Sim s s' -> D c -> c < length (ids s) -> (forall d, In d ds -> d < 2) ->
  Sim (fst (follow_loop 1 ds s c)) (fst (follow_loop 1 ds s' (r c))) /\ snd (follow_loop 1 ds s' (r c)) = r (snd (follow_loop 1 ds s c)) /\ D (snd (follow_loop 1 ds s c)) /\
  snd (follow_loop 1 ds s c) < length (ids (fst (follow_loop 1 ds s c))) /\ length (ids s) <= length (ids (fst (follow_loop 1 ds s c))).
Proof.
  induction ds as [|d ds IH]; intros s s' c S Hc Hl Hds; cbn [follow_loop]; [cbn; auto|].
  destruct (follow_sim s s' c d S Hc Hl) as (A1 & A2 & A3 & A4 & A5); [apply Hds; left; auto|].
  destruct (follow 1 s c d) as [s1 c1]. destruct (follow 1 s' (r c) d) as [s1' c1']. cbn [fst snd] in *. subst c1'.
  destruct (IH s1 s1' c1 A1 A3 A4) as (B1 & B2 & B3 & B4 & B5); [intros; apply Hds; right; auto|]. split; auto. split; auto. split; auto. split; auto. lia.
Qed.
Lemma trace_sim s s' c w t : Sim s s' -> D c -> c < length (ids s) -> (forall d, In d w -> d < 2) -> trace 1 c s w = Some t ->
  length (ids s) <= length (ids t) /\ exists t', trace 1 (r c) s' w = Some t' /\ Sim t t'.
Proof.
  intros S Hc Hl Hw. unfold trace, follow_path. destruct (find_sim s s' S c Hc Hl) as [E K]. rewrite E. pose proof (find_lt 1 s c (si_wf _ _ S) Hl) as Fl.
  destruct (follow_loop_sim (rev w) s s' (find s c) S (D2_D _ K) Fl) as (A1 & A2 & A3 & A4 & A5); [intros d Hd; apply Hw, in_rev; auto|].
  destruct (follow_loop 1 (rev w) s (find s c)) as [s1 e]. destruct (follow_loop 1 (rev w) s' (r (find s c))) as [s1' e']. cbn [fst snd] in *. subst e'. intros Hu.
  destruct (unify1_sim s1 s1' e c t A1 A3 Hc A4) as (L & t' & E' & S'); auto; [lia|]. split; [lia|eauto].
Qed.
Lemma traces_sim c : D c -> forall ws s s' t, Sim s s' -> c < length (ids s) -> (forall w d, In w ws -> In d w -> d < 2) -> loopM (trace 1 c) ws s = Some t ->
  exists t', loopM (trace 1 (r c)) ws s' = Some t' /\ Sim t t'.
Proof.
  intros Hc. induction ws as [|w ws IH]; intros s s' t S Hl Hw; cbn [loopM]; [intros [= <-]; eauto|].
  destruct (trace 1 c s w) as [s1|] eqn:E; [|discriminate]. destruct (trace_sim s s' c w s1 S Hc Hl) as (L & s1' & E' & S1); auto; [intros; apply (Hw w); auto; left; auto|].
  rewrite E'. intros Ht. apply (IH s1 s1'); auto; [lia|]. intros w' d Hw' Hd. apply (Hw w' d); auto. right; auto.
Qed.
End Shift.

Definition div_rels : list (list nat) := [[0;1;1;0;1;1];[0;0;1]].
Definition frels := full_rels 1 div_rels.
(* the state when the loop reaches coset 33 *)
Fixpoint at_visit (m : nat) (s : sg) (t : nat) : option sg :=
  match m with
  | 0 => Some s
  | S m' => if t <? length (ids s) then if find s t =? t then match loopM (trace 1 t) frels s with None => None | Some s' => at_visit m' s' (S t) end else at_visit m' s (S t) else None
  end.
Lemma at_visit_visit m : forall s t s' f, at_visit m s t = Some s' -> visit (m + f) 1 frels s t = visit f 1 frels s' (m + t).
Proof.
  induction m as [|m IH]; intros s t s' f; cbn [at_visit Nat.add visit]; [intros [= <-]; auto|]. destruct (_ <? _); [|discriminate].
  replace (S (m + t)) with (m + S t) by lia. destruct (_ =? _); [|apply IH]. destruct (loopM _ _ _); [|discriminate]. apply IH.
Qed.
Definition st0 : sg := new_coset 1 (mkSG [] []).
Definition S0 : sg := Eval vm_compute in match at_visit 33 st0 0 with Some s => s | None => st0 end.
Definition T0 : sg := Eval vm_compute in match loopM (trace 1 33) frels S0 with Some s => s | None => st0 end.
Lemma S0_eq : at_visit 33 st0 0 = Some S0. Proof. vm_compute. reflexivity. Qed.
Lemma T0_eq : loopM (trace 1 33) frels S0 = Some T0. Proof. vm_compute. reflexivity. Qed.
Lemma frels_ok : forall w, In w frels -> word 1 w.
Proof. intros w Hw d Hd. cbn in Hw. repeat (destruct Hw as [<-|Hw]; [cbn in Hd; lia|]). destruct Hw. Qed.
Lemma wf_st0 : wf 1 st0.
Proof. apply wf_new. constructor; cbn; try lia. intros i d x. unfold nb. destruct i, d; cbn; discriminate. Qed.
Lemma wf_at m : forall s t s', wf 1 s -> at_visit m s t = Some s' -> wf 1 s'.
Proof.
  induction m as [|m IH]; intros s t s' W; cbn [at_visit]; [intros [= <-]; auto|]. destruct (Nat.ltb_spec t (length (ids s))); [|discriminate]. destruct (_ =? _); [|apply IH; auto].
  destruct (traces_spec 1 div_rels [] frels s t W H frels_ok) as (s1 & E & W1 & _). rewrite E. apply IH; auto.
Qed.
Lemma wf_S0 : wf 1 S0. Proof. exact (wf_at _ _ _ _ wf_st0 S0_eq). Qed.
Lemma wf_T0 : wf 1 T0.
Proof. destruct (traces_spec 1 div_rels [] frels S0 33 wf_S0) as (s1 & E & W1 & _); [cbn; lia|apply frels_ok|]. rewrite T0_eq in E. injection E as <-. exact W1. Qed.
Definition Db (c : nat) : bool := (c =? 0) || (c =? 1) || (c =? 2) || (c =? 9) || (c =? 25) || (33 <=? c).
Lemma Db_iff c : Db c = true <-> D c.
Proof. unfold Db, D. rewrite !orb_true_iff, !Nat.eqb_eq, Nat.leb_le. tauto. Qed.
Definition oeqb (x y : option nat) : bool := match x, y with None, None => true | Some a, Some b => a =? b | _, _ => false end.
Lemma oeqb_eq x y : oeqb x y = true -> x = y.
Proof. destruct x, y; cbn; try discriminate; auto. intros H. apply Nat.eqb_eq in H. subst; auto. Qed.
Lemma sim_concrete k s s' : wf 1 s -> wf 1 s' -> length (ids s') = length (ids s) + 8 * k -> 33 <= length (ids s) ->
  forallb (fun c => implb (Db c) ((idOf s' (rho k c) =? rho k (idOf s c)) && Db (idOf s c) && implb (idOf s c =? c) ((c =? 0) || (33 <=? c)))) (seq 0 (length (ids s))) = true ->
  forallb (fun c => implb ((c =? 0) || (33 <=? c)) (forallb (fun d => oeqb (nb s' (rho k c) d) (option_map (rho k) (nb s c d)) && match nb s c d with Some x => Db x | None => true end) [0;1])) (seq 0 (length (ids s))) = true ->
  Sim k s s'.
Proof.
  intros W W' L L33 H1 H2. rewrite forallb_forall in H1, H2.
  assert (G : forall c, D c -> c < length (ids s) -> (idOf s' (rho k c) =? rho k (idOf s c)) && Db (idOf s c) && implb (idOf s c =? c) ((c =? 0) || (33 <=? c)) = true).
  { intros c Hc Hl. specialize (H1 c). rewrite (proj2 (Db_iff c) Hc) in H1. apply H1. apply in_seq. lia. }
  constructor; auto.
  - intros c Hc Hl. specialize (G c Hc Hl). apply andb_true_iff in G as [G _]. apply andb_true_iff in G as [G1 G2]. apply Nat.eqb_eq in G1. apply Db_iff in G2. auto.
  - intros c d Hc. destruct (Nat.lt_ge_cases c (length (ids s))) as [Hl|Hl]; [destruct (Nat.lt_ge_cases d 2) as [Hd|Hd]|].
    + specialize (H2 c). replace ((c =? 0) || (33 <=? c)) with true in H2 by (symmetry; apply orb_true_iff; rewrite Nat.eqb_eq, Nat.leb_le; exact Hc). cbn [implb] in H2.
      rewrite forallb_forall in H2 by (apply in_seq; lia). specialize (H2 ltac:(apply in_seq; lia) d). assert (Hd' : In d [0;1]) by (cbn; lia). apply H2 in Hd'. apply andb_true_iff in Hd' as [A B]. apply oeqb_eq in A. split; auto.
      intros x Hx. rewrite Hx in B. apply Db_iff; auto.
    + assert (N : nb s c d = None). { destruct (nb s c d) eqn:E; auto. apply (wf_nb _ _ W) in E. lia. }
      assert (N' : nb s' (rho k c) d = None). { destruct (nb s' (rho k c) d) eqn:E; auto. apply (wf_nb _ _ W') in E. lia. }
      rewrite N, N'. split; [auto|discriminate].
    + assert (N : nb s c d = None). { destruct (nb s c d) eqn:E; auto. apply (wf_nb _ _ W) in E. lia. }
      assert (N' : nb s' (rho k c) d = None). { destruct (nb s' (rho k c) d) eqn:E; auto. apply (wf_nb _ _ W') in E. unfold rho in E. destruct (Nat.ltb_spec c 25); lia. }
      rewrite N, N'. split; [auto|discriminate].
  - intros c Hc Hl E. specialize (G c Hc Hl). rewrite E, Nat.eqb_refl in G. apply andb_true_iff in G as [_ G]. cbn [implb] in G. apply orb_true_iff in G. rewrite Nat.eqb_eq, Nat.leb_le in G. exact G.
Qed.
Lemma sim_00 : Sim 0 S0 S0.
Proof. apply sim_concrete; try apply wf_S0; try reflexivity; cbn; lia. Qed.
Lemma sim_01 : Sim 1 S0 T0.
Proof. apply sim_concrete; try apply wf_S0; try apply wf_T0; try reflexivity; cbn; lia. Qed.
Lemma rho_comp k c : D c -> rho k (rho 1 c) = rho (S k) c.
Proof. intros H. unfold rho. destruct (Nat.ltb_spec c 25); [destruct (Nat.ltb_spec c 25); lia|]. destruct (Nat.ltb_spec (c + 8 * 1) 25); lia. Qed.
Lemma D_rho c : D c -> D (rho 1 c). Proof. unfold D, rho. destruct (Nat.ltb_spec c 25); lia. Qed.
Lemma D2_rho c : D2 c -> D2 (rho 1 c). Proof. unfold D2, rho. destruct (Nat.ltb_spec c 25); lia. Qed.
Lemma sim_comp k s : Sim k T0 s -> Sim (S k) S0 s.
Proof.
  intros S. pose proof sim_01 as Q. constructor; try apply wf_S0; try apply S.
  - rewrite (si_len _ _ _ S), (si_len _ _ _ Q). lia.
  - apply Q.
  - intros c Hc Hl. destruct (si_id _ _ _ Q c Hc Hl) as [E1 E2]. destruct (si_id _ _ _ S (rho 1 c) (D_rho _ Hc)) as [F1 F2]; [apply (rho_len 1 c S0 T0 Q Hl)|].
    rewrite <- rho_comp by auto. rewrite F1, E1, rho_comp by auto. auto.
  - intros c d Hc. destruct (si_nb _ _ _ Q c d Hc) as [E1 E2]. destruct (si_nb _ _ _ S (rho 1 c) d (D2_rho _ Hc)) as [F1 F2]. rewrite <- rho_comp by (apply D2_D; auto). rewrite F1, E1. split; auto.
    destruct (nb S0 c d) as [x|]; cbn [option_map]; auto. rewrite rho_comp; auto.
  - apply Q.
Qed.
(* eight iterations from coset 33+8k *)
Lemma step k s : Sim k S0 s -> exists s', at_visit 8 s (33 + 8 * k) = Some s' /\ Sim (S k) S0 s'.
Proof.
  intros S. assert (E33 : rho k 33 = 33 + 8 * k) by reflexivity.
  assert (D33 : D 33) by (unfold D; lia). assert (L33 : 33 < length (ids S0)) by (cbn; lia).
  destruct (traces_sim k 33 D33 frels S0 s T0 S L33) as (s' & Es & St); [intros w d Hw Hd; pose proof (frels_ok w Hw d Hd); lia|exact T0_eq|].
  exists s'. split; [|apply sim_comp; auto]. rewrite <- E33.
  pose proof (si_len _ _ _ S) as L1. pose proof (si_len _ _ _ St) as L2. change (length (ids S0)) with 40 in L1. change (length (ids T0)) with 48 in L2.
  assert (F : find s (rho k 33) = rho k 33). { destruct (find_sim k S0 s S 33 D33 L33) as [-> _]. reflexivity. }
  assert (dead : forall c, 33 < c < 41 -> (find s' (Datatypes.S (rho k 33) + (c - 34)) =? Datatypes.S (rho k 33) + (c - 34)) = false).
  { intros c Hc. replace (Datatypes.S (rho k 33) + (c - 34)) with (rho k c) by (rewrite E33; unfold rho; destruct (Nat.ltb_spec c 25); lia).
    assert (HD : D c) by (unfold D; lia). assert (HL : c < length (ids T0)) by (cbn; lia). destruct (find_sim k T0 s' St c HD HL) as [-> _]. rewrite rho_eqb.
    apply Nat.eqb_neq. assert (Hc' : c = 34 \/ c = 35 \/ c = 36 \/ c = 37 \/ c = 38 \/ c = 39 \/ c = 40) by lia. repeat (destruct Hc' as [->|Hc']; [vm_compute; discriminate|]). subst c. vm_compute; discriminate. }
  cbn [at_visit]. destruct (Nat.ltb_spec (rho k 33) (length (ids s))); [|lia]. rewrite F, Nat.eqb_refl, Es.
  assert (Hlen : forall j, j < 8 -> (j + rho k 33 <? length (ids s')) = true) by (intros j Hj; apply Nat.ltb_lt; lia).
  repeat match goal with |- context [?x <? length (ids s')] => destruct (Nat.ltb_spec x (length (ids s'))); [|exfalso; lia] end.
  pose proof (dead 34 ltac:(lia)) as d1. pose proof (dead 35 ltac:(lia)) as d2. pose proof (dead 36 ltac:(lia)) as d3. pose proof (dead 37 ltac:(lia)) as d4. pose proof (dead 38 ltac:(lia)) as d5. pose proof (dead 39 ltac:(lia)) as d6. pose proof (dead 40 ltac:(lia)) as d7.
  cbn [Nat.sub] in *. rewrite !Nat.add_succ_r, Nat.add_0_r in *. rewrite d1, d2, d3, d4, d5, d6, d7. reflexivity.
Qed.
Lemma visit_fuel_none m : forall s t s', at_visit m s t = Some s' -> forall f, f <= m -> visit f 1 frels s t = None.
Proof.
  induction m as [|m IH]; intros s t s' H f Hf; [replace f with 0 by lia; reflexivity|]. destruct f as [|f]; [reflexivity|]. revert H. cbn [at_visit visit]. destruct (_ <? _); [|discriminate].
  destruct (_ =? _); [|intros H; apply (IH _ _ _ H); lia]. destruct (loopM _ _ _); [|discriminate]. intros H; apply (IH _ _ _ H); lia.
Qed.
Lemma at_visit_app m m' : forall s t s' s'', at_visit m s t = Some s' -> at_visit m' s' (m + t) = Some s'' -> at_visit (m + m') s t = Some s''.
Proof.
  induction m as [|m IH]; intros s t s' s''; cbn [at_visit Nat.add]; [intros [= <-]; auto|]. destruct (_ <? _); [|discriminate]. replace (S (m + t)) with (m + S t) by lia.
  destruct (_ =? _); [|apply IH]. destruct (loopM _ _ _); [|discriminate]. apply IH.
Qed.
Lemma reach k : exists s, at_visit (33 + 8 * k) st0 0 = Some s /\ Sim k S0 s.
Proof.
  induction k as [|k (s & E & S)]; [exists S0; split; [apply S0_eq|apply sim_00]|]. destruct (step k s S) as (s' & E' & S'). exists s'. split; auto.
  replace (33 + 8 * Datatypes.S k) with ((33 + 8 * k) + 8) by lia. apply (at_visit_app _ _ _ _ _ _ E). rewrite Nat.add_0_r. exact E'.
Qed.
Theorem diverges fuel : enumerate_cosets fuel 1 div_rels [] = None.
Proof.
  unfold enumerate_cosets. change (words_ok 1 (full_rels 1 div_rels)) with true. cbn [words_ok forallb andb negb loopM]. fold frels. fold st0.
  destruct (reach fuel) as (s & E & _). rewrite (visit_fuel_none _ _ _ _ E fuel) by lia. reflexivity.
Qed.
(* the group presented is trivial: from x x x^-1 = 1 *)
Lemma trivial_gen : coset_eq 1 div_rels [] [0] [].
Proof.
  apply ce_trans with [0;0;1]; [|apply (ce_rel 1 div_rels [] [0;0;1] []); cbn; auto].
  apply ce_left. apply ce_sym. apply (ce_cancel 1 div_rels [] 0 []). lia.
Qed.
