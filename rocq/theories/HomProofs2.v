From Coq Require Import List Arith Lia Bool Sorting.Sorted Sorting.Permutation.
From Verif Require Import GroupSpec GroupModel GroupProofs GroupProofs2 TableSpec TableModel TableProofs TableProofs2 TableProofs3 TableProofs4 HomModel HomProofs.
Import ListNotations.

Lemma list_eqb_iff a : forall b, list_eqb a b = true <-> a = b.
Proof.
  induction a as [|x a IH]; intros [|y b]; cbn [list_eqb]; split; try discriminate; auto.
  - rewrite andb_true_iff, Nat.eqb_eq, IH. intros [-> ->]. auto.
  - intros [= -> ->]. rewrite andb_true_iff, Nat.eqb_eq, IH. auto.
Qed.
Lemma profile_eqb_iff p q : profile_eqb p q = true <-> p = q.
Proof.
  unfold profile_eqb. rewrite andb_true_iff, Nat.eqb_eq, list_eqb_iff. destruct p, q; cbn. split; [intros [-> ->]; auto|intros [= -> ->]; auto].
Qed.
(* ---------- mixed radix counters *)
Definition vc (opts : list (list nat)) (c : list nat) : Prop := Forall2 (fun o i => i < length o) opts c.
Fixpoint cval (opts : list (list nat)) (c : list nat) : nat := match opts, c with o :: os, i :: cs => i + length o * cval os cs | _, _ => 0 end.
Definition cprod (opts : list (list nat)) : nat := fold_right (fun o a => length o * a) 1 opts.
Lemma cprod_fold opts : forall a, fold_left (fun a o => a * length o) opts a = a * cprod opts.
Proof. induction opts as [|o os IH]; intros a; cbn; [lia|]. rewrite IH. unfold cprod. lia. Qed.
Lemma cval_lt opts c : vc opts c -> cval opts c < cprod opts.
Proof. intros H. induction H as [|o i os cs Hi H IH]; [cbn; lia|]. change (cprod (o :: os)) with (length o * cprod os). cbn [cval]. nia. Qed.
Lemma cval_inj opts c : vc opts c -> forall c', vc opts c' -> cval opts c = cval opts c' -> c = c'.
Proof.
  intros H. induction H as [|o i os cs Hi H IH]; intros c' H' E; inversion H' as [|o' i' os' cs' Hi' H'']; subst; auto. cbn [cval] in E.
  assert (Hl : length o <> 0) by lia. assert (i = i' /\ cval os cs = cval os cs').
  { split.
    - apply (f_equal (fun z => z mod length o)) in E. rewrite !(Nat.mul_comm (length o)), !Nat.mod_add, !Nat.mod_small in E by auto. auto.
    - apply (f_equal (fun z => z / length o)) in E. rewrite !(Nat.mul_comm (length o)), !Nat.div_add, !Nat.div_small in E by auto. auto. }
  destruct H0 as [-> E']. f_equal. auto.
Qed.
Lemma next_counter_spec opts c : vc opts c -> match next_counter opts c with Some c' => vc opts c' /\ cval opts c' = S (cval opts c) | None => S (cval opts c) = cprod opts end.
Proof.
  intros H. induction H as [|o i os cs Hi H IH]; [reflexivity|]. cbn [next_counter]. destruct (Nat.eqb_spec (S i) (length o)) as [E|E].
  - destruct (next_counter os cs) as [c'|]; cbn [option_map].
    + destruct IH as [I1 I2]. split; [constructor; auto; lia|]. cbn [cval]. rewrite I2. lia.
    + change (cprod (o :: os)) with (length o * cprod os). cbn [cval]. rewrite <- IH. lia.
  - split; [constructor; auto; lia|]. cbn [cval]. lia.
Qed.
Lemma zeros_vc opts : (forall o, In o opts -> o <> []) -> vc opts (repeat 0 (length opts)) /\ cval opts (repeat 0 (length opts)) = 0.
Proof.
  induction opts as [|o os IH]; intros H; cbn [length repeat]; [split; [constructor|reflexivity]|]. destruct IH as [I1 I2]; [intros; apply H; right; auto|].
  split; [constructor; auto; assert (o <> []) by (apply H; left; auto); destruct o; [contradiction|cbn; lia]|]. cbn [cval]. rewrite I2. lia.
Qed.
Definition ctuple (opts : list (list nat)) (c : list nat) : list nat := map (fun oj => nth (snd oj) (fst oj) 0) (combine opts c).
Lemma ctuple_in opts c : vc opts c -> Forall2 (fun o x => In x o) opts (ctuple opts c).
Proof. intros H. unfold ctuple. induction H as [|o i os cs Hi H IH]; cbn; constructor; auto. apply nth_In; auto. Qed.
Lemma ctuple_ex opts xs : Forall2 (fun o x => In x o) opts xs -> exists c, vc opts c /\ ctuple opts c = xs.
Proof.
  intros H. induction H as [|o x os xs Hx H (c & I1 & I2)]; [exists []; split; [constructor|reflexivity]|]. apply (In_nth _ _ 0) in Hx as (i & Hi & Ei).
  exists (i :: c). split; [constructor; auto|]. unfold ctuple in *. cbn. congruence.
Qed.
Lemma Forall2_length' {A B} (R : A -> B -> Prop) l l' : Forall2 R l l' -> length l = length l'.
Proof. induction 1; cbn; auto. Qed.

Section Iso.
Variables (d r : table).
Hypotheses (Hd : vt d) (Hr : vt r).
Let Gd : tgroup d := vt_group d Hd.
Let Gr : tgroup r := vt_group r Hr.
Definition iso (f g : nat -> nat) : Prop := thom d r f /\ mutually_inverse (fun x => x < tn d) (fun y => y < tn r) f g.
Lemma hom_pow f x k : thom d r f -> x < tn d -> f (gpow (tident d) (mulT d) x k) = gpow (tident r) (mulT r) (f x) k.
Proof.
  intros Hf Hx. induction k as [|k IH]; cbn [gpow]; [apply (hom_ident d r); auto|]. rewrite (proj2 Hf), IH; auto. apply (gpow_V _ _ _ _ Gd); auto.
Qed.
Lemma order_of_spec t x : vt t -> x < tn t -> 1 <= order_of t x <= tn t /\ gpow (tident t) (mulT t) x (order_of t x) = tident t /\ forall j, 1 <= j < order_of t x -> gpow (tident t) (mulT t) x j <> tident t.
Proof. intros Ht Hx. destruct (order_spec t Ht x (tn t) Hx (le_n _)) as (k & E & H). unfold order_of. rewrite E. exact H. Qed.
Lemma iso_order f g x : iso f g -> x < tn d -> order_of r (f x) = order_of d x.
Proof.
  intros [Hf [M1 M2]] Hx. destruct (order_of_spec d x Hd Hx) as (A1 & A2 & A3). destruct (order_of_spec r (f x) Hr (proj1 Hf x Hx)) as (B1 & B2 & B3).
  assert (Hiff : forall k, gpow (tident r) (mulT r) (f x) k = tident r <-> gpow (tident d) (mulT d) x k = tident d).
  { intros k. rewrite <- (hom_pow f x k Hf Hx), <- (hom_ident d r Hd Hr f Hf). split; [|intros ->; auto]. intros E. apply (f_equal g) in E.
    rewrite (proj2 (M1 _ (gpow_V _ _ _ _ Gd x k Hx))), (proj2 (M1 _ (Ge d Hd))) in E. auto. }
  destruct (Nat.lt_trichotomy (order_of r (f x)) (order_of d x)) as [L|[L|L]]; auto; exfalso.
  - apply (A3 (order_of r (f x))); [lia|]. apply Hiff; auto.
  - apply (B3 (order_of d x)); [lia|]. apply Hiff; auto.
Qed.
Lemma iso_profile f g x : iso f g -> x < tn d -> profile r (f x) = profile d x.
Proof.
  intros I Hx. pose proof I as [Hf [M1 M2]]. unfold profile. f_equal; [apply (iso_order f g); auto|]. apply asc_eq; try apply to_set_spec.
  intros k. rewrite !(proj2 (to_set_spec _)), !in_map_iff. split.
  - intros (y & <- & Hy). apply in_seq in Hy. destruct (M2 y) as [Q1 Q2]; [lia|]. exists (g y). split; [|apply in_seq; lia]. rewrite <- Q2 at 2. rewrite <- (proj2 Hf) by auto.
    symmetry. apply (iso_order f g); auto. apply Gop; auto.
  - intros (y & <- & Hy). apply in_seq in Hy. assert (Hyd : y < tn d) by lia. exists (f y). split; [|assert (f y < tn r) by (apply Hf; auto); apply in_seq; lia]. rewrite <- (proj2 Hf) by auto. apply (iso_order f g); auto. apply Gop; auto.
Qed.
Definition info_ok (i : geninfo) : Prop := genset_ok d (gi_gs i) /\ gi_quant i = cprod (gi_opts i) /\ length (gi_opts i) = length (gs_gens (gi_gs i)) /\
  (forall o, In o (gi_opts i) -> o <> [] /\ forall y, In y o -> y < tn r) /\
  (forall k y, k < length (gi_opts i) -> y < tn r -> profile r y = profile d (nth k (gs_gens (gi_gs i)) 0) -> In y (nth k (gi_opts i) [])).
Lemma info_spec pick : choice pick -> exists o, find_new_gen_info pick d r = Some o /\ match o with Some i => info_ok i | None => ~ exists f g, iso f g end.
Proof.
  intros Hp. unfold find_new_gen_info. destruct (generating_set_spec d Hd pick Hp) as (s & -> & Hs). pose proof Hs as (S1 & S2 & S3 & S4).
  assert (Hof : forall p o, options_for r p = Some o -> o <> [] /\ forall y, In y o <-> y < tn r /\ profile r y = p).
  { intros p o. unfold options_for. destruct (filter _ _) as [|y0 l] eqn:E; [discriminate|]. intros [= <-]. rewrite <- E. split; [rewrite E; discriminate|]. intros y. rewrite filter_In, profile_eqb_iff. unfold elemsT. rewrite in_seq. intuition lia. }
  assert (Hon : forall p, options_for r p = None -> forall y, y < tn r -> profile r y <> p).
  { intros p. unfold options_for. destruct (filter _ _) as [|y0 l] eqn:E; [|discriminate]. intros _ y Hy Q. assert (Hin : In y (filter (fun y => profile_eqb (profile r y) p) (elemsT r))).
    { apply filter_In. rewrite profile_eqb_iff. split; auto. apply in_seq. lia. } rewrite E in Hin. destruct Hin. }
  destruct (collect (map (fun g => options_for r (profile d g)) (gs_gens s))) as [opts|] eqn:E.
  - exists (Some (mkInfo s opts (fold_left (fun a o => a * length o) opts 1))). split; auto. unfold info_ok. cbn [gi_gs gi_opts gi_quant].
    assert (Hc : Forall2 (fun g o => options_for r (profile d g) = Some o) (gs_gens s) opts).
    { clear - E. revert opts E. induction (gs_gens s) as [|g gs IH]; intros opts E; cbn in E; [inversion E; constructor|]. destruct (options_for r (profile d g)) as [o|] eqn:Eo; [|discriminate].
      destruct (collect _) as [l|]; [|discriminate]. inversion E; subst. constructor; auto. }
    split; auto. split; [rewrite cprod_fold; lia|]. split; [symmetry; apply (Forall2_length' _ _ _ Hc)|]. split.
    + intros o Ho. clear - Hc Hof Ho. induction Hc as [|g o' gs os Hg Hc IH]; [destruct Ho|]. destruct Ho as [<-|Ho]; auto. destruct (Hof _ _ Hg) as [Q1 Q2]. split; auto. intros y Hy. apply Q2; auto.
    + intros k y Hk Hy Hpr. clear - Hc Hof Hk Hy Hpr. revert k Hk Hpr. induction Hc as [|g o' gs os Hg Hc IH]; intros k Hk Hpr; [cbn in Hk; lia|]. destruct k as [|k]; cbn [nth] in *; [apply (Hof _ _ Hg); auto|]. apply IH; auto. cbn in Hk. lia.
  - exists None. split; auto. intros (f & g & I).
    assert (Hex : exists x, In x (gs_gens s) /\ options_for r (profile d x) = None).
    { clear - E. induction (gs_gens s) as [|x gs IH]; cbn in E; [discriminate|]. destruct (options_for r (profile d x)) as [o|] eqn:Eo; [|exists x; split; [left|]; auto].
      destruct (collect _) as [l|]; [discriminate|]. destruct IH as (x' & Q1 & Q2); auto. exists x'. split; [right|]; auto. }
    destruct Hex as (x & Hx & Ho). apply (Hon _ Ho (f x)); [apply I; auto|]. apply (iso_profile f g); auto.
Qed.
Definition bad (i : geninfo) (c : list nat) : Prop := ~ exists f g, iso f g /\ map f (gs_gens (gi_gs i)) = ctuple (gi_opts i) c.
Definition result_ok (o : option (list nat * list nat)) : Prop := match o with
  | Some (f, g) => length f = tn d /\ length g = tn r /\ iso (fun x => nth x f 0) (fun y => nth y g 0)
  | None => ~ exists f g, iso f g end.
Lemma all_bad i : info_ok i -> (forall c, vc (gi_opts i) c -> bad i c) -> ~ exists f g, iso f g.
Proof.
  intros (H1 & H2 & H3 & H4 & H5) Hb (f & g & I). pose proof H1 as (S1 & S2 & S3 & S4).
  destruct (ctuple_ex (gi_opts i) (map f (gs_gens (gi_gs i)))) as (c & C1 & C2).
  - assert (Gn : forall opts gens, length opts = length gens -> (forall k, k < length opts -> In (f (nth k gens 0)) (nth k opts [])) -> Forall2 (fun o x => In x o) opts (map f gens)).
    { induction opts as [|o os IH]; intros [|x gs] Hl Hk; cbn in Hl; try discriminate; cbn [map]; constructor.
      - apply (Hk 0). cbn; lia.
      - apply IH; [lia|]. intros k Hk'. apply (Hk (S k)). cbn; lia. }
    apply Gn; auto. intros k Hk. assert (Hgk : nth k (gs_gens (gi_gs i)) 0 < tn d) by (apply S1, nth_In; lia). apply H5; auto; [apply I; auto|apply (iso_profile f g); auto].
  - apply (Hb c C1). exists f, g. auto.
Qed.
Lemma iso_loop_spec picks (Hp : forall k, choice (picks k)) fuel : forall k info counter checked, info_ok info -> vc (gi_opts info) counter -> cval (gi_opts info) counter = checked ->
  (forall c, vc (gi_opts info) c -> cval (gi_opts info) c < checked -> bad info c) -> gi_quant info - checked < fuel ->
  exists o, iso_loop fuel picks d r k info counter checked = Some o /\ result_ok o.
Proof.
  induction fuel as [|fuel IH]; intros k info counter checked Hi Hv Hc Hb Hf; [lia|]. cbn [iso_loop].
  pose proof Hi as (H1 & H2 & H3 & H4 & H5). pose proof H1 as (S1 & S2 & S3 & S4). pose proof (cval_lt _ _ Hv) as Hlt.
  set (check := fun k : nat =>
        match generated_homomorphism d (gi_gs info) (map (fun oj => nth (snd oj) (fst oj) 0) (combine (gi_opts info) counter)) r with
        | None => None
        | Some f =>
            match (match f with None => Some None | Some f => to_isomorphism d r f end) with
            | None => None
            | Some (Some iso) => Some (Some iso)
            | Some None =>
                match next_counter (gi_opts info) counter with
                | None => Some None
                | Some c' => iso_loop fuel picks d r k info c' (checked + 1)
                end
            end
        end).
  match goal with |- exists o, ?X = Some o /\ _ => change X with (if checked mod 128 =? 127 then
        match find_new_gen_info (picks k) d r with
        | None => None
        | Some None => Some None
        | Some (Some info') =>
            if gi_quant info' <? gi_quant info - checked
            then iso_loop fuel picks d r (S k) info' (repeat 0 (length (gs_gens (gi_gs info')))) 0
            else check (S k)
        end
      else check k) end.
  assert (Hcheck : forall k, exists o, check k = Some o /\ result_ok o).
  { clear k. intros k. unfold check. change (map (fun oj => nth (snd oj) (fst oj) 0) (combine (gi_opts info) counter)) with (ctuple (gi_opts info) counter).
    pose proof (ctuple_in _ _ Hv) as Hct. pose proof (Forall2_length' _ _ _ Hct) as Hcl.
    assert (Hcin : forall x, In x (ctuple (gi_opts info) counter) -> x < tn r).
    { intros x Hx. assert (exists o, In o (gi_opts info) /\ In x o).
      { clear - Hct Hx. induction Hct as [|o y os ys Hy Hct IH']; [destruct Hx|]. destruct Hx as [<-|Hx]; [exists o; split; [left|]; auto|]. destruct (IH' Hx) as (o' & Q1 & Q2). exists o'. split; [right|]; auto. }
      destruct H as (o & Q1 & Q2). apply (H4 o); auto. }
    destruct (generated_homomorphism_spec d r Hd Hr (gi_gs info) (ctuple (gi_opts info) counter) H1) as (o & -> & Ho); auto; [lia|].
    assert (Hnext : bad info counter -> exists o, match next_counter (gi_opts info) counter with None => Some None | Some c' => iso_loop fuel picks d r k info c' (checked + 1) end = Some o /\ result_ok o).
    { intros Hbc. assert (Hb' : forall c, vc (gi_opts info) c -> cval (gi_opts info) c < checked + 1 -> bad info c).
      { intros c Hvc Hcv. destruct (Nat.eq_dec (cval (gi_opts info) c) checked) as [Q|Q]; [|apply Hb; auto; lia]. replace c with counter; auto. apply (cval_inj (gi_opts info)); auto. lia. }
      pose proof (next_counter_spec _ _ Hv) as Hn. destruct (next_counter (gi_opts info) counter) as [c'|].
      - destruct Hn as [N1 N2]. apply IH; auto; lia.
      - exists None. split; auto. cbn [result_ok]. apply (all_bad info); auto. intros c Hvc. apply Hb'; auto. pose proof (cval_lt _ _ Hvc). lia. }
    destruct o as [f|].
    - destruct Ho as (F1 & F2 & F3). destruct (to_isomorphism_spec d r Hd f F1 (proj1 F2)) as (o' & -> & Ho'). destruct o' as [[f' g]|].
      + destruct Ho' as (-> & G1 & G2). exists (Some (f, g)). split; auto. split; auto. split; auto. split; auto.
      + apply Hnext. intros (f0 & g0 & I0 & E0). apply Ho'. exists g0. pose proof I0 as [If [Im1 Im2]].
        assert (Hag : forall x, x < tn d -> nth x f 0 = f0 x).
        { intros x Hx. destruct (S3 x Hx) as [W1 W2]. rewrite <- W2. rewrite (hom_wprod d r Hd Hr f0), (hom_wprod d r Hd Hr (fun x => nth x f 0)) by auto. f_equal. rewrite E0.
          apply (nth_ext _ _ 0 0); [rewrite map_length; lia|]. intros j Hj. rewrite map_length in Hj. rewrite (nth_indep (map _ _) 0 (nth 0 f 0)) by (rewrite map_length; auto). rewrite (map_nth (fun x => nth x f 0)). apply F3. lia. }
        split; [intros x Hx; rewrite Hag by auto; apply Im1; auto|]. intros y Hy. destruct (Im2 y Hy) as [Q1 Q2]. split; auto. rewrite Hag; auto.
    - apply Hnext. intros (f0 & g0 & I0 & E0). apply Ho. exists f0. split; [apply I0|]. intros j Hj. rewrite <- E0. rewrite (nth_indep (map _ _) 0 (f0 0)) by (rewrite map_length; lia). rewrite (map_nth f0). auto. }
  destruct (checked mod 128 =? 127); [|apply Hcheck].
  destruct (info_spec (picks k) (Hp k)) as (o & -> & Ho). destruct o as [info'|]; [|exists None; auto].
  destruct (Nat.ltb_spec (gi_quant info') (gi_quant info - checked)) as [Hq|Hq]; [|apply Hcheck].
  pose proof Ho as (K1 & K2 & K3 & K4 & K5). destruct (zeros_vc (gi_opts info')) as [Z1 Z2]; [intros o Hoo; apply K4; auto|]. rewrite K3 in Z1, Z2.
  apply IH; auto; [|lia]. intros c _ Q. lia.
Qed.
Lemma find_isomorphism_spec picks : (forall k, choice (picks k)) -> exists F, forall fuel, F <= fuel -> exists o, find_isomorphism fuel picks d r = Some o /\ result_ok o.
Proof.
  intros Hp. unfold find_isomorphism. destruct (Nat.eqb_spec (tn d) (tn r)) as [En|En]; cbn [negb].
  - destruct (info_spec (picks 0) (Hp 0)) as (o & -> & Ho). destruct o as [info|]; [|exists 0; intros fuel _; exists None; auto].
    exists (S (gi_quant info)). intros fuel Hf. pose proof Ho as (K1 & K2 & K3 & K4 & K5). destruct (zeros_vc (gi_opts info)) as [Z1 Z2]; [intros o Hoo; apply K4; auto|]. rewrite K3 in Z1, Z2.
    apply iso_loop_spec; auto; [|lia]. intros c _ Q. lia.
  - exists 0. intros fuel _. exists None. split; auto. intros (f & g & If & M1 & M2). apply En.
    assert (Hle : forall a b (F G : nat -> nat), (forall x, x < a -> F x < b /\ G (F x) = x) -> a <= b).
    { clear. intros a b F G H. rewrite <- (seq_length a 0), <- (seq_length b 0), <- (map_length F). apply NoDup_incl_length.
      - assert (Gn : forall m s, s + m <= a -> NoDup (map F (seq s m))).
        { induction m as [|m IH]; intros s Hs; cbn; constructor; [|apply IH; lia]. intros Hin. apply in_map_iff in Hin as (j & E & Hj). apply in_seq in Hj.
          destruct (H j) as [_ Q1]; [lia|]. destruct (H s) as [_ Q2]; [lia|]. rewrite E in Q1. lia. }
        apply Gn. lia.
      - intros y Hy. apply in_map_iff in Hy as (x & <- & Hx). apply in_seq in Hx. apply in_seq. specialize (H x). lia. }
    apply Nat.le_antisymm; [apply (Hle _ _ f g M1)|apply (Hle _ _ g f M2)].
Qed.
End Iso.

(* ---------- all subgroups *)
Section Sub.
Variable N : nat.
Variable close : list nat -> option (list nat).
Variable clo : (nat -> Prop) -> nat -> Prop.      (* the closure operator *)
Hypothesis clo_in : forall (S : nat -> Prop) x, S x -> clo S x.
Hypothesis clo_lt : forall (S : nat -> Prop), (forall x, S x -> x < N) -> forall x, clo S x -> x < N.
Hypothesis clo_min : forall (S T : nat -> Prop), (forall x, S x -> clo T x) -> forall x, clo S x -> clo T x.
Hypothesis close_spec : forall s, (forall x, In x s -> x < N) -> exists r, close s = Some r /\ asc r /\ forall x, In x r <-> clo (fun y => In y s) x.
Variable ord : list (list nat * list nat) -> list (list nat * list nat).
Hypothesis Hord : forall l, Permutation (ord l) l.

Lemma clo_mono (S T : nat -> Prop) : (forall x, S x -> T x) -> forall x, clo S x -> clo T x.
Proof. intros H. apply clo_min. intros x Hx. apply clo_in; auto. Qed.
Definition good (p : list nat * list nat) : Prop := (forall x, In x (snd p) -> x < N) /\ asc (snd p) /\ snd p <> [] /\ asc (fst p) /\ forall x, In x (fst p) <-> clo (fun y => In y (snd p)) x.
Definition found (m : list (list nat * list nat)) (s : list nat) : Prop := exists g, In (s, g) m.
Lemma find_sg_iff s m : find_sg s m = true <-> found m s.
Proof.
  unfold found. induction m as [|[k g] m IH]; cbn [find_sg]; [split; [discriminate|intros [g []]]|]. rewrite orb_true_iff, list_eqb_iff, IH. split.
  - intros [->|[g' Hg]]; [exists g; left; auto|exists g'; right; auto].
  - intros [g' [[= -> ->]|Hg]]; eauto.
Qed.
Definition minv (m : list (list nat * list nat)) : Prop := (forall p, In p m -> good p) /\ NoDup (map fst m).
Lemma minv_snoc m s g : minv m -> good (s, g) -> ~ found m s -> minv (m ++ [(s, g)]).
Proof.
  intros [M1 M2] Hg Hf. split.
  - intros p Hp. apply in_app_iff in Hp as [Hp|[<-|[]]]; auto.
  - rewrite map_app. cbn. apply NoDup_app_iff'. split; auto. split; [repeat constructor; intros []|]. intros x Hx [<-|[]]. apply in_map_iff in Hx as ([s' g'] & Q & Hx). cbn in Q. subst s'. apply Hf. exists g'. auto.
Qed.
Lemma same_closed (S T : nat -> Prop) r r' : asc r -> asc r' -> (forall x, In x r <-> clo S x) -> (forall x, In x r' <-> clo T x) ->
   (forall x, S x -> clo T x) -> (forall x, T x -> clo S x) -> r = r'.
Proof. intros A1 A2 H1 H2 H3 H4. apply asc_eq; auto. intros x. rewrite H1, H2. split; apply clo_min; auto. Qed.
Lemma sg_start_spec xs : forall m dist dn, minv m -> (forall x, In x (dn ++ xs) -> x < N) -> (forall x, In x dist -> x < N) ->
  (forall x, In x dn -> exists y, In y dist /\ (forall z, clo (eq x) z <-> clo (eq y) z)) -> (forall y, In y dist -> exists s, In (s, [y]) m) ->
  (forall p, In p m -> exists y, In y dist /\ p = (fst p, [y])) ->
  exists m' dist', sg_start close xs m dist = Some (m', dist') /\ minv m' /\ (forall x, In x dist' -> x < N) /\
  (forall x, In x (dn ++ xs) -> exists y, In y dist' /\ (forall z, clo (eq x) z <-> clo (eq y) z)) /\ (forall y, In y dist' -> exists s, In (s, [y]) m').
Proof.
  induction xs as [|x xs IH]; intros m dist dn Hm Hlt Hdl H1 H2 H3; cbn [sg_start].
  - exists m, dist. rewrite app_nil_r. auto.
  - assert (Hx : x < N) by (apply Hlt, in_or_app; right; left; auto).
    destruct (close_spec [x]) as (r & -> & Ra & Ri); [intros y [<-|[]]; auto|].
    assert (Ri' : forall z, In z r <-> clo (eq x) z). { intros z. rewrite Ri. split; apply clo_mono; cbn; intros y; [intros [Q|[]]; auto|intros <-; auto]. }
    replace (dn ++ x :: xs) with ((dn ++ [x]) ++ xs) in * by (rewrite <- app_assoc; reflexivity).
    destruct (find_sg r m) eqn:Ef.
    + apply find_sg_iff in Ef as (g & Hg). apply IH; auto. intros z Hz. apply in_app_iff in Hz as [Hz|[<-|[]]]; auto.
      destruct (H3 _ Hg) as (y & Hy & Ey). inversion Ey; subst. exists y. split; auto. destruct (proj1 Hm _ Hg) as (_ & _ & _ & _ & Q). cbn [fst snd] in Q. intros z. rewrite <- Ri', Q. split; apply clo_mono; cbn; intros w; [intros [E|[]]; auto|intros <-; auto].
    + assert (Hnf : ~ found m r) by (intros Q; apply find_sg_iff in Q; congruence).
      assert (Hgd : good (r, [x])). { unfold good. cbn [fst snd]. split; [intros y [<-|[]]; auto|]. split; [repeat constructor|]. split; [discriminate|]. auto. }
      apply IH; auto.
      * apply minv_snoc; auto.
      * intros y Hy. apply in_app_iff in Hy as [Hy|[<-|[]]]; auto.
      * intros z Hz. apply in_app_iff in Hz as [Hz|[<-|[]]].
        -- destruct (H1 z Hz) as (y & Hy & Q). exists y. split; auto. apply in_or_app; auto.
        -- exists x. split; [apply in_or_app; right; left; auto|]. tauto.
      * intros y Hy. apply in_app_iff in Hy as [Hy|[<-|[]]]; [destruct (H2 y Hy) as (s & Hs); exists s; apply in_or_app; auto|]. exists r. apply in_or_app; right; left; auto.
      * intros p Hp. apply in_app_iff in Hp as [Hp|[<-|[]]]; [destruct (H3 p Hp) as (y & Hy & Q); exists y; split; auto; apply in_or_app; auto|]. exists x. split; auto. apply in_or_app; right; left; auto.
Qed.
(* the join of a found subgroup with a distinguished generator has been found *)
Definition joined (m : list (list nat * list nat)) (g : list nat) (d : nat) : Prop := exists s, found m s /\ forall x, In x s <-> clo (fun y => In y g \/ y = d) x.
Lemma joined_mono m m' g d : incl m m' -> joined m g d -> joined m' g d.
Proof. intros Hi (s & (g' & Hg) & H). exists s. split; auto. exists g'. auto. Qed.
Lemma sg_gens_spec dist gens : (forall x, In x dist -> x < N) -> (forall x, In x gens -> x < N) -> asc gens -> gens <> [] -> forall m next, minv m ->
  exists m' new, sg_gens close dist gens m next = Some (m', next ++ new) /\ minv m' /\ m' = m ++ new /\ forall d, In d dist -> joined m' gens d.
Proof.
  intros Hd Hg Ha Hgne. induction dist as [|d dist IH]; intros m next Hm; cbn [sg_gens].
  - exists m, []. rewrite !app_nil_r. split; auto. split; auto. split; auto. intros d [].
  - set (gens' := if has d gens then gens else set_insert d gens).
    assert (Hg' : (forall x, In x gens' <-> In x gens \/ x = d) /\ asc gens').
    { unfold gens'. destruct (has d gens) eqn:E; [apply has_iff in E; split; auto; intros x; split; auto; intros [| ->]; auto|]. destruct (set_insert_spec d gens Ha) as [Q1 Q2]. split; auto. intros x. rewrite Q2. tauto. }
    destruct Hg' as [Hgi Hga]. assert (Hgl : forall x, In x gens' -> x < N). { intros x Hx. apply Hgi in Hx as [Hx| ->]; auto. apply Hd. left; auto. }
    assert (Hgn : gens' <> []). { intros Q. assert (In d gens') by (apply Hgi; auto). rewrite Q in H. destruct H. }
    destruct (close_spec gens' Hgl) as (r & -> & Ra & Ri).
    assert (Ri' : forall x, In x r <-> clo (fun y => In y gens \/ y = d) x). { intros x. rewrite Ri. split; apply clo_mono; intros y; apply Hgi. }
    assert (Hd' : forall x, In x dist -> x < N) by (intros; apply Hd; right; auto). destruct (find_sg r m) eqn:Ef.
    + destruct (IH Hd' m next Hm) as (m' & new & E & M & -> & J). rewrite E. exists (m ++ new), new. split; auto. split; auto. split; auto. intros d' [<-|Hd'']; auto.
      apply find_sg_iff in Ef. apply (joined_mono m); [intros p Hp; apply in_or_app; auto|]. exists r. auto.
    + assert (Hnf : ~ found m r) by (intros Q; apply find_sg_iff in Q; congruence).
      destruct (IH Hd' (m ++ [(r, gens')]) (next ++ [(r, gens')])) as (m' & new & E & M & -> & J).
      { apply minv_snoc; auto. unfold good. cbn [fst snd]. auto. }
      rewrite E. exists ((m ++ [(r, gens')]) ++ new), ((r, gens') :: new). split; [rewrite <- !app_assoc; reflexivity|]. split; auto. split; [rewrite <- app_assoc; reflexivity|].
      intros d' [<-|Hd'']; auto. apply (joined_mono (m ++ [(r, gens')])); [intros p Hp; apply in_or_app; auto|]. exists r. split; auto. exists gens'. apply in_or_app; right; left; auto.
Qed.
Lemma sg_bound_spec dist (Hd : forall x, In x dist -> x < N) bs : (forall p, In p bs -> good p) -> forall m next, minv m ->
  exists m' new, sg_bound close dist bs m next = Some (m', next ++ new) /\ minv m' /\ m' = m ++ new /\ forall s g d, In (s, g) bs -> In d dist -> joined m' g d.
Proof.
  induction bs as [|[s g] bs IH]; intros Hb m next Hm; cbn [sg_bound].
  - exists m, []. rewrite !app_nil_r. split; auto. split; auto. split; auto. intros ? ? ? [].
  - destruct (Hb (s, g)) as (G1 & G2 & G3 & G4 & G5); [left; auto|]. cbn [fst snd] in *. destruct (sg_gens_spec dist g Hd G1 G2 G3 m next Hm) as (m1 & n1 & -> & M1 & -> & J1).
    destruct (IH (fun p Hp => Hb p (or_intror Hp)) (m ++ n1) (next ++ n1) M1) as (m2 & n2 & E2 & M2 & -> & J2). rewrite E2. exists ((m ++ n1) ++ n2), (n1 ++ n2).
    split; [rewrite app_assoc; auto|]. split; auto. split; [rewrite app_assoc; auto|]. intros s' g' d [[= <- <-]|Hin] Hdd; [|apply (J2 s' g' d); auto].
    apply (joined_mono (m ++ n1)); [intros p Hp; apply in_or_app; auto|]. auto.
Qed.
(* the number of ascending lists below N is bounded *)
Fixpoint sublists (l : list nat) : list (list nat) := match l with [] => [[]] | x :: l' => map (cons x) (sublists l') ++ sublists l' end.
Lemma sublists_in l s : StronglySorted lt l -> asc s -> incl s l -> In s (sublists l).
Proof.
  revert s. induction l as [|x l IH]; intros s Hl Hs Hi; cbn [sublists]; [destruct s as [|y s]; [left; auto|exfalso; apply (Hi y); left; auto]|].
  inversion Hl as [|? ? Hl1 Hl2]; subst. rewrite Forall_forall in Hl2. apply in_or_app. destruct s as [|y s]; [right; apply IH; [auto|constructor|intros ? []]|].
  inversion Hs as [|? ? Hs1 Hs2]; subst. rewrite Forall_forall in Hs2. destruct (Hi y (or_introl eq_refl)) as [->|Hy].
  - left. apply in_map. apply IH; auto. intros z Hz. destruct (Hi z (or_intror Hz)) as [<-|]; auto. apply Hs2 in Hz. lia.
  - right. apply IH; auto. intros z Hz. destruct (Hi z Hz) as [->|]; auto. destruct Hz as [->|Hz]; auto. apply Hl2 in Hy. apply Hs2 in Hz. lia.
Qed.
Lemma seq_asc n : forall s, asc (seq s n).
Proof. induction n as [|n IH]; intros s; cbn; constructor; auto. apply Forall_forall. intros x Hx. apply in_seq in Hx. lia. Qed.
Lemma minv_bound m : minv m -> length m <= length (sublists (seq 0 N)).
Proof.
  intros [M1 M2]. rewrite <- (map_length fst). apply NoDup_incl_length; auto. intros s Hs. apply in_map_iff in Hs as ([s' g] & <- & Hp). destruct (M1 _ Hp) as (G1 & G2 & G3 & G4 & G5). cbn [fst snd] in *.
  apply sublists_in; [apply seq_asc|auto|]. intros x Hx. apply G5 in Hx. apply clo_lt in Hx; auto. apply in_seq. lia.
Qed.
Lemma sg_loop_spec dist (Hd : forall x, In x dist -> x < N) fuel : forall boundary m, minv m -> incl boundary m -> 1 <= fuel -> (boundary <> [] -> 1 + length (sublists (seq 0 N)) - length m < fuel) ->
  (forall s g d, In (s, g) m -> In d dist -> In (s, g) boundary \/ joined m g d) ->
  exists m', sg_loop fuel ord close dist boundary m = Some m' /\ minv m' /\ incl m m' /\ forall s g d, In (s, g) m' -> In d dist -> joined m' g d.
Proof.
  induction fuel as [|fuel IH]; intros b m Hm Hb Hf Hf' Hj; [lia|]. cbn [sg_loop]. destruct b as [|p0 b0] eqn:Eb.
  - exists m. split; auto. split; auto. split; [intros p; auto|]. intros s g d Hin Hdd. destruct (Hj s g d Hin Hdd) as [[]|]; auto.
  - rewrite <- Eb in *. assert (Hne : b <> []) by (rewrite Eb; discriminate). specialize (Hf' Hne). pose proof (minv_bound m Hm) as Hbd.
    destruct (sg_bound_spec dist Hd (ord b)) with (m := m) (next := @nil (list nat * list nat)) as (m' & new & E & M & -> & J); auto.
    { intros p Hp. apply Hm, Hb. apply (Permutation_in _ (Hord b)); auto. }
    cbn [app] in E. rewrite E. destruct (IH new (m ++ new)) as (m'' & E' & M' & I' & J'); auto.
    + intros p Hp; apply in_or_app; auto.
    + lia.
    + intros Hn. rewrite app_length. destruct new; [contradiction|]. cbn [length] in *. pose proof (minv_bound _ M) as Q. rewrite app_length in Q. cbn in Q. lia.
    + intros s g d Hin Hdd. apply in_app_iff in Hin as [Hin|Hin]; auto. right. destruct (Hj s g d Hin Hdd) as [Hq|Hq]; [|apply (joined_mono m); [intros p Hp; apply in_or_app; auto|auto]].
      apply (J s g d); auto. apply (Permutation_in _ (Permutation_sym (Hord b))); auto.
    + exists m''. split; auto. split; auto. split; auto. intros p Hp. apply I', in_or_app; auto.
Qed.
Lemma subgroups_impl_spec : 0 < N -> forall t fuel, tn t = N -> 2 + length (sublists (seq 0 N)) <= fuel ->
  exists m, subgroups_impl fuel ord close t = Some m /\ minv m /\ forall s, asc s -> s <> [] -> (forall x, In x s -> x < N) -> (forall x, clo (fun y => In y s) x -> In x s) -> found m s.
Proof.
  intros HN t fuel Ht Hf. unfold subgroups_impl, elemsT. rewrite Ht.
  destruct (sg_start_spec (seq 0 N) [] [] []) as (m & dist & E & M & D1 & D2 & D3).
  - split; [intros p []|constructor].
  - intros x Hx. apply in_seq in Hx. lia.
  - intros x [].
  - intros x [].
  - intros y [].
  - intros p [].
  - rewrite E. destruct (sg_loop_spec dist D1 fuel m m M) as (m' & E' & M' & I' & J').
    + intros p; auto.
    + lia.
    + intros _. lia.
    + intros; auto.
    + exists m'. split; auto. split; auto. intros s Hs Hne Hlt Hcl.
      (* every set generated by a non-empty list is found *)
      assert (Gn : forall l, l <> [] -> (forall x, In x l -> x < N) -> exists s, found m' s /\ forall x, In x s <-> clo (fun y => In y l) x).
      { induction l as [|x l IH]; intros Hl Hll; [contradiction|]. assert (Hx : x < N) by (apply Hll; left; auto).
        destruct (D2 x) as (y & Hy & Hxy); [apply in_seq; lia|]. destruct (D3 y Hy) as (sy & Hsy).
        destruct l as [|x' l'].
        - exists sy. split; [exists [y]; apply I'; auto|]. destruct (proj1 M _ Hsy) as (_ & _ & _ & _ & Q). cbn [fst snd] in Q. intros z. rewrite Q. split.
          + intros H. apply (clo_mono (eq x)); [intros w <-; left; auto|]. apply Hxy. apply (clo_mono (fun v => In v [y])); auto. intros v [|[]]; auto.
          + intros H. apply (clo_mono (eq y)); [intros w <-; left; auto|]. apply Hxy. apply (clo_mono (fun v => In v [x])); auto. intros v [|[]]; auto.
        - set (l := x' :: l') in *. destruct IH as (sl & (gl & Hgl) & Hsl); [discriminate|intros; apply Hll; right; auto|].
          destruct (J' sl gl y Hgl Hy) as (s' & F' & Hs'). exists s'. split; auto. destruct (proj1 M' _ Hgl) as (_ & _ & _ & _ & Q). cbn [fst snd] in Q.
          assert (Hg1 : forall z, clo (fun v => In v gl) z <-> clo (fun v => In v l) z) by (intros z; rewrite <- Q, Hsl; tauto).
          intros z. rewrite Hs'. split; apply clo_min.
          + intros w [Hw| ->].
            * apply (clo_mono (fun v => In v l)); [intros v Hv; right; auto|]. apply Hg1. apply clo_in. auto.
            * apply (clo_mono (eq x)); [intros v <-; left; auto|]. apply Hxy. apply clo_in. auto.
          + intros w [<-|Hw].
            * apply (clo_mono (eq y)); [intros v <-; auto|]. apply Hxy. apply clo_in. auto.
            * apply (clo_mono (fun v => In v gl)); [intros v Hv; auto|]. apply Hg1. apply clo_in. auto. }
      destruct (Gn s Hne Hlt) as (s' & F' & Hs'). replace s with s'; auto. destruct F' as (g' & Hg'). apply asc_eq; auto; [apply (proj1 M' _ Hg')|]. intros x. rewrite Hs'. split; auto.
Qed.
End Sub.
