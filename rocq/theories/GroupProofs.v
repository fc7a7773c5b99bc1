(* Proofs about group.rs: powers, BFS closure *)
From Coq Require Import List Arith NArith ZArith Bool Lia Permutation.
From Verif Require Import GroupSpec GroupModel.
Import ListNotations.

Lemma NoDup_app_iff' {A} (a b : list A) : NoDup (a ++ b) <-> NoDup a /\ NoDup b /\ (forall x, In x a -> ~ In x b).
Proof.
  induction a as [|x a IH]; cbn.
  - split; [intros H; split; [constructor|]; split; auto|tauto].
  - rewrite NoDup_cons_iff, IH, in_app_iff, NoDup_cons_iff. split.
    + intros (H1 & H2 & H3 & H4). split; [tauto|]. split; [auto|]. intros y [<-|Hy]; auto.
    + intros ((H1 & H2) & H3 & H4). split; [|split; [auto|split; [auto|intros; apply H4; auto]]]. intros [?|?]; [tauto|]. apply (H4 x); auto.
Qed.
Lemma NoDup_rev' {A} (l : list A) : NoDup l -> NoDup (rev l).
Proof. apply Permutation_NoDup, Permutation_rev. Qed.

(* ---------- powers *)
Section Pow.
Context {A : Type} (V : A -> Prop) (e : A) (inv : A -> A) (op : A -> A -> A) (G : is_group V e inv op).
Lemma gpow_V x n : V x -> V (gpow e op x n).
Proof. intros Hx. induction n; cbn; [apply G|]. apply G; auto. Qed.
Lemma gpow_add x m n : V x -> gpow e op x (m + n) = op (gpow e op x m) (gpow e op x n).
Proof.
  intros Hx. induction m as [|m IH]; cbn; [rewrite (ig_idl _ _ _ _ G); auto using gpow_V|].
  rewrite IH, (ig_assoc _ _ _ _ G); auto using gpow_V.
Qed.
Lemma gpow_sq x n : V x -> gpow e op (op x x) n = gpow e op x (2 * n).
Proof.
  intros Hx. induction n as [|n IH]; [reflexivity|]. replace (2 * S n) with (S (S (2 * n))) by lia. cbn [gpow]. rewrite IH.
  rewrite (ig_assoc _ _ _ _ G); auto using gpow_V.
Qed.
Lemma gpow_loop_spec p : forall x ans, V x -> V ans ->
  gpow_loop op (pbits p) (gsquares op (length (pbits p) - 1) x) ans = op ans (gpow e op x (Pos.to_nat p)).
Proof.
  induction p as [p IH|p IH|]; intros x ans Hx Ha; cbn [pbits length].
  - assert (Hl : exists k, length (pbits p) = S k) by (destruct p; cbn; eauto). destruct Hl as [k Hk]. specialize (IH (op x x) (op ans x)).
    rewrite Hk in *. cbn [Nat.sub gsquares gpow_loop] in *. rewrite Nat.sub_0_r in *. rewrite IH by (apply G; auto).
    rewrite gpow_sq by auto. rewrite Pos2Nat.inj_xI. cbn [gpow]. rewrite (ig_assoc _ _ _ _ G); auto using gpow_V.
  - assert (Hl : exists k, length (pbits p) = S k) by (destruct p; cbn; eauto). destruct Hl as [k Hk]. specialize (IH (op x x) ans).
    rewrite Hk in *. cbn [Nat.sub gsquares gpow_loop] in *. rewrite Nat.sub_0_r in *. rewrite IH by (try apply G; auto).
    rewrite gpow_sq by auto. rewrite Pos2Nat.inj_xO. reflexivity.
  - change (Pos.to_nat 1) with 1. cbn. rewrite (ig_idr _ _ _ _ G x); auto.
Qed.
Lemma nat_pow_spec x n : V x -> grp_nat_pow e op x n = gpow e op x (N.to_nat n).
Proof.
  intros Hx. unfold grp_nat_pow. destruct (N.eqb_spec n 0) as [->|H0]; [reflexivity|]. destruct (N.eqb_spec n 1) as [->|H1].
  - change (N.to_nat 1) with 1. cbn. rewrite (ig_idr _ _ _ _ G); auto.
  - destruct n as [|p]; [lia|]. cbn [nbits N.to_nat]. rewrite gpow_loop_spec; auto; [|apply G]. rewrite (ig_idl _ _ _ _ G); auto using gpow_V.
Qed.
Lemma cancel_r x y z : V x -> V y -> V z -> op x z = op y z -> x = y.
Proof.
  intros Hx Hy Hz E. assert (E' : op (op x z) (inv z) = op (op y z) (inv z)) by congruence.
  rewrite <- !(ig_assoc _ _ _ _ G) in E' by (auto; apply G; auto). rewrite (ig_invr _ _ _ _ G) in E' by auto.
  rewrite !(ig_idr _ _ _ _ G) in E'; auto.
Qed.
Lemma cancel_l x y z : V x -> V y -> V z -> op z x = op z y -> x = y.
Proof.
  intros Hx Hy Hz E. assert (E' : op (inv z) (op z x) = op (inv z) (op z y)) by congruence.
  rewrite !(ig_assoc _ _ _ _ G) in E' by (auto; apply G; auto). rewrite (ig_invl _ _ _ _ G) in E' by auto.
  rewrite !(ig_idl _ _ _ _ G) in E'; auto.
Qed.
Lemma inv_unique x y : V x -> V y -> op x y = e -> y = inv x.
Proof.
  intros Hx Hy E. apply (cancel_l _ _ x); auto; [apply G; auto|]. rewrite E, (ig_invr _ _ _ _ G); auto.
Qed.
Lemma inv_op x y : V x -> V y -> inv (op x y) = op (inv y) (inv x).
Proof.
  intros Hx Hy. symmetry. assert (V (inv x)) by (apply G; auto). assert (V (inv y)) by (apply G; auto). assert (V (op x y)) by (apply G; auto).
  apply inv_unique; auto; [apply G; auto|].
  rewrite <- (ig_assoc _ _ _ _ G x y) by (auto; apply G; auto). rewrite (ig_assoc _ _ _ _ G y) by auto.
  rewrite (ig_invr _ _ _ _ G y), (ig_idl _ _ _ _ G), (ig_invr _ _ _ _ G); auto.
Qed.
Lemma inv_inv x : V x -> inv (inv x) = x.
Proof. intros Hx. symmetry. apply inv_unique; auto; [apply G; auto|apply (ig_invl _ _ _ _ G); auto]. Qed.
Lemma inv_e : inv e = e.
Proof. symmetry. apply inv_unique; try apply G. apply G. Qed.
Lemma generated_V (S : A -> Prop) : (forall x, S x -> V x) -> forall x, generated e inv op S x -> V x.
Proof. intros HS x H. induction H; auto; apply G; auto. Qed.
Lemma int_pow_spec x n : V x ->
  ((0 <= n)%Z -> grp_int_pow e inv op x n = gpow e op x (Z.to_nat n)) /\
  ((n < 0)%Z -> grp_int_pow e inv op x n = inv (gpow e op x (Z.to_nat (- n)))).
Proof.
  intros Hx. unfold grp_int_pow. destruct (Z.eqb_spec n 0) as [->|H0]; [split; [reflexivity|lia]|]. destruct (Z.ltb_spec 0 n).
  - split; [|lia]. intros _. rewrite nat_pow_spec by auto. f_equal. lia.
  - split; [lia|]. intros _. rewrite nat_pow_spec by auto. do 2 f_equal. lia.
Qed.
Lemma compose_list_spec l : Forall V l -> compose_list e op l = fold_right op e l.
Proof.
  intros H. unfold compose_list.
  assert (Gn : forall l a, Forall V l -> V a -> fold_left op l a = op a (fold_right op e l) /\ V (fold_right op e l)).
  { induction l0 as [|x l0 IH]; intros a Hl Ha; cbn.
    - split; [rewrite (ig_idr _ _ _ _ G); auto|apply G].
    - inversion Hl; subst. destruct (IH (op a x)) as [E1 E2]; auto; [apply G; auto|]. split; [|apply G; auto]. rewrite E1, (ig_assoc _ _ _ _ G); auto. }
  destruct (Gn l e H) as [E1 E2]; [apply G|]. rewrite E1. apply (ig_idl _ _ _ _ G). auto.
Qed.

(* an injective self-map of a finite list is onto *)
Lemma inj_surj (S : list A) (f : A -> A) : NoDup S -> (forall x, In x S -> In (f x) S) ->
  (forall x y, In x S -> In y S -> f x = f y -> x = y) -> forall y, In y S -> exists x, In x S /\ f x = y.
Proof.
  intros Hn Hc Hi y Hy.
  assert (Hm : NoDup (map f S)).
  { clear Hy Hc. revert Hi. induction S as [|a S' IH]; intros Hi; cbn; [constructor|]. inversion Hn; subst. constructor; [|apply IH; auto; intros; apply Hi; auto; right; auto].
    intros Hin. apply in_map_iff in Hin as (b & E & Hb). apply H1. assert (b = a) by (apply Hi; [right; auto|left; auto|auto]). subst; auto. }
  assert (Hincl : incl S (map f S)).
  { apply NoDup_length_incl; auto; [rewrite map_length; auto|]. intros z Hz. apply in_map_iff in Hz as (w & <- & Hw). auto. }
  apply Hincl, in_map_iff in Hy as (x & E & Hx). eauto.
Qed.
(* a finite set containing e and closed under right multiplication by the generators contains the generated subgroup *)
Lemma closed_contains_generated (gens : A -> Prop) (S : list A) : (forall g, gens g -> V g) -> NoDup S -> (forall x, In x S -> V x) -> In e S ->
  (forall x g, In x S -> gens g -> In (op x g) S) -> forall x, generated e inv op gens x -> In x S.
Proof.
  intros Hg Hn HV He Hc.
  assert (Gn : forall x, generated e inv op gens x -> V x /\ forall s, In s S -> In (op s x) S).
  { intros x H. induction H as [x Hx| |x Hx [IHV IH]|x y Hx [IHx1 IHx2] Hy [IHy1 IHy2]].
    - split; auto.
    - split; [apply G|]. intros s Hs. rewrite (ig_idr _ _ _ _ G); auto.
    - split; [apply G; auto|]. intros s Hs. destruct (inj_surj S (fun z => op z x) Hn IH) with (y := s) as (z & Hz & E); auto.
      + intros a b Ha Hb. apply cancel_r; auto.
      + rewrite <- E. rewrite <- (ig_assoc _ _ _ _ G); auto; [|apply G; auto]. rewrite (ig_invr _ _ _ _ G), (ig_idr _ _ _ _ G); auto.
    - split; [apply G; auto|]. intros s Hs. rewrite (ig_assoc _ _ _ _ G); auto. }
  intros x Hx. destruct (Gn x Hx) as [H1 H2]. specialize (H2 e He). rewrite (ig_idl _ _ _ _ G) in H2; auto.
Qed.
End Pow.

(* ---------- BFS *)
Section Bfs.
Context {A : Type} (eqb : A -> A -> bool) (Heq : forall x y, eqb x y = true <-> x = y).
Lemma mem_iff x l : mem eqb x l = true <-> In x l.
Proof. unfold mem. rewrite existsb_exists. split; [intros (y & Hy & E); apply Heq in E; subst; auto|intros H; exists x; split; auto; apply Heq; auto]. Qed.
Lemma mem_false x l : mem eqb x l = false <-> ~ In x l.
Proof. rewrite <- mem_iff. destruct (mem eqb x l); intuition congruence. Qed.
Lemma in_dec_eqb (x : A) l : In x l \/ ~ In x l.
Proof. destruct (mem eqb x l) eqn:E; [left; apply mem_iff; auto|right; apply mem_false; auto]. Qed.
Lemma bfs_ys_spec ys : forall sg next, NoDup sg -> exists new, bfs_ys eqb ys sg next = (rev new ++ sg, next ++ new) /\ NoDup (rev new ++ sg) /\
  (forall y, In y new -> In y ys) /\ (forall y, In y ys -> In y (rev new ++ sg)).
Proof.
  induction ys as [|y ys IH]; intros sg next Hn; cbn [bfs_ys].
  - exists []. cbn. rewrite app_nil_r. repeat split; auto; intros y [].
  - destruct (mem eqb y sg) eqn:E.
    + destruct (IH sg next Hn) as (new & E1 & H1 & H2 & H3). exists new. split; [auto|]. split; [auto|]. split; [right; auto|].
      intros z [<-|Hz]; auto. apply in_app_iff. right. apply mem_iff; auto.
    + apply mem_false in E. destruct (IH (y :: sg) (next ++ [y])) as (new & E1 & H1 & H2 & H3); [constructor; auto|].
      exists (y :: new). cbn [rev]. rewrite <- app_assoc. cbn [app]. rewrite E1. rewrite <- app_assoc. split; [reflexivity|]. split; [auto|]. split.
      * intros z [<-|Hz]; [left; auto|right; auto].
      * intros z [<-|Hz]; [apply in_app_iff; right; left; auto|apply H3; auto].
Qed.
Lemma bfs_xs_spec step xs : forall sg next, NoDup sg -> exists new, bfs_xs eqb step xs sg next = (rev new ++ sg, next ++ new) /\ NoDup (rev new ++ sg) /\
  (forall y, In y new -> exists x, In x xs /\ In y (step x)) /\ (forall x y, In x xs -> In y (step x) -> In y (rev new ++ sg)).
Proof.
  induction xs as [|x xs IH]; intros sg next Hn; cbn [bfs_xs].
  - exists []. cbn. rewrite app_nil_r. split; [auto|]. split; [auto|]. split; [intros y []|intros x y []].
  - destruct (bfs_ys_spec (step x) sg next Hn) as (n1 & E1 & A1 & A2 & A3). rewrite E1.
    destruct (IH (rev n1 ++ sg) (next ++ n1) A1) as (n2 & E2 & B1 & B2 & B3). rewrite E2. exists (n1 ++ n2).
    rewrite rev_app_distr, <- !app_assoc. split; [reflexivity|]. split; [auto|]. split.
    + intros y Hy. apply in_app_iff in Hy as [Hy|Hy]; [exists x; split; [left; auto|auto]|]. destruct (B2 y Hy) as (x' & Hx' & Hy'). exists x'. split; [right; auto|auto].
    + intros x' y [<-|Hx'] Hy; [|eapply B3; eauto]. apply in_app_iff. right. auto.
Qed.
Definition stepR (step : A -> list A) (x y : A) : Prop := In y (step x).
Record bfs_inv (step : A -> list A) x0 (boundary sg : list A) : Prop := {
  bi_nd : NoDup sg; bi_sub : forall x, In x boundary -> In x sg; bi_0 : In x0 sg;
  bi_reach : forall x, In x sg -> reach (stepR step) x0 x;
  bi_closed : forall x, In x sg -> In x boundary \/ forall y, In y (step x) -> In y sg }.
Lemma bfs_step_inv step x0 boundary sg : bfs_inv step x0 boundary sg -> exists new, bfs_xs eqb step boundary sg [] = (rev new ++ sg, new) /\
  bfs_inv step x0 new (rev new ++ sg).
Proof.
  intros I. destruct (bfs_xs_spec step boundary sg [] (bi_nd _ _ _ _ I)) as (new & E & H1 & H2 & H3). exists new. split; [exact E|]. constructor; auto.
  - intros x Hx. apply in_app_iff. left. apply in_rev in Hx. auto.
  - apply in_app_iff. right. exact (bi_0 _ _ _ _ I).
  - intros x Hx. apply in_app_iff in Hx as [Hx|Hx]; [|apply I; auto]. apply in_rev in Hx. destruct (H2 x Hx) as (z & Hz & Hy).
    eapply reach_s; [apply (bi_reach _ _ _ _ I); apply (bi_sub _ _ _ _ I); eauto|exact Hy].
  - intros x Hx. apply in_app_iff in Hx as [Hx|Hx]; [left; apply in_rev; auto|]. right. intros y Hy.
    destruct (bi_closed _ _ _ _ I x Hx) as [Hb|Hc]; [eapply H3; eauto|apply in_app_iff; right; auto].
Qed.
Lemma bfs_loop_sound step x0 fuel : forall boundary sg r, bfs_inv step x0 boundary sg -> bfs_loop eqb fuel step boundary sg = Some r ->
  NoDup r /\ forall x, In x r <-> reach (stepR step) x0 x.
Proof.
  induction fuel as [|fuel IH]; intros boundary sg r I E; cbn [bfs_loop] in E; [discriminate|].
  destruct boundary as [|b bs].
  - inversion E; subst. split; [apply I|]. intros x. split; [apply (bi_reach _ _ _ _ I)|]. intros H. induction H as [|x y Hx IHx Hy]; [exact (bi_0 _ _ _ _ I)|].
    destruct (bi_closed _ _ _ _ I x IHx) as [[]|Hc]. auto.
  - destruct (bfs_step_inv _ _ _ _ I) as (new & E1 & I1). rewrite E1 in E. eapply IH; eauto.
Qed.
Lemma bfs_loop_term step x0 (L : list A) : (forall x, reach (stepR step) x0 x -> In x L) -> forall fuel boundary sg,
  bfs_inv step x0 boundary sg -> length L + 1 < fuel + length sg -> exists r, bfs_loop eqb fuel step boundary sg = Some r.
Proof.
  intros HL. induction fuel as [|fuel IH]; intros boundary sg I Hf.
  - exfalso. assert (length sg <= length L); [|lia]. apply NoDup_incl_length; [apply I|]. intros x Hx. apply HL. apply I; auto.
  - cbn [bfs_loop]. destruct boundary as [|b bs]; [eauto|]. destruct (bfs_step_inv _ _ _ _ I) as (new & E1 & I1). rewrite E1.
    destruct new as [|c new].
    + destruct fuel as [|fuel']; [|cbn [bfs_loop]; eauto]. exfalso. assert (length sg <= length L); [|lia].
      apply NoDup_incl_length; [apply I|]. intros x Hx. apply HL. apply I; auto.
    + apply IH; auto. rewrite app_length, rev_length. cbn [length]. lia.
Qed.
Lemma bfs_init step x0 : bfs_inv step x0 [x0] [x0].
Proof.
  constructor; auto.
  - repeat constructor; auto.
  - left; auto.
  - intros x [<-|[]]. constructor.
Qed.
Lemma bfs_sound fuel step x0 r : bfs eqb x0 fuel step = Some r -> NoDup r /\ forall x, In x r <-> reach (stepR step) x0 x.
Proof. apply bfs_loop_sound, bfs_init. Qed.
Lemma bfs_term fuel step x0 L : (forall x, reach (stepR step) x0 x -> In x L) -> length L < fuel -> exists r, bfs eqb x0 fuel step = Some r.
Proof. intros HL Hf. apply (bfs_loop_term step x0 L HL); [apply bfs_init|cbn; lia]. Qed.

Section Gen.
Context (V : A -> Prop) (e : A) (inv : A -> A) (op : A -> A -> A) (G : is_group V e inv op).
Variable gens : list A.
Hypothesis Hg : forall g, In g gens -> V g.
Let step x := map (op x) gens.
Lemma reach_generated x : reach (stepR step) e x -> generated e inv op (fun g => In g gens) x.
Proof.
  intros H. induction H as [|x y Hx IH Hy]; [apply gen_e|]. unfold stepR, step in Hy. apply in_map_iff in Hy as (g & <- & Hg'). apply gen_op; auto. apply gen_in; auto.
Qed.
Lemma gfs_sound fuel r : generated_finite_subgroup eqb e op fuel gens = Some r ->
  NoDup r /\ forall x, In x r <-> generated e inv op (fun g => In g gens) x.
Proof.
  intros E. apply bfs_sound in E as [Hn Hr]. split; auto. intros x. split.
  - intros Hx. apply reach_generated. apply Hr; auto.
  - apply (closed_contains_generated V e inv op G); auto.
    + intros y Hy. apply Hr in Hy. apply reach_generated in Hy. apply (generated_V V e inv op G (fun g => In g gens)); auto.
    + apply Hr. constructor.
    + intros y g Hy Hg'. apply Hr. eapply reach_s; [apply Hr; eauto|]. unfold stepR, step. apply in_map; auto.
Qed.
Lemma gfs_term L : (forall x, generated e inv op (fun g => In g gens) x -> In x L) ->
  forall fuel, length L < fuel -> exists r, generated_finite_subgroup eqb e op fuel gens = Some r.
Proof. intros HL fuel Hf. eapply bfs_term; eauto. intros x Hx. apply HL, reach_generated. exact Hx. Qed.
End Gen.
End Bfs.
