(* C13, C49, C50, C51 *)
From Coq Require Import QArith Qround Qreals Reals ZArith NArith List Bool Lia Lqa Lra.
From Verif Require Import NatSpec NatProofs NatProofs4 RatSpec RatModel RatProofs RatProofs2.
Import ListNotations.
Local Open Scope Q_scope.

(* ---------- C13 *)
Theorem C13_nat_valuation p n : (2 <= p)%N -> (padic_nat_valuation p 0 = Some Infinity) /\
  ((0 < n)%N -> exists k, padic_nat_valuation p n = Some (Finite (Z.of_N k)) /\ (p ^ k | n)%N /\ ~ (p ^ (k + 1) | n)%N).
Proof. intros Hp. split; [reflexivity|]. apply nat_val_spec; auto. Qed.
Print Assumptions C13_nat_valuation.
Theorem C13_int_valuation p n : padic_int_valuation p n = padic_rat_valuation p (inject_Z n) \/ (p < 2)%N.
Proof.
  destruct (N.lt_ge_cases p 2) as [|Hp]; auto. left. unfold padic_int_valuation, padic_rat_valuation.
  assert (E : Qred (inject_Z n) = inject_Z n). { unfold Qred, inject_Z. pose proof (Z.ggcd_gcd n 1) as G. pose proof (Z.ggcd_correct_divisors n 1) as D. destruct (Z.ggcd n 1) as [g [x y]]. cbn in *. rewrite Z.gcd_1_r in G. subst g. destruct D as [D1 D2]. rewrite !Z.mul_1_l in *. subst. reflexivity. }
  rewrite E. cbn [Qnum Qden inject_Z]. assert (E1 : padic_nat_valuation p 1 = Some (Finite 0)). { destruct (nat_val_spec p 1 ltac:(lia) ltac:(lia)) as (j & -> & D & _). destruct (N.eq_dec j 0) as [->|Hj]; auto. exfalso. apply N.divide_1_r in D. assert (p ^ 1 <= p ^ j)%N by (apply N.pow_le_mono_r; lia). rewrite N.pow_1_r in *. lia. }
  rewrite E1. cbn [unwrap_int]. destruct (N.eq_dec (Z.abs_N n) 0) as [E0|E0]; [rewrite E0; reflexivity|]. destruct (nat_val_spec p (Z.abs_N n) ltac:(lia) ltac:(lia)) as (j & -> & _). rewrite Z.sub_0_r. reflexivity.
Qed.
Print Assumptions C13_int_valuation.
(* the value is the valuation, for every prime p and every rational r; it only depends on the rational number *)
Theorem C13_rat_valuation p r : prime_N p -> (padic_rat_valuation p r = Some Infinity <-> r == 0) /\ (forall k, padic_rat_valuation p r = Some (Finite k) <-> has_valuation p r k) /\ (exists v, padic_rat_valuation p r = Some v).
Proof.
  intros Pp. split; [apply rat_val_inf; auto|]. split; [intros; apply rat_val_iff; auto|]. destruct (rat_val_spec p r Pp) as [[E _]|(k & E & _)]; eauto.
Qed.
Print Assumptions C13_rat_valuation.
Theorem C13_multiplicative p r s v w : prime_N p -> padic_rat_valuation p r = Some v -> padic_rat_valuation p s = Some w -> padic_rat_valuation p (r * s) = Some (val_add v w).
Proof.
  intros Pp H1 H2. destruct v as [|v], w as [|w]; cbn [val_add].
  1,2: apply rat_val_inf; auto; apply rat_val_inf in H1; auto; rewrite H1; ring.
  - apply rat_val_inf; auto; apply rat_val_inf in H2; auto; rewrite H2; ring.
  - apply rat_val_iff; auto. apply has_val_mul; auto; apply rat_val_iff; auto.
Qed.
Print Assumptions C13_multiplicative.
(* and dividing subtracts, which is why subtracting Infinity must panic *)
Theorem C13_division p r s v w : prime_N p -> padic_rat_valuation p r = Some v -> padic_rat_valuation p s = Some w -> ~ s == 0 ->
  exists u, val_sub v w = Some u /\ padic_rat_valuation p (r / s) = Some u.
Proof.
  intros Pp H1 H2 Hs. destruct (rat_val_spec p (r / s) Pp) as [[E H]|(k & E & H)]; (destruct w as [|w]; [exfalso; apply Hs; apply (rat_val_inf p s Pp); auto|]); assert (M := C13_multiplicative p (r / s) s _ _ Pp E H2);
  assert (E' : padic_rat_valuation p (r / s * s) = Some v).
  1,3: destruct v as [|v]; [apply (rat_val_inf p) in H1; auto; apply rat_val_inf; auto; rewrite H1; field; auto|apply (rat_val_iff p) in H1; auto; apply rat_val_iff; auto; apply (has_val_eq p r); auto; field; auto].
  - rewrite E' in M. injection M as ->. exists Infinity. split; auto.
  - rewrite E' in M. cbn [val_add] in M. injection M as ->. exists (Finite k). split; auto. cbn. f_equal. f_equal. lia.
Qed.
Print Assumptions C13_division.
(* ultrametric inequality, with equality when the valuations differ *)
Theorem C13_ultrametric p r s v w : prime_N p -> padic_rat_valuation p r = Some v -> padic_rat_valuation p s = Some w ->
  exists u, padic_rat_valuation p (r + s) = Some u /\ val_cmp (match val_cmp v w with Gt => w | _ => v end) u <> Gt /\ (val_cmp v w = Lt -> u = v) /\ (val_cmp v w = Gt -> u = w).
Proof. apply rat_val_add. Qed.
Print Assumptions C13_ultrametric.
(* the order on valuations is a total order with Infinity on top *)
Theorem C13_order a b c : (val_cmp a b = Eq <-> a = b) /\ val_cmp b a = CompOpp (val_cmp a b) /\ (val_cmp a b <> Gt -> val_cmp b c <> Gt -> val_cmp a c <> Gt) /\ val_cmp a Infinity <> Gt.
Proof.
  destruct a as [|x], b as [|y], c as [|z]; cbn [val_cmp CompOpp]; (split; [|split; [|split]]); try discriminate; try tauto; try (split; [discriminate|congruence]); try congruence.
  all: try (rewrite Z.compare_eq_iff; split; congruence). all: try (rewrite (Z.compare_antisym x y); reflexivity).
  intros H1 H2 H3. rewrite Z.compare_gt_iff in *. lia.
Qed.
Print Assumptions C13_order.
Example C13_ex : padic_rat_valuation 2 (12 # 40) = Some (Finite (-1)) /\ padic_rat_valuation 7 (- 98 # 5) = Some (Finite 2) /\ padic_rat_valuation 3 0 = Some Infinity. Proof. vm_compute. auto. Qed.

(* ---------- C49, for all real members *)
Theorem C49_add_intervals a b x y : in_interval a x -> in_interval b y -> in_interval (add_intervals a b) (x + y)%R.
Proof. unfold in_interval, add_intervals. cbn [fst snd]. rewrite !Q2R_plus. intros. lra. Qed.
Print Assumptions C49_add_intervals.
(* tight: every member of the result is a sum of members *)
Theorem C49_add_intervals_tight a b z : fst a <= snd a -> fst b <= snd b -> in_interval (add_intervals a b) z -> exists x y, in_interval a x /\ in_interval b y /\ z = (x + y)%R.
Proof.
  unfold in_interval, add_intervals. cbn [fst snd]. rewrite !Q2R_plus. intros Ha Hb H. apply Q2R_le_iff in Ha, Hb.
  destruct (Rle_dec z (Q2R (snd a) + Q2R (fst b))).
  - exists (z - Q2R (fst b))%R, (Q2R (fst b)). repeat split; lra.
  - exists (Q2R (snd a)), (z - Q2R (snd a))%R. repeat split; lra.
Qed.
Print Assumptions C49_add_intervals_tight.
Theorem C49_add_interval_rat a r x : in_interval a x <-> in_interval (add_interval_rat a r) (x + Q2R r)%R.
Proof. unfold in_interval, add_interval_rat. cbn [fst snd]. rewrite !Q2R_plus. split; intros; lra. Qed.
Print Assumptions C49_add_interval_rat.
(* encloses all products of members, and both ends are products of endpoints *)
Theorem C49_mul_intervals a b : exists c, mul_intervals a b = Some c /\ (forall x y, in_interval a x -> in_interval b y -> in_interval c (x * y)%R) /\
  (exists x y, (x = fst a \/ x = snd a) /\ (y = fst b \/ y = snd b) /\ fst c == x * y) /\ (exists x y, (x = fst a \/ x = snd a) /\ (y = fst b \/ y = snd b) /\ snd c == x * y).
Proof.
  destruct (mul_intervals_spec a b) as (c & E & H & (x & y & H1 & H2 & H3) & (x' & y' & H1' & H2' & H3')). exists c. split; auto. split; auto. cbn in *. split; [exists x, y|exists x', y']; split; auto; try tauto; intuition auto.
Qed.
Print Assumptions C49_mul_intervals.
Theorem C49_mul_interval_rat a r : ~ r == 0 -> exists c, mul_interval_rat a r = Some c /\ forall x, in_interval a x <-> in_interval c (x * Q2R r)%R.
Proof.
  intros Hr. unfold mul_interval_rat. destruct (Qcompare_spec r 0) as [E|E|E]; [contradiction| |]; eexists; (split; [reflexivity|]); intros x; unfold in_interval; cbn [fst snd]; rewrite !Q2R_mult.
  - assert (Q2R r < 0)%R by (apply Qlt_Rlt in E; rewrite RMicromega.Q2R_0 in E; auto). split; intros; nra.
  - assert (0 < Q2R r)%R by (apply Qlt_Rlt in E; rewrite RMicromega.Q2R_0 in E; auto). split; intros; nra.
Qed.
Print Assumptions C49_mul_interval_rat.
(* multiplying by 0 panics, although the product interval [0,0] is well defined *)
Theorem C49_mul_by_zero_panics : exists a r, mul_interval_rat a r = None /\ exists b, mul_box_rat b r = None.
Proof. exists (1, 2), 0. split; [reflexivity|]. exists (mkBox 1 2 3 4). reflexivity. Qed.
Print Assumptions C49_mul_by_zero_panics.
Theorem C49_add_boxes a b x1 y1 x2 y2 : in_box a x1 y1 -> in_box b x2 y2 -> in_box (add_boxes a b) (x1 + x2)%R (y1 + y2)%R.
Proof. unfold in_box, add_boxes. cbn [b0 b1 b2 b3]. rewrite !Q2R_plus. intros. lra. Qed.
Print Assumptions C49_add_boxes.
Theorem C49_add_box_rat a r x y : in_box a x y <-> in_box (add_box_rat a r) (x + Q2R r)%R y.
Proof. unfold in_box, add_box_rat. cbn [b0 b1 b2 b3]. rewrite !Q2R_plus. split; intros; lra. Qed.
Print Assumptions C49_add_box_rat.
(* the complex product (x1 + i y1)(x2 + i y2); each side of the result is attained at a pair of corners *)
Theorem C49_mul_boxes a b : exists c, mul_boxes a b = Some c /\
  (forall x1 y1 x2 y2, in_box a x1 y1 -> in_box b x2 y2 -> in_box c (x1 * x2 - y1 * y2)%R (x1 * y2 + y1 * x2)%R) /\
  forall e, In e [(b0 c, true); (b1 c, true); (b2 c, false); (b3 c, false)] ->
    exists re1 im1 re2 im2, (re1 = b0 a \/ re1 = b1 a) /\ (im1 = b2 a \/ im1 = b3 a) /\ (re2 = b0 b \/ re2 = b1 b) /\ (im2 = b2 b \/ im2 = b3 b) /\
      fst e = if snd e then re1 * re2 - im1 * im2 else re1 * im2 + im1 * re2.
Proof. apply mul_boxes_spec. Qed.
Print Assumptions C49_mul_boxes.
Theorem C49_mul_box_rat a r : ~ r == 0 -> exists c, mul_box_rat a r = Some c /\ forall x y, in_box a x y <-> in_box c (x * Q2R r)%R (y * Q2R r)%R.
Proof.
  intros Hr. unfold mul_box_rat. destruct (Qcompare_spec r 0) as [E|E|E]; [contradiction| |]; eexists; (split; [reflexivity|]); intros x y; unfold in_box; cbn [b0 b1 b2 b3]; rewrite !Q2R_mult.
  - assert (Q2R r < 0)%R by (apply Qlt_Rlt in E; rewrite RMicromega.Q2R_0 in E; auto). split; intros [? ?]; split; nra.
  - assert (0 < Q2R r)%R by (apply Qlt_Rlt in E; rewrite RMicromega.Q2R_0 in E; auto). split; intros [? ?]; split; nra.
Qed.
Print Assumptions C49_mul_box_rat.
Example C49_ex : mul_intervals (-1 # 1, 2 # 1) (-3 # 1, 1 # 1) = Some (-6 # 1, 3 # 1). Proof. reflexivity. Qed.

(* ---------- C50 *)
Theorem C50_floor x : inject_Z (rat_floor x) <= x < inject_Z (rat_floor x + 1).
Proof. split; [apply Qfloor_le|apply Qlt_floor]. Qed.
Print Assumptions C50_floor.
Theorem C50_ceil x : inject_Z (rat_ceil x - 1) < x <= inject_Z (rat_ceil x).
Proof.
  unfold rat_ceil. destruct (C50_floor (- x)) as [H1 H2]. rewrite <- (Qopp_involutive x) at 2 3. unfold rat_floor in *. split.
  - replace (- Qfloor (- x) - 1)%Z with (- (Qfloor (- x) + 1))%Z by lia. rewrite inject_Z_opp. apply Qopp_lt_compat. auto.
  - rewrite inject_Z_opp. apply Qopp_le_compat. auto.
Qed.
Print Assumptions C50_ceil.
(* nearest integer, ties upwards *)
Theorem C50_round x : x - (1 # 2) < inject_Z (rat_round x) <= x + (1 # 2).
Proof. unfold rat_round. destruct (C50_floor (x + (1 # 2))) as [H1 H2]. rewrite inject_Z_plus in H2. change (inject_Z 1) with 1 in H2. split; Lqa.lra. Qed.
Print Assumptions C50_round.
(* these inequalities determine the integers *)
Theorem C50_unique x (m n : Z) : (inject_Z m <= x < inject_Z (m + 1) -> m = rat_floor x) /\ (x - (1 # 2) < inject_Z n <= x + (1 # 2) -> n = rat_round x).
Proof.
  assert (U : forall y k, inject_Z k <= y < inject_Z (k + 1) -> k = rat_floor y).
  { intros y k [H1 H2]. destruct (C50_floor y) as [H3 H4]. assert (A : inject_Z k < inject_Z (rat_floor y + 1)) by Lqa.lra. assert (B : inject_Z (rat_floor y) < inject_Z (k + 1)) by Lqa.lra. rewrite <- Zlt_Qlt in A, B. lia. }
  split; [apply U|]. intros [H1 H2]. apply U. rewrite inject_Z_plus. change (inject_Z 1) with 1. split; Lqa.lra.
Qed.
Print Assumptions C50_unique.
Example C50_ex : rat_floor (-7 # 4) = (-2)%Z /\ rat_ceil (-7 # 4) = (-1)%Z /\ rat_round (-3 # 2) = (-1)%Z /\ rat_round (5 # 4) = 1%Z. Proof. vm_compute. auto. Qed.

(* ---------- C51: for every choice of interior points by the library function, after any number n of calls *)
Definition strictly_inside (x : Q) (r : Q * Q) : Prop := fst r < x < snd r.
Theorem C51_generator simplest : (forall u v, u < v -> u < simplest u v < v) -> forall a b n, a < b -> exists m l m', new_between a b = Some m /\ gen_take simplest n m = Some (l, m') /\ length l = n /\
  (forall x, In x l -> a < x < b) /\
  (forall i j x y, nth_error l i = Some x -> nth_error l j = Some y -> x == y -> i = j) /\
  (* the stored regions tile (a,b) minus the points yielded so far *)
  (forall u v, In (u, v) (flat m') -> u < v) /\
  (forall x, a < x < b -> (exists y, In y l /\ x == y) \/ exists r, In r (flat m') /\ strictly_inside x r) /\
  (forall x i j r s, nth_error (flat m') i = Some r -> nth_error (flat m') j = Some s -> strictly_inside x r -> strictly_inside x s -> i = j) /\
  (forall x r, In r (flat m') -> strictly_inside x r -> a < x < b /\ forall y, In y l -> ~ x == y).
Proof.
  intros HS a b n Hab. unfold new_between. destruct (Qlt_le_dec a b) as [_|C]; [|exfalso; apply (Qlt_not_le a b); auto]. exists [(b - a, [(a, b)])].
  destruct (gen_run simplest HS n [(b - a, [(a, b)])]) as (l & m' & E & L & F & NE & Lt & C); [intros k v [E|[]]; injection E as <- <-; discriminate|discriminate|intros u v [E|[]]; injection E as <- <-; auto|].
  exists l, m'. split; auto. split; auto. split; auto. set (inside := fun (x : Q) (r : Q * Q) => if Qlt_le_dec (fst r) x then if Qlt_le_dec x (snd r) then true else false else false).
  assert (In_in : forall x r, inside x r = true <-> strictly_inside x r). { intros x r. unfold inside, strictly_inside. destruct (Qlt_le_dec (fst r) x) as [H|H]; [destruct (Qlt_le_dec x (snd r)) as [H'|H']|]; split; auto; try discriminate; intros [H1 H2]; exfalso; [apply (Qlt_not_le x (snd r)); auto|apply (Qlt_not_le (fst r) x); auto]. }
  assert (C' : forall x, (if inside x (a, b) then 1 else 0)%nat = (length (filter (fun y => Qeq_bool x y) l) + length (filter (inside x) (flat m')))%nat).
  { intros x. specialize (C x). fold (inside x) in C. rewrite <- C. change (flat [(b - a, [(a, b)])]) with [(a, b)]. cbn [filter]. destruct (inside x (a, b)); reflexivity. }
  clear C. assert (Pos : forall A (f : A -> bool) (t : list A) x, In x t -> f x = true -> (1 <= length (filter f t))%nat).
  { intros A f t x Hx Hf. assert (Hin : In x (filter f t)) by (apply filter_In; auto). destruct (filter f t); [destruct Hin|cbn; lia]. }
  assert (Two : forall A (f : A -> bool) (t : list A) i j x y, nth_error t i = Some x -> nth_error t j = Some y -> (i < j)%nat -> f x = true -> f y = true -> (2 <= length (filter f t))%nat).
  { intros A f t. induction t as [|h t IH]; intros i j x y Hi Hj Hij Hx Hy; [destruct i; discriminate|]. cbn [filter]. destruct j as [|j]; [lia|]. destruct i as [|i].
    - injection Hi as ->. rewrite Hx. cbn [length]. assert (1 <= length (filter f t))%nat by (apply (Pos A f t y); auto; eapply nth_error_In; eauto). lia.
    - assert (2 <= length (filter f t))%nat by (apply (IH i j x y); auto; lia). destruct (f h); cbn [length]; lia. }
  assert (TwoN : forall A (f : A -> bool) (t : list A) i j x y, nth_error t i = Some x -> nth_error t j = Some y -> f x = true -> f y = true -> (length (filter f t) <= 1)%nat -> i = j).
  { intros A f t i j x y Hi Hj Hx Hy Hle. destruct (lt_eq_lt_dec i j) as [[H|H]|H]; auto; exfalso; [pose proof (Two A f t i j x y Hi Hj H Hx Hy)|pose proof (Two A f t j i y x Hj Hi H Hy Hx)]; lia. }
  split; [|split; [|split; [|split; [|split]]]].
  - intros x Hx. specialize (C' x). assert (1 <= length (filter (fun y => Qeq_bool x y) l))%nat by (apply (Pos Q (fun y => Qeq_bool x y) l x); auto; apply Qeq_bool_iff; reflexivity). destruct (inside x (a, b)) eqn:I; [|lia]. apply In_in in I. exact I.
  - intros i j x y Hi Hj Exy. specialize (C' x). apply (TwoN Q (fun y => Qeq_bool x y) l i j x y); auto; [apply Qeq_bool_iff; reflexivity|apply Qeq_bool_iff; auto|]. destruct (inside x (a, b)); lia.
  - auto.
  - intros x Hx. specialize (C' x). assert (I : inside x (a, b) = true) by (apply In_in; exact Hx). rewrite I in C'. destruct (filter (fun y => Qeq_bool x y) l) as [|y t] eqn:Ef.
    + right. cbn [length] in C'. destruct (filter (inside x) (flat m')) as [|r t] eqn:Er; [cbn in C'; lia|]. exists r. assert (Hin : In r (filter (inside x) (flat m'))) by (rewrite Er; left; auto). apply filter_In in Hin as [H1 H2]. split; auto. apply In_in. auto.
    + left. exists y. assert (Hin : In y (filter (fun y => Qeq_bool x y) l)) by (rewrite Ef; left; auto). apply filter_In in Hin as [H1 H2]. split; auto. apply Qeq_bool_iff. auto.
  - intros x i j r s Hi Hj Hr Hs. specialize (C' x). apply (TwoN _ (inside x) (flat m') i j r s); auto; try (apply In_in; auto). destruct (inside x (a, b)); lia.
  - intros x r Hr Hx. specialize (C' x). assert (1 <= length (filter (inside x) (flat m')))%nat by (apply (Pos _ (inside x) _ r); auto; apply In_in; auto). destruct (inside x (a, b)) eqn:I; [|lia]. split; [apply In_in in I; exact I|].
    intros y Hy Exy. assert (1 <= length (filter (fun y => Qeq_bool x y) l))%nat by (apply (Pos Q (fun y => Qeq_bool x y) l y); auto; apply Qeq_bool_iff; auto). lia.
Qed.
Print Assumptions C51_generator.
(* new_between_middle is new_between on the middle fraction f of the interval, inside [a,b] and centred *)
Theorem C51_middle a b f : a < b -> 0 < f -> f <= 1 -> exists a' b', new_between_middle a b f = new_between a' b' /\ a' < b' /\ a <= a' /\ b' <= b /\ b' - a' == f * (b - a) /\ a' - a == b - b'.
Proof.
  intros Hab H0 H1. unfold new_between_middle. destruct (Qlt_le_dec a b) as [_|C]; [|exfalso; apply (Qlt_not_le a b); auto]. destruct (Qlt_le_dec 0 f) as [_|C]; [|exfalso; apply (Qlt_not_le 0 f); auto]. destruct (Qlt_le_dec 1 f) as [C|_]; [exfalso; apply (Qlt_not_le 1 f); auto|].
  eexists. eexists. split; [reflexivity|]. assert (E : forall y, y / 2 == y * (1 # 2)) by (intros; reflexivity). rewrite !E. assert (0 < (b - a) * f) by (apply Qmult_lt_0_compat; Lqa.lra). assert ((b - a) * f <= (b - a)) by (rewrite <- (Qmult_1_r (b - a)) at 2; apply Qmult_le_l; Lqa.lra).
  split; [Lqa.lra|]. split; [Lqa.lra|]. split; [Lqa.lra|]. split; [ring|ring].
Qed.
Print Assumptions C51_middle.
Example C51_ex : exists m, new_between (1 # 4) 1 = Some m /\ exists l m', gen_take (fun a b => (a + b) * (1 # 2)) 5 m = Some (l, m') /\ length l = 5%nat. Proof. eexists. split; [reflexivity|]. eexists. eexists. split; [vm_compute; reflexivity|reflexivity]. Qed.
