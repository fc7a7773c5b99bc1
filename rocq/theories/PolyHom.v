(* The polynomial functions commute with every map of coefficient rings that preserves the operations and the equality test. *)
From Coq Require Import List Arith NArith Bool Lia.
From Verif Require Import RingSpec RingModel PermModel MatModel PolyModel.
Import ListNotations.
Close Scope rs_scope.
Open Scope nat_scope.

Record ops_hom (A B : ring_ops) (phi : T A -> T B) : Prop := {
  h_eq : forall x y : T A, req x y = req (phi x) (phi y);
  h_0 : phi r0 = r0;
  h_1 : phi r1 = r1;
  h_add : forall x y : T A, phi (radd x y) = radd (phi x) (phi y);
  h_mul : forall x y : T A, phi (rmul x y) = rmul (phi x) (phi y);
  h_neg : forall x : T A, phi (rneg x) = rneg (phi x)
}.
Definition dmap {S S'} (f : S -> S') (d : divres S) : divres S' :=
  match d with DivOk q => DivOk (f q) | DivideByZero => DivideByZero | NotDivisible => NotDivisible end.

Section Hom.
Context {A B : ring_ops} (phi : T A -> T B) (H : ops_hom A B phi).
Notation pA := (list (T A)).
Notation M := (map phi).
Lemma hom_coeff (a : pA) i : phi (p_coeff a i) = p_coeff (M a) i.
Proof. unfold p_coeff. rewrite <- (h_0 _ _ _ H). symmetry. apply map_nth. Qed.
Lemma hom_is_zero (x : T A) : is_zero x = is_zero (phi x).
Proof. unfold is_zero. rewrite (h_eq _ _ _ H), (h_0 _ _ _ H). reflexivity. Qed.
Lemma forallb_ext' {X} (f g : X -> bool) l : (forall x, f x = g x) -> forallb f l = forallb g l.
Proof. intros E. induction l; cbn; [reflexivity|]. rewrite E, IHl. reflexivity. Qed.
Lemma hom_equal (a b : pA) : p_equal a b = p_equal (M a) (M b).
Proof. unfold p_equal. rewrite !map_length. apply forallb_ext'. intros i. rewrite (h_eq _ _ _ H), !hom_coeff. reflexivity. Qed.
Lemma hom_p_is_zero (a : pA) : p_is_zero a = p_is_zero (M a).
Proof. unfold p_is_zero. rewrite hom_equal. reflexivity. Qed.
Lemma hom_strip (a : pA) : M (strip a) = strip (M a).
Proof. induction a as [|c a IH]; cbn [strip map]; [reflexivity|]. rewrite (h_eq _ _ _ H), (h_0 _ _ _ H). destruct (req (phi c) r0); [exact IH|reflexivity]. Qed.
Lemma hom_reduce (a : pA) : M (reduce_poly a) = reduce_poly (M a).
Proof. unfold reduce_poly. rewrite map_rev, hom_strip, map_rev. reflexivity. Qed.
Lemma hom_p_add (a b : pA) : M (p_add a b) = p_add (M a) (M b).
Proof. unfold p_add. rewrite hom_reduce, map_map, !map_length. f_equal. apply map_ext. intros i. rewrite (h_add _ _ _ H), !hom_coeff. reflexivity. Qed.
Lemma hom_p_neg (a : pA) : M (p_neg a) = p_neg (M a).
Proof. unfold p_neg. rewrite !map_map. apply map_ext. intros x. apply (h_neg _ _ _ H). Qed.
Lemma hom_add_at (l : pA) k x : M (add_at l k x) = add_at (M l) k (phi x).
Proof. revert k. induction l as [|c l IH]; intros [|k]; cbn [add_at map]; auto; [rewrite (h_add _ _ _ H); reflexivity|rewrite IH; reflexivity]. Qed.
Lemma hom_fold {X} (f : pA -> X -> pA) (g : list (T B) -> X -> list (T B)) l s : (forall s x, M (f s x) = g (M s) x) -> M (fold_left f l s) = fold_left g l (M s).
Proof. intros E. revert s. induction l as [|x l IH]; intros s; cbn [fold_left]; [reflexivity|]. rewrite IH, E. reflexivity. Qed.
Lemma hom_nth (a : pA) i : phi (nth i a r0) = nth i (M a) r0.
Proof. exact (hom_coeff a i). Qed.
Lemma hom_repeat0 n : M (repeat r0 n) = repeat r0 n.
Proof. induction n; cbn [repeat map]; [reflexivity|]. rewrite (h_0 _ _ _ H), IHn. reflexivity. Qed.
Lemma hom_p_mul (a b : pA) : M (p_mul a b) = p_mul (M a) (M b).
Proof.
  unfold p_mul. rewrite hom_reduce, !map_length. f_equal. rewrite <- (hom_repeat0 (length a + length b)). apply hom_fold. intros s i. apply hom_fold. intros s' j. rewrite hom_add_at, (h_mul _ _ _ H), !hom_nth. reflexivity.
Qed.
Lemma hom_p_mul_scalar (a : pA) x : M (p_mul_scalar a x) = p_mul_scalar (M a) (phi x).
Proof. unfold p_mul_scalar. rewrite hom_reduce, !map_map. f_equal. apply map_ext. intros c. apply (h_mul _ _ _ H). Qed.
Lemma hom_p_mul_var_pow (a : pA) n : M (p_mul_var_pow a n) = p_mul_var_pow (M a) n.
Proof. unfold p_mul_var_pow. rewrite map_app, hom_repeat0. reflexivity. Qed.
Lemma hom_degree (a : pA) : p_degree a = p_degree (M a).
Proof.
  unfold p_degree. rewrite map_length. induction (length a) as [|k IH]; cbn [degree_loop]; [reflexivity|]. rewrite hom_is_zero, hom_coeff. destruct (negb _); auto.
Qed.
Lemma hom_num_coeffs (a : pA) : p_num_coeffs a = p_num_coeffs (M a).
Proof. unfold p_num_coeffs. rewrite hom_degree. reflexivity. Qed.
Lemma hom_leading_coeff (a : pA) : option_map phi (p_leading_coeff a) = p_leading_coeff (M a).
Proof. unfold p_leading_coeff. rewrite <- hom_degree. destruct (p_degree a); [|reflexivity]. rewrite nth_error_map. reflexivity. Qed.
Lemma hom_is_monic (a : pA) : p_is_monic a = p_is_monic (M a).
Proof. unfold p_is_monic. rewrite <- hom_leading_coeff. destruct (p_leading_coeff a); cbn [option_map]; [|reflexivity]. rewrite (h_eq _ _ _ H), (h_1 _ _ _ H). reflexivity. Qed.
(* the polynomial rings *)
Lemma hom_poly : ops_hom (@poly_ops A) (@poly_ops B) M.
Proof.
  split; cbn [req r0 r1 radd rmul rneg poly_ops RingSpec.T].
  - exact hom_equal.
  - reflexivity.
  - unfold p_one. cbn [map]. rewrite (h_1 _ _ _ H). reflexivity.
  - exact hom_p_add.
  - exact hom_p_mul.
  - exact hom_p_neg.
Qed.
Section Div.
Variables (divA : div_op A) (divB : div_op B).
Hypothesis Hd : forall x y, dmap phi (divA x y) = divB (phi x) (phi y).
Notation M2 := (fun qr : pA * pA => (M (fst qr), M (snd qr))).
Lemma hom_quorem_loop (b : pA) n i a q : option_map (dmap M2) (quorem_loop divA b n i a q) = quorem_loop divB (M b) n i (M a) (M q).
Proof.
  revert a q. induction i as [|i IH]; intros a q; cbn [quorem_loop]; [reflexivity|]. rewrite <- !hom_coeff, <- Hd. destruct (divA _ _) as [c| |]; cbn [dmap option_map]; try reflexivity.
  rewrite IH. cbn [map]. rewrite hom_p_add, hom_p_neg, hom_p_mul_var_pow, hom_p_mul_scalar. reflexivity.
Qed.
Lemma hom_try_quorem (a b : pA) : option_map (dmap M2) (try_quorem divA a b) = try_quorem divB (M a) (M b).
Proof.
  unfold try_quorem. rewrite <- !hom_num_coeffs. destruct (_ =? 0); [reflexivity|]. destruct (_ <? _); [reflexivity|]. apply hom_quorem_loop.
Qed.
Lemma hom_p_div (a b : pA) : option_map (dmap M) (p_div divA a b) = p_div divB (M a) (M b).
Proof.
  unfold p_div. rewrite <- hom_try_quorem. destruct (try_quorem divA a b) as [[[q r]| |]|]; cbn [obind option_map dmap fst snd]; try reflexivity.
  rewrite <- hom_p_mul, <- hom_p_add, <- hom_equal. destruct (p_equal _ a); [|reflexivity]. rewrite <- hom_p_is_zero. destruct (p_is_zero r); reflexivity.
Qed.
Lemma hom_p_quorem (a b : pA) : option_map (option_map M2) (p_quorem divA a b) = p_quorem divB (M a) (M b).
Proof. unfold p_quorem. rewrite <- hom_try_quorem. destruct (try_quorem divA a b) as [[[q r]| |]|]; reflexivity. Qed.
Section Ffa.
Variables (ffaA : ffa_op A) (ffaB : ffa_op B).
Hypothesis Hf : forall x, (phi (fst (ffaA x)), phi (snd (ffaA x))) = ffaB (phi x).
Lemma hom_p_ffa (a : pA) : option_map M2 (p_factor_fav_assoc divA ffaA a) = p_factor_fav_assoc divB ffaB (M a).
Proof.
  unfold p_factor_fav_assoc. rewrite <- hom_p_is_zero. destruct (p_is_zero a); cbn [option_map fst snd]; [unfold p_one; cbn [map]; rewrite (h_1 _ _ _ H); reflexivity|].
  rewrite <- hom_num_coeffs, <- hom_nth, <- Hf. cbn [fst]. set (u := fst (ffaA _)).
  assert (E : forall l, option_map M (mapM (fun c => match divA c u with DivOk q => Some q | _ => None end) l) = mapM (fun c => match divB c (phi u) with DivOk q => Some q | _ => None end) (M l)).
  { induction l as [|c l IH]; cbn [mapM map]; [reflexivity|]. rewrite <- Hd. destruct (divA c u) as [q| |]; cbn [dmap obind]; try reflexivity.
    rewrite <- IH. destruct (mapM _ l); reflexivity. }
  rewrite <- E. destruct (mapM _ a); reflexivity.
Qed.
End Ffa.
End Div.
End Hom.

(* euclidean_xgcd commutes with maps of Euclidean structures *)
Section Xgcd.
Context {A B : ring_ops} (phi : T A -> T B) (H : ops_hom A B phi).
Variables (divA : div_op A) (divB : div_op B) (ffaA : ffa_op A) (ffaB : ffa_op B).
Variables (qA : T A -> T A -> option (T A * T A)) (qB : T B -> T B -> option (T B * T B)).
Hypothesis Hd : forall x y, dmap phi (divA x y) = divB (phi x) (phi y).
Hypothesis Hf : forall x, (phi (fst (ffaA x)), phi (snd (ffaA x))) = ffaB (phi x).
Hypothesis Hq : forall x y, option_map (fun qr => (phi (fst qr), phi (snd qr))) (qA x y) = qB (phi x) (phi y).
Lemma hom_xgcd_loop fuel x y pa a pb b :
  option_map (fun g => (phi (fst (fst g)), phi (snd (fst g)), phi (snd g))) (xgcd_loop divA ffaA qA fuel x y pa a pb b) =
  xgcd_loop divB ffaB qB fuel (phi x) (phi y) (phi pa) (phi a) (phi pb) (phi b).
Proof.
  revert x y pa a pb b. induction fuel as [|fuel IH]; intros x y pa a pb b; cbn [xgcd_loop]; [reflexivity|].
  rewrite <- (hom_is_zero phi H). destruct (negb (is_zero y)).
  - rewrite <- Hq. destruct (qA x y) as [[q r]|]; cbn [option_map fst snd]; [|reflexivity]. rewrite IH, !(h_add _ _ _ H), !(h_neg _ _ _ H), !(h_mul _ _ _ H). reflexivity.
  - rewrite <- Hf. destruct (ffaA x) as [u s]. cbn [fst snd]. rewrite <- !Hd. destruct (divA pa u); cbn [dmap]; try reflexivity. destruct (divA pb u); reflexivity.
Qed.
Lemma hom_euclidean_xgcd fuel x y :
  option_map (fun g => (phi (fst (fst g)), phi (snd (fst g)), phi (snd g))) (euclidean_xgcd divA ffaA qA fuel x y) = euclidean_xgcd divB ffaB qB fuel (phi x) (phi y).
Proof. unfold euclidean_xgcd. rewrite hom_xgcd_loop, (h_0 _ _ _ H), (h_1 _ _ _ H). reflexivity. Qed.
End Xgcd.
