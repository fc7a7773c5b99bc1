(* C72: K[x]/(m) as a vector space: multiplication matrices, coordinate vectors, norm, trace, discriminant
   (polynomial/quotient.rs l.8-84, number/anf/number_field.rs l.30-41). *)
From Coq Require Import List Arith NArith ZArith.
From mathcomp Require Import all_ssreflect all_algebra all_field.
From Coq Require Import Lia.
From Verif Require Import RingSpec RingModel PermModel MatModel MatSpec MatInst MatViewSpec MatProofs MatProofs2 MatProofs7 MatProofs8 PolyModel PolySpec PolyProofs PolyProofs2 PolyProofs3 QpModel QpProofs QpProofs2.
Close Scope rs_scope.
Set Implicit Arguments.
Unset Strict Implicit.
Unset Printing Implicit Defensive.
Import GRing.Theory.
Local Open Scope ring_scope.

(* the coordinates of the class of b modulo P with respect to 1, x, .., x^(n-1) *)
Definition coords (K : fieldType) (P : {poly K}) n (b : {poly K}) : 'cV[K]_n := \col_(i < n) (b %% P)`_i.
(* the distinct or repeated roots of P in an extension of K, listed with multiplicity *)
Definition splits_over (K L : fieldType) (f : {rmorphism K -> L}) (P : {poly K}) (rs : seq L) : Prop :=
  exists c : L, c != 0 /\ map_poly f P = c *: \prod_(x <- rs) ('X - x%:P).

Section C72.
Variable K : fieldType.
Notation O := (mc_ops [idomainType of K]).
Notation mat := (matrix (T O)).
Notation div := (@Fdiv K).
Notation ffa := (@Fffa K).
Notation xgcd := (@Fxgcd K).
Implicit Types (m a b : seq K).
Notation deg m := (size (Poly m)).-1.

(* the matrix of b |-> a b: no panic for a modulus of positive degree *)
Theorem C72_multiplication m a : (1 < size (Poly m))%N -> exists x X, [/\ @col_multiplication_matrix O div m a = Some x, represents x X &
  forall b : {poly K}, X *m coords (Poly m) (deg m) b = coords (Poly m) (deg m) (Poly a * b)].
Proof.
  move=> H. have M0 : Poly m != 0 by rewrite -size_poly_gt0 ltnW. have n0 : (0 < deg m)%N by case: (size _) H => [|[]].
  have [x [Ex Rx]] := colmx_ok M0 a n0. exists x, (Mmx m (Poly a)). split=> // b. exact: Mmx_vec.
Qed.
Theorem C72_row_multiplication m a : (1 < size (Poly m))%N -> exists x X, [/\ @row_multiplication_matrix O div m a = Some x, represents x X &
  forall b : {poly K}, (coords (Poly m) (deg m) b)^T *m X = (coords (Poly m) (deg m) (Poly a * b))^T].
Proof.
  move=> H. have [x [X [Ex Rx HX]]] := C72_multiplication a H. exists (transpose x), X^T. rewrite /row_multiplication_matrix Ex. split=> //; first exact: repr_tr.
  move=> b. by rewrite -trmx_mul HX.
Qed.
(* a constant modulus makes it panic: a matrix must have at least one row; so do norm and trace *)
Theorem C72_constant_modulus m a : size (Poly m) = 1%N -> [/\ @col_multiplication_matrix O div m a = None, @q_norm O div ffa xgcd m a = None & @q_trace O div m a = None].
Proof.
  move=> H. have E : @col_multiplication_matrix O div m a = None.
  { rewrite /col_multiplication_matrix degree_ok ?H //. by rewrite -size_poly_gt0 H. }
  by rewrite /q_norm /q_trace E.
Qed.
(* coordinate vectors, and back *)
Theorem C72_to_vector m a : Poly m != 0 -> exists v r, [/\ @to_col_vector O div m a = Some v /\ represents v (coords (Poly m) (deg m) (Poly a)),
  @to_row_vector O div m a = Some r /\ represents r (coords (Poly m) (deg m) (Poly a))^T,
  (exists b, @from_col_vector O m v = Some b /\ Poly b = Poly a %% Poly m) & exists b, @from_row_vector O m r = Some b /\ Poly b = Poly a %% Poly m].
Proof.
  move=> M0. have [v [Ev Rv]] := to_vec_ok M0 a. exists v, (transpose v). rewrite /to_row_vector Ev.
  have B w (Rw : represents w (vec m (Poly a))) : exists b, @from_col_vector O m w = Some b /\ Poly b = Poly a %% Poly m.
  { have [b [Eb Hb]] := from_vec_ok M0 Rw. exists b. split=> //. rewrite -(vec_inj M0 (vec_poly M0 (vec m (Poly a)))) Hb (smallM M0) //. exact: size_poly. }
  split=> //; [by split=> //; exact: repr_tr|exact: B|]. rewrite /from_row_vector. apply: B. rewrite -[vec m _]trmxK. exact: repr_tr (repr_tr Rv).
Qed.
Theorem C72_from_vector m v (V : 'cV[K]_(deg m)) : Poly m != 0 -> represents v V -> exists b, @from_col_vector O m v = Some b /\ coords (Poly m) (deg m) (Poly b) = V.
Proof. move=> M0 Rv. have [b [Eb Hb]] := from_vec_ok M0 Rv. exists b. split=> //. rewrite Hb. exact: vec_poly. Qed.
Theorem C72_from_vector_panic m v : Poly m != 0 -> (cols v <> 1%N \/ rows v <> deg m) -> @from_col_vector O m v = None.
Proof.
  move=> M0 H. rewrite /from_col_vector degree_ok // !eqb_nat. case E1: (cols v == 1%N) => //. cbn [obind]. rewrite eqb_nat. case E2: (rows v == deg m) => //.
  by case: H => /eqP; rewrite ?E1 ?E2.
Qed.
(* norm and trace: over any extension in which the modulus splits they are the product and the sum of the values at its roots *)
Section Roots.
Variables (L : fieldType) (f : {rmorphism K -> L}).
Variables (m : seq K) (rs : seq L).
Hypothesis S : splits_over f (Poly m) rs.
Lemma S_size : size (Poly m) = (size rs).+1.
Proof. case: S => c [c0 E]. by rewrite -(size_map_poly f) E size_scale // size_prod_XsubC. Qed.
Lemma S_eqp : map_poly f (Poly m) %= pr rs.
Proof. case: S => c [c0 ->]. exact: eqp_scale. Qed.
Lemma S_n : deg m = size rs. Proof. by rewrite S_size. Qed.
Lemma Mx_cast n n' (P A : {poly L}) : n = n' -> \det (Mx P n A) = \det (Mx P n' A) /\ \tr (Mx P n A) = \tr (Mx P n' A).
Proof. by move=> ->. Qed.
Theorem C72_norm a : (1 < size (Poly m))%N -> exists x, @q_norm O div ffa xgcd m a = Some x /\ f x = \prod_(r <- rs) (map_poly f (Poly a)).[r].
Proof.
  move=> H. have M0 : Poly m != 0 by rewrite -size_poly_gt0 ltnW. have n0 : (0 < deg m)%N by case: (size _) H => [|[]].
  have [x [Ex Rx]] := colmx_ok M0 a n0. rewrite /q_norm Ex. cbn [obind]. rewrite (det_ok (@Fbezout K) Rx). eexists. split; first reflexivity.
  by rewrite -det_map_mx (Mx_map f (Poly m) (Poly a)) (proj1 (Mx_cast _ _ S_n)) (Mx_det S_eqp).
Qed.
Theorem C72_trace a : (1 < size (Poly m))%N -> exists x, @q_trace O div m a = Some x /\ f x = \sum_(r <- rs) (map_poly f (Poly a)).[r].
Proof.
  move=> H. have M0 : Poly m != 0 by rewrite -size_poly_gt0 ltnW. have n0 : (0 < deg m)%N by case: (size _) H => [|[]].
  have [x [Ex Rx]] := colmx_ok M0 a n0. rewrite /q_trace Ex. cbn [obind]. rewrite (trace_repr Rx). eexists. split; first reflexivity.
  rewrite (_ : f (\tr _) = \tr (map_mx f (Mmx m (Poly a)))); last by rewrite trace_map_mx.
  by rewrite (Mx_map f (Poly m) (Poly a)) (proj2 (Mx_cast _ _ S_n)) (Mx_tr S_eqp).
Qed.
(* the trace form of n elements and its determinant: the square of the determinant of their conjugates *)
Theorem C72_discriminant (es : seq (seq K)) : (1 < size (Poly m))%N -> size es = deg m -> exists t D d, [/\
  @trace_form_matrix O div m es = Some t /\ represents t D,
  (forall i j : 'I_(deg m), f (D i j) = \sum_(r <- rs) (map_poly f (Poly (nth nil es i) * Poly (nth nil es j))).[r]),
  @q_discriminant O div ffa xgcd m es = Some d &
  f d = (\det (\matrix_(i < deg m, j < deg m) (map_poly f (Poly (nth nil es j))).[nth 0 rs i])) ^+ 2].
Proof.
  move=> H Hn. have M0 : Poly m != 0 by rewrite -size_poly_gt0 ltnW. have n0 : (0 < deg m)%N by case: (size _) H => [|[]].
  have Q a : @q_trace O div m a = Some (\tr (Mmx m (Poly a))).
  { have [x [Ex Rx]] := colmx_ok M0 a n0. rewrite /q_trace Ex. cbn [obind]. by rewrite (trace_repr Rx). }
  pose D : 'M[K]_(deg m) := \matrix_(i, j) \tr (Mmx m (Poly (nth nil es i) * Poly (nth nil es j))).
  have FD (i j : 'I_(deg m)) : f (D i j) = \sum_(r <- rs) (map_poly f (Poly (nth nil es i) * Poly (nth nil es j))).[r].
  { rewrite mxE. rewrite (_ : f (\tr _) = \tr (map_mx f (Mmx m (Poly (nth nil es i) * Poly (nth nil es j))))); last by rewrite trace_map_mx.
    by rewrite (Mx_map f (Poly m)) (proj2 (Mx_cast _ _ S_n)) (Mx_tr S_eqp). }
  have [t [Et Rt]] : exists t, @trace_form_matrix O div m es = Some t /\ represents t D.
  { rewrite /trace_form_matrix degree_ok //. cbn [obind]. rewrite eqb_nat lengthE Hn eqxx. cbn [obind].
    apply: construct_repr => i j. rewrite mxE.
    rewrite (_ : List.nth_error es i = Some (nth nil es i)); last by rewrite -nthE; apply: List.nth_error_nth'; apply/ltP; rewrite lengthE Hn.
    cbn [obind]. rewrite (_ : List.nth_error es j = Some (nth nil es j)); last by rewrite -nthE; apply: List.nth_error_nth'; apply/ltP; rewrite lengthE Hn.
    cbn [obind]. by rewrite Q p_mulE polyseqK. }
  exists t, D, (\det D). split=> //; first by rewrite /q_discriminant Et; cbn [obind]; rewrite (det_ok (@Fbezout K) Rt).
  set V := \matrix_(_, _) _. rewrite -det_map_mx expr2 -{1}(det_tr V) -det_mulmx. congr determinant. apply/matrixP => i j. rewrite [LHS]mxE FD [RHS]mxE.
  rewrite (big_nth 0) -S_n big_mkord. apply: eq_bigr => k _. by rewrite !mxE rmorphM hornerM.
Qed.
Theorem C72_discriminant_panic (es : seq (seq K)) : Poly m != 0 -> size es <> deg m -> @q_discriminant O div ffa xgcd m es = None.
Proof.
  move=> M0 H. rewrite /q_discriminant /trace_form_matrix degree_ok //. cbn [obind]. rewrite eqb_nat lengthE. by case: eqP => // E; case: H.
Qed.
End Roots.
(* consequences that need no roots *)
Lemma normE m a : (1 < size (Poly m))%N -> @q_norm O div ffa xgcd m a = Some (\det (Mmx m (Poly a))).
Proof.
  move=> H. have M0 : Poly m != 0 by rewrite -size_poly_gt0 ltnW. have n0 : (0 < deg m)%N by case: (size _) H => [|[]].
  have [x [Ex Rx]] := colmx_ok M0 a n0. rewrite /q_norm Ex. cbn [obind]. by rewrite (det_ok (@Fbezout K) Rx).
Qed.
Theorem C72_norm_mul m a b : (1 < size (Poly m))%N -> exists x y, [/\ @q_norm O div ffa xgcd m a = Some x, @q_norm O div ffa xgcd m b = Some y &
  @q_norm O div ffa xgcd m (@p_mul O a b) = Some (x * y)].
Proof.
  move=> H. have M0 : Poly m != 0 by rewrite -size_poly_gt0 ltnW. eexists; eexists. split; [exact: normE|exact: normE|]. by rewrite normE // p_mulE polyseqK (MmxM M0) det_mulmx.
Qed.
(* the norm vanishes exactly on the elements that are not invertible modulo m *)
Theorem C72_norm_zero m a : (1 < size (Poly m))%N -> @q_norm O div ffa xgcd m a = Some 0 <-> ~ exists b : {poly K}, (Poly a * b) %% Poly m = 1.
Proof.
  move=> H. have M0 : Poly m != 0 by rewrite -size_poly_gt0 ltnW. have n0 : (0 < deg m)%N by case: (size _) H => [|[]].
  have U := Mmx_unit M0 (Poly a) n0. rewrite unitmxE unitfE in U. rewrite normE //.
  have E : coprimep (Poly a) (Poly m) <-> exists b : {poly K}, (Poly a * b) %% Poly m = 1.
  { split.
    - move/Bezout_eq1_coprimepP => [[u v] /= E]. exists u. have -> : Poly a * u = 1 + (- v) * Poly m by rewrite -E mulNr addrK mulrC.
      by rewrite modpD modp_mull addr0 modp_small // size_poly1.
    - move=> [b E]. apply/Bezout_eq1_coprimepP. exists (b, - ((Poly a * b) %/ Poly m)) => /=. rewrite {1}[b]lock mulrC -lock [X in X + _](divp_eq _ (Poly m)) E mulNr addrAC subrr add0r //. }
  rewrite -E -U. split=> [[->]|]; first by rewrite eqxx. by case: eqP => // ->.
Qed.
End C72.
Print Assumptions C72_multiplication. Print Assumptions C72_row_multiplication. Print Assumptions C72_constant_modulus. Print Assumptions C72_to_vector.
Print Assumptions C72_from_vector. Print Assumptions C72_from_vector_panic. Print Assumptions C72_norm. Print Assumptions C72_trace. Print Assumptions C72_discriminant.
Print Assumptions C72_discriminant_panic. Print Assumptions C72_norm_mul. Print Assumptions C72_norm_zero.
(* every modulus over the rationals splits over the complex algebraic numbers *)
Lemma ratr_splits (P : {poly rat}) : P != 0 -> exists rs : seq algC, splits_over [rmorphism of (ratr : rat -> algC)] P rs.
Proof.
  move=> P0. have [rs E] := closed_field_poly_normal (map_poly (ratr : rat -> algC) P). exists rs. eexists. split; last exact: E.
  by rewrite lead_coef_eq0 map_poly_eq0.
Qed.
Corollary C72_number_field (m a : seq rat) : (1 < size (Poly m))%N -> exists (rs : seq algC) x y,
  [/\ splits_over [rmorphism of (ratr : rat -> algC)] (Poly m) rs,
      @q_norm (mc_ops [comRingType of rat]) (@Fdiv [fieldType of rat]) (@Fffa [fieldType of rat]) (@Fxgcd [fieldType of rat]) m a = Some x,
      ratr x = \prod_(r <- rs) (map_poly ratr (Poly a)).[r],
      @q_trace (mc_ops [comRingType of rat]) (@Fdiv [fieldType of rat]) m a = Some y & ratr y = \sum_(r <- rs) (map_poly ratr (Poly a)).[r]].
Proof.
  move=> H. have M0 : Poly m != 0 by rewrite -size_poly_gt0 ltnW. have [rs S] := ratr_splits M0.
  have [x [Ex Hx]] := C72_norm S a H. have [y [Ey Hy]] := C72_trace S a H. by exists rs, x, y.
Qed.
Print Assumptions C72_number_field.
(* Q(sqrt 2): norm and trace of 3 + x are 7 and 6, the discriminant of 1, x is 8; Q[x]/(1) panics *)
Notation RO := (mc_ops [comRingType of rat]).
Notation Rdiv := (@Fdiv [fieldType of rat]). Notation Rffa := (@Fffa [fieldType of rat]). Notation Rxgcd := (@Fxgcd [fieldType of rat]).
Definition two_m : seq rat := [:: - 2%:Q; 0; 1].
Definition is_some (o : option rat) (x : rat) : bool := match o with Some y => y == x | None => false end.
Example C72_ex : [/\ is_some (@q_norm RO Rdiv Rffa Rxgcd two_m [:: 3%:Q; 1]) 7%:Q = true, is_some (@q_trace RO Rdiv two_m [:: 3%:Q; 1]) 6%:Q = true,
  is_some (@q_discriminant RO Rdiv Rffa Rxgcd two_m [:: [:: 1]; [:: 0; 1]]) 8%:Q = true & @q_norm RO Rdiv Rffa Rxgcd [:: 1] [:: 1] = None].
Proof. split; by vm_compute. Qed.
Example C72_ex_modulus : (1 < size (Poly two_m))%N.
Proof. by rewrite (@PolyK _ 0). Qed.
