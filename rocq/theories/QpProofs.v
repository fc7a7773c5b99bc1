(* K[x]/(m) as a vector space: the multiplication matrix. *)
From Coq Require Import List Arith NArith ZArith.
From mathcomp Require Import all_ssreflect all_algebra.
From Coq Require Import Lia.
From Verif Require Import RingSpec RingModel PermModel MatModel MatSpec MatInst MatViewSpec MatProofs MatProofs2 MatProofs7 MatProofs8 PolyModel PolySpec PolyProofs PolyProofs2 PolyProofs3 QpModel.
Close Scope rs_scope.
Set Implicit Arguments.
Unset Strict Implicit.
Unset Printing Implicit Defensive.
Import GRing.Theory.
Local Open Scope ring_scope.

Lemma catE (A : Type) (l1 l2 : list A) : List.app l1 l2 = l1 ++ l2. Proof. by []. Qed.
Section Qp.
Variable K : fieldType.
Notation O := (mc_ops [idomainType of K]).
Notation mat := (matrix (T O)).
Notation D := (@Fidom K).
Notation div := (@Fdiv K).
Variable m : seq K.
Notation M := (Poly m).
Notation n := (size M).-1.
Hypothesis M0 : M != 0.
Lemma size_M : size M = n.+1. Proof. by rewrite prednK // size_poly_gt0. Qed.
Lemma smallM (P : {poly K}) : (size P <= n)%N -> P %% M = P. Proof. move=> H. by rewrite modp_small // size_M ltnS. Qed.
Definition normal (a : seq K) : Prop := exists A : {poly K}, a = polyseq A.
Lemma normal_size a : normal a -> size a = size (Poly a).
Proof. by case=> A ->; rewrite polyseqK. Qed.
Lemma loop_normal (b : seq K) N : forall i a q q' r, normal a -> @quorem_loop O div b N i a q = Some (DivOk (q', r)) -> normal r.
Proof.
  elim=> [|i IH] a q q' r Ha /=; first by move=> [_ <-].
  case: div => // qc. apply: IH. exists (Poly a + Poly (@p_neg O (@p_mul_var_pow O (@p_mul_scalar O b qc) i))). exact: p_addE.
Qed.
Lemma rem_ok (a : seq K) : exists r, [/\ q_rem div a m = Some r, Poly r = Poly a %% M & (size (Poly r) <= n)%N /\ (normal a -> normal r)].
Proof.
  rewrite /q_rem -[O]/(mc_ops [idomainType of K]) p_is_zeroE (negbTE M0) /p_quorem. have := try_quorem_ok D a m. case E: try_quorem => [[[q r]||]|] //=.
  - move=> [H1 H2 H3]. exists r. split=> //.
    + by rewrite H2 modp_addl_mul_small.
    + split; first by rewrite -ltnS -size_M.
      move=> Ha. move: E. rewrite /try_quorem. case: ifP => // _. case: ifP => _; first by case=> _ <-. exact: loop_normal.
  - move=> H. by move: M0; rewrite H eqxx.
  - move=> [_ H]. exfalso. apply: (H (Poly a %/ M) (Poly a %% M)); first by rewrite ltn_modp. exact: divp_eq.
Qed.
Lemma degree_ok : @q_degree O m = Some n.
Proof. rewrite /q_degree p_degreeE. by rewrite size_M. Qed.
Definition Mmx (A : {poly K}) : 'M[K]_n := \matrix_(i < n, j < n) ((A * 'X^j) %% M)`_i.
Lemma mul_normal (a b : seq K) : normal (@p_mul O a b).
Proof. exists (Poly a * Poly b). exact: p_mulE. Qed.
Lemma colmx_ok (a : seq K) : (0 < n)%N -> exists x, @col_multiplication_matrix O div m a = Some x /\ represents x (Mmx (Poly a)).
Proof.
  move=> n0. rewrite /col_multiplication_matrix degree_ok. cbn [obind].
  pose c j : seq K := [seq ((Poly a * 'X^j) %% M)`_i | i <- iota 0 n].
  rewrite (mapM_some _ c); last first.
  { move=> j _. have [r [Er Hr [Hs Hn]]] := rem_ok (@p_mul O a (@p_var_pow O j)). rewrite /q_reduce Er. cbn [obind].
    have {Hn} Nr := Hn (mul_normal _ _). have Sr := normal_size Nr. rewrite lengthE leb_nat Sr Hs. cbn [obind]. congr Some.
    have EP : Poly r = (Poly a * 'X^j) %% M by rewrite Hr p_mulE polyseqK p_var_powE.
    apply: (@eq_from_nth _ 0).
    - by rewrite /c size_map size_iota catE size_cat repeatE size_nseq minusE Sr subnKC.
    - move=> i. rewrite catE size_cat repeatE size_nseq minusE Sr subnKC // => Hi. rewrite /c (nth_map 0%N) ?size_iota // nth_iota // add0n -EP coef_Poly nth_cat.
      case: ltnP => Hr'; first by []. by rewrite nth_nseq if_same [in RHS]nth_default. }
  cbn [obind]. rewrite /from_cols. have [||x [Ex Sx]] := @from_rows_shows K 0 (List.map c (range 0 n)) n.
  - have : length (List.map c (range 0 n)) = n by rewrite lengthE mapE size_map -lengthE range_length minusE subn0. case: (List.map _ _) => // E. by move: n0; rewrite -E.
  - move=> row /List.in_map_iff [j [<- _]]. by rewrite lengthE /c size_map size_iota.
  - rewrite Ex. cbn [obind]. eexists. split; first reflexivity. 
    have Hl : length (List.map c (range 0 n)) = n by rewrite List.map_length range_length minusE subn0.
    have S' := proj1 (shows_shape _ _) Sx. rewrite Hl in S'. apply: (shape_reprE (shape_tr _ _ _ _ S')) => i j. rewrite mxE.
    cbn [sentry]. have Er : range 0 n = iota 0 n by rewrite /range seqE minusE subn0. rewrite !nthE mapE Er (nth_map 0%N) ?size_iota // nth_iota // add0n.
    by rewrite /c (nth_map 0%N) ?size_iota // nth_iota.
Qed.
(* vectors *)
Definition vec (A : {poly K}) : 'cV[K]_n := \col_i (A %% M)`_i.
Lemma to_vec_ok (a : seq K) : exists v, @to_col_vector O div m a = Some v /\ represents v (vec (Poly a)).
Proof.
  rewrite /to_col_vector degree_ok. cbn [obind]. have [r [Er Hr _]] := rem_ok a. rewrite /q_reduce Er. cbn [obind].
  have [|v [Ev Rv]] := @construct_repr [comRingType of K] n 1 (fun i _ => Some (@p_coeff O r i)) (vec (Poly a)); last by exists v.
  move=> i j. by rewrite mxE p_coeffE Hr.
Qed.
Lemma from_vec_ok (v : mat) (V : 'cV[K]_n) : represents v V -> exists r, @from_col_vector O m v = Some r /\ Poly r = \poly_(i < n) (if insub i is Some i' then V i' 0 else 0).
Proof.
  move=> Hv. rewrite /from_col_vector (repr_cols Hv) (repr_rows Hv) degree_ok PeanoNat.Nat.eqb_refl. cbn [obind]. rewrite PeanoNat.Nat.eqb_refl. cbn [obind].
  rewrite (mapM_some _ (fun i => if insub i is Some i' then V i' 0 else 0)); last first.
  { move=> i /in_rangeP /= Hi. rewrite insubT. exact: (repr_getE (Sub i Hi) ord0 Hv). }
  eexists. split; first reflexivity. apply/polyP => i. rewrite coef_Poly coef_poly mapE.
  have Er : range 0 n = iota 0 n by rewrite /range seqE minusE subn0. rewrite Er.
  case: ltnP => Hi; first by rewrite (nth_map 0%N) ?size_iota // nth_iota. by rewrite nth_default ?size_map ?size_iota.
Qed.
Lemma vec_poly (V : 'cV[K]_n) : vec (\poly_(i < n) (if insub i is Some i' then V i' 0 else 0)) = V.
Proof.
  apply/matrixP => i j. by rewrite mxE smallM ?size_poly // coef_poly ltn_ord valK ord1.
Qed.
Lemma vec_inj (A B : {poly K}) : vec A = vec B -> A %% M = B %% M.
Proof.
  move=> /matrixP E. apply/polyP => i. have [Hi|Hi] := ltnP i n; first by have := E (Ordinal Hi) 0; rewrite !mxE.
  by rewrite !nth_default //; apply: leq_trans _ Hi; rewrite -ltnS -size_M ltn_modp.
Qed.
Lemma Mmx_vec (A B : {poly K}) : Mmx A *m vec B = vec (A * B).
Proof.
  apply/matrixP => i j. rewrite !mxE. 
  rewrite -modp_mul. set C := B %% M. have SC : (size C <= n)%N by rewrite -ltnS -size_M ltn_modp.
  have EC : C = \sum_(k < n) C`_k *: 'X^k.
  { rewrite -poly_def. apply/polyP => k. rewrite coef_poly. case: ltnP => // H. by rewrite nth_default // (leq_trans SC). }
  under eq_bigr do rewrite !mxE. rewrite -/C. rewrite [in RHS]EC big_distrr /= (big_morph (fun p => p %% M) (modpD M) (mod0p M)) coef_sum. apply: eq_bigr => k _. by rewrite -scalerAr modpZl coefZ mulrC.
Qed.
Lemma MmxM (A B : {poly K}) : Mmx (A * B) = Mmx A *m Mmx B.
Proof.
  have E (C : {poly K}) (i j : 'I_n) : Mmx C i j = vec (C * 'X^j) i 0 by rewrite !mxE.
  apply/matrixP => i j. rewrite E -mulrA -Mmx_vec !mxE. apply: eq_bigr => k _. by rewrite (E B).
Qed.
Lemma MmxD (A B : {poly K}) : Mmx (A + B) = Mmx A + Mmx B.
Proof. apply/matrixP => i j. by rewrite !mxE mulrDl modpD coefD. Qed.
Lemma MmxC (c : K) : Mmx c%:P = c%:M.
Proof.
  apply/matrixP => i j. rewrite !mxE mul_polyC modpZl coefZ smallM ?size_polyXn // coefXn mulr_natr. by [].
Qed.
Lemma Mmx_mod (A : {poly K}) : Mmx (A %% M) = Mmx A.
Proof. apply/matrixP => i j. by rewrite !mxE mulrC modp_mul mulrC. Qed.
Lemma Mmx_unit (A : {poly K}) : (0 < n)%N -> (Mmx A \in unitmx) = coprimep A M.
Proof.
  move=> n0. apply/idP/idP.
  - move=> U. have [B EB] : exists B, vec (A * B) = vec 1. { exists (\poly_(i < n) (if insub i is Some i' then (invmx (Mmx A) *m vec 1) i' 0 else 0)). by rewrite -Mmx_vec vec_poly mulKVmx. }
    have {}EB := vec_inj EB. apply/coprimepP => d dA dM. have : d %| 1.
    { rewrite (dvdp_mod 1 dM) -EB -(dvdp_mod _ dM). exact: dvdp_mulr. } by rewrite dvdp1 size_poly_eq1.
  - move/Bezout_eq1_coprimepP => [[u v] /= E]. have H : Mmx u *m Mmx A = 1%:M. { rewrite -MmxM -Mmx_mod. have -> : (u * A) %% M = 1 %% M by rewrite -[in RHS]E modpD modp_mull addr0. by rewrite Mmx_mod MmxC. }
    by have [] := mulmx1_unit H.
Qed.
End Qp.
