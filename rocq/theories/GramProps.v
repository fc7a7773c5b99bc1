(* C71: Gram-Schmidt orthogonalisation and orthonormalisation of the rows or columns of a matrix (matrix.rs l.1477-1613). *)
From Coq Require Import List NArith ZArith.
From mathcomp Require Import all_ssreflect all_algebra all_field.
From Coq Require Import Lia.
From Verif Require Import RingSpec RingModel PermModel MatModel MatSpec MatInst MatProofs MatProofs2 MatProofs7 GramModel GramProofs.
Close Scope rs_scope.
Set Implicit Arguments.
Unset Strict Implicit.
Unset Printing Implicit Defensive.
Import GRing.Theory Num.Theory.
Local Open Scope ring_scope.

(* K with its complex conjugation: the identity on a real field *)
Definition anisotropic (K : fieldType) (conj : K -> K) : Prop := forall q (v : 'rV[K]_q), \sum_k v 0 k * conj (v 0 k) = 0 -> v = 0.
(* square roots of positive elements; a square root of anything else may or may not be returned *)
Definition root_contract (K : fieldType) (conj : K -> K) (root : K -> option K) : Prop :=
  (forall x s, root x = Some s -> s * s = x) /\
  forall q (v : 'rV[K]_q), v != 0 -> exists s, root (\sum_k v 0 k * conj (v 0 k)) = Some s /\ conj s = s.
Definition unitriangular (K : fieldType) p (L : 'M[K]_p) : Prop := (forall a, L a a = 1) /\ forall a b : 'I_p, (a < b)%N -> L a b = 0.
Definition orthogonal_rows (K : fieldType) (conj : K -> K) p q (Q : 'M[K]_(p,q)) : Prop := forall a b : 'I_p, a != b -> \sum_k Q a k * conj (Q b k) = 0.
(* a vanishing combination of the rows that does not use the last row *)
Definition dependency_before_last (K : fieldType) p q (A : 'M[K]_(p,q)) : Prop :=
  exists c : 'rV[K]_p, [/\ c != 0, forall i : 'I_p, i.+1 = p -> c 0 i = 0 & c *m A = 0].

Section C71.
Variable K : fieldType.
Variable conj : {rmorphism K -> K}.
Hypothesis CC : involutive conj.
Hypothesis ANI : anisotropic conj.
Variable root : K -> option K.
Hypothesis RC : root_contract conj root.
Notation O := (mc_ops [comRingType of K]).
Notation mat := (matrix (T O)).
Variables (p q : nat).
Implicit Types (A : 'M[K]_(p,q)) (m : mat).
Lemma orthE p' q' (M : 'M[K]_(p',q')) : (forall a b : 'I_p', a != b -> ip conj (row a M) (row b M) = 0) -> orthogonal_rows conj M.
Proof. move=> H a b Hab. rewrite -[RHS](H a b Hab) /ip. apply: eq_bigr => k _. by rewrite !mxE. Qed.
Lemma uniE p' (L : 'M[K]_p') : lower_uni L -> unitriangular L.
Proof. move=> H. split=> [a|a b Hab]; rewrite H ?eqxx // Hab. case: eqP => // E. by move: Hab; rewrite E ltnn. Qed.
Lemma depE p' q' (A : 'M[K]_(p',q')) : dep A <-> dependency_before_last A. Proof. by []. Qed.
(* Q = L A with L lower unitriangular and the rows of Q orthogonal, exactly when no combination of the rows before the last one vanishes;
   otherwise it panics (division by zero) *)
Theorem C71_rows m A : represents m A -> ~ dependency_before_last A -> exists lt m' L Q,
  [/\ gram_schmidt_rows (@Fdiv K) conj m = Some (lt, m'), represents lt L, represents m' Q, Q = L *m A & unitriangular L /\ orthogonal_rows conj Q].
Proof.
  move=> Hm Hd. have := gram_ok CC ANI Hm. case: (gram_schmidt_rows _ _ _) => [[lt m']|] //. move=> [L [M [H1 H2 H3 H4 [H5 H6]]]].
  exists lt, m', L, M. split=> //. split; [exact: uniE|exact: orthE].
Qed.
Theorem C71_rows_panic m A : represents m A -> dependency_before_last A -> gram_schmidt_rows (@Fdiv K) conj m = None.
Proof.
  move=> Hm Hd. have := gram_ok CC ANI Hm. case: (gram_schmidt_rows _ _ _) => [[lt m']|] //. by move=> [L [M [_ _ _ _ [_ H6]]]].
Qed.
(* the same on columns: Q = A R with R upper unitriangular *)
Theorem C71_cols m A : represents m A -> ~ dependency_before_last A^T -> exists m' rt Q R,
  [/\ gram_schmidt_cols (@Fdiv K) conj m = Some (m', rt), represents m' Q, represents rt R, Q = A *m R & unitriangular R^T /\ orthogonal_rows conj Q^T].
Proof.
  move=> Hm Hd. have := gram_ok CC ANI (repr_tr Hm). rewrite /gram_schmidt_cols. case: (gram_schmidt_rows _ _ _) => [[lt m']|] //. move=> [L [M [H1 H2 H3 H4 [H5 H6]]]].
  exists (transpose m'), (transpose lt), M^T, L^T. cbn [obind fst snd]. split=> //; try exact: repr_tr; first by rewrite H3 trmx_mul trmxK.
  rewrite !trmxK. split; [exact: uniE|exact: orthE].
Qed.
Theorem C71_cols_panic m A : represents m A -> dependency_before_last A^T -> gram_schmidt_cols (@Fdiv K) conj m = None.
Proof.
  move=> Hm Hd. have := gram_ok CC ANI (repr_tr Hm). rewrite /gram_schmidt_cols. case: (gram_schmidt_rows _ _ _) => [[lt m']|] //. by move=> [L [M [_ _ _ _ [_ H6]]]].
Qed.
(* orthonormal rows: Q = L A, L lower triangular with nonzero diagonal, Q Q^* = 1, exactly when the rows are independent *)
Theorem C71_lq m A : represents m A -> (forall c : 'rV[K]_p, c *m A = 0 -> c = 0) -> exists lt m' L Q,
  [/\ lq_decomposition_algorithm (@Fdiv K) conj root m = Some (lt, m'), represents lt L, represents m' Q,
      Q = L *m A /\ Q *m (map_mx conj Q)^T = 1%:M & (forall a, L a a != 0) /\ forall a b : 'I_p, (a < b)%N -> L a b = 0].
Proof.
  move=> Hm Hd. case: RC => R1 R2. have := lq_ok CC ANI R1 R2 Hm. case: (lq_decomposition_algorithm _ _ _ _) => [[lt m']|]; last by move=> [c [c0 /Hd E]]; move: c0; rewrite E eqxx.
  move=> [L [M [H1 H2 H3 [H4 H5] H6]]]. by exists lt, m', L, M.
Qed.
Theorem C71_lq_panic m A (c : 'rV[K]_p) : represents m A -> c != 0 -> c *m A = 0 -> lq_decomposition_algorithm (@Fdiv K) conj root m = None.
Proof.
  move=> Hm c0 Hc. case: RC => R1 R2. have := lq_ok CC ANI R1 R2 Hm. case: (lq_decomposition_algorithm _ _ _ _) => [[lt m']|] //.
  move=> [L [M [H1 H2 H3 [H4 H5] H6]]]. exfalso.
  have UL : L \in unitmx. { rewrite unitmxE det_trig; last by apply/is_trig_mxP. rewrite unitfE. by apply/prodf_neq0 => i _. }
  have E : c *m invmx L *m M = 0 by rewrite H3 mulmxA mulmxKV.
  have : c *m invmx L = 0 by rewrite -[LHS]mulmx1 -H6 mulmxA E mul0mx. move/(congr1 (mulmx^~ L)). rewrite mulmxKV // mul0mx. by move/eqP: c0.
Qed.
Theorem C71_qr m A : represents m A -> (forall c : 'cV[K]_q, A *m c = 0 -> c = 0) -> exists m' rt Q R,
  [/\ qr_decomposition_algorithm (@Fdiv K) conj root m = Some (m', rt), represents m' Q, represents rt R,
      Q = A *m R /\ Q^T *m map_mx conj Q = 1%:M & (forall a, R a a != 0) /\ forall a b : 'I_q, (a < b)%N -> R b a = 0].
Proof.
  move=> Hm Hd. case: RC => R1 R2. have := lq_ok CC ANI R1 R2 (repr_tr Hm). rewrite /qr_decomposition_algorithm.
  case: (lq_decomposition_algorithm _ _ _ _) => [[lt m']|]; last first.
  { move=> [c [c0 E]]. have Z : c^T = 0 by apply: Hd; apply: trmx_inj; rewrite trmx_mul trmxK E trmx0. by move: c0; rewrite -[c]trmxK Z trmx0 eqxx. }
  move=> [L [M [H1 H2 H3 [H4 H5] H6]]]. exists (transpose m'), (transpose lt), M^T, L^T. cbn [obind fst snd]. split=> //; try exact: repr_tr.
  - split; first by rewrite H3 trmx_mul trmxK. rewrite trmxK -H6. congr (_ *m _). apply/matrixP => a b. by rewrite !mxE.
  - split=> [a|a b Hab]; rewrite mxE; [exact: H5|exact: H4].
Qed.
End C71.
Print Assumptions C71_rows. Print Assumptions C71_rows_panic. Print Assumptions C71_cols. Print Assumptions C71_lq. Print Assumptions C71_lq_panic. Print Assumptions C71_qr.

(* ------------------------------------------------------------------ the hypotheses hold for the rationals and for the complex algebraic numbers *)
Lemma rat_anisotropic : anisotropic (@idfun rat).
Proof.
  move=> q v H. apply/rowP => k. rewrite mxE. have : \sum_i v 0 i ^+ 2 == 0 by rewrite -[X in _ == X]H; apply/eqP; apply: eq_bigr => i _; rewrite expr2.
  rewrite psumr_eq0; last by move=> i _; rewrite sqr_ge0. move/allP => /(_ k). rewrite mem_index_enum => /(_ isT). by rewrite sqrf_eq0 => /eqP.
Qed.
Lemma algC_anisotropic : anisotropic (conjC : algC -> algC).
Proof.
  move=> q v H. apply/rowP => k. rewrite mxE. have : \sum_i `|v 0 i| ^+ 2 == 0 by rewrite -[X in _ == X]H; apply/eqP; apply: eq_bigr => i _; rewrite normCK.
  rewrite psumr_eq0; last by move=> i _; rewrite exprn_ge0. move/allP => /(_ k). rewrite mem_index_enum => /(_ isT). by rewrite sqrf_eq0 normr_eq0 => /eqP.
Qed.
Definition algC_root (x : algC) : option algC := Some (sqrtC x).
Lemma algC_root_contract : root_contract (conjC : algC -> algC) algC_root.
Proof.
  split=> [x s [<-]|q v _]; first by rewrite -expr2 sqrtCK. eexists. split; first reflexivity.
  apply/CrealP. rewrite qualifE sqrtC_ge0. apply/orP; left. apply: sumr_ge0 => i _. by rewrite -normCK exprn_ge0.
Qed.
Corollary C71_rational p q m (A : 'M[rat]_(p,q)) : represents m A -> ~ dependency_before_last A -> exists lt m' L Q,
  [/\ gram_schmidt_rows (@Fdiv [fieldType of rat]) idfun m = Some (lt, m'), represents lt L, represents m' Q, Q = L *m A & unitriangular L /\ orthogonal_rows idfun Q].
Proof. exact: (@C71_rows [fieldType of rat] [rmorphism of idfun] (fun x => erefl) rat_anisotropic). Qed.
Corollary C71_complex p q m (A : 'M[algC]_(p,q)) : represents m A -> (forall c : 'rV[algC]_p, c *m A = 0 -> c = 0) -> exists lt m' L Q,
  [/\ lq_decomposition_algorithm (@Fdiv [fieldType of algC]) conjC algC_root m = Some (lt, m'), represents lt L, represents m' Q,
      Q = L *m A /\ Q *m (map_mx conjC Q)^T = 1%:M & (forall a, L a a != 0) /\ forall a b : 'I_p, (a < b)%N -> L a b = 0].
Proof. exact: (@C71_lq [fieldType of algC] [rmorphism of conjC] conjCK algC_anisotropic _ algC_root_contract). Qed.
Print Assumptions C71_rational. Print Assumptions C71_complex.
(* [[1,1],[1,2]] gives [[1,1],[-1/2,1/2]]; three equal rows panic, and so do rows 2 and 3 after a zero row; but two equal rows do not *)
Definition rmat (r c : nat) (l : list rat) : matrix rat := Mat r c false false false l.
Notation gs := (@gram_schmidt_rows (mc_ops [comRingType of rat]) (@Fdiv [fieldType of rat]) idfun).
Example C71_ex : [/\ (match gs (rmat 2 2 [:: 1; 1; 1; 2%:Q]) with Some s => (elems s.1 == [:: 1; 0; - (3%:Q / 2%:Q); 1]) && (elems s.2 == [:: 1; 1; - (1 / 2%:Q); 1 / 2%:Q]) | None => false end) = true,
  gs (rmat 3 1 [:: 1; 1; 1]) = None, gs (rmat 2 1 [:: 0; 1]) = None & (match gs (rmat 2 1 [:: 1; 1]) with Some s => elems s.2 == [:: 1; 0] | None => false end) = true].
Proof. split; by vm_compute. Qed.
