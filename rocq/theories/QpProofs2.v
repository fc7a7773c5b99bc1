(* K[x]/(m) over a field where m splits: multiplication by a is triangular in the Newton basis, with a(alpha) on the diagonal. *)
From Coq Require Import List Arith NArith ZArith.
From mathcomp Require Import all_ssreflect all_algebra.
From Coq Require Import Lia.
From Verif Require Import RingSpec RingModel PermModel MatModel MatSpec MatInst MatViewSpec MatProofs MatProofs2 MatProofs7 PolyModel PolySpec PolyProofs PolyProofs2 PolyProofs3 QpModel QpProofs.
Close Scope rs_scope.
Set Implicit Arguments.
Unset Strict Implicit.
Unset Printing Implicit Defensive.
Import GRing.Theory.
Local Open Scope ring_scope.

Definition Mx (F : fieldType) (P : {poly F}) n (A : {poly F}) : 'M[F]_n := \matrix_(i < n, j < n) ((A * 'X^j) %% P)`_i.
Section Newton.
Variable L : fieldType.
Implicit Types (g a : {poly L}) (s r : seq L).
Definition pr s : {poly L} := \prod_(x <- s) ('X - x%:P).
Variable P : {poly L}.
Variable rs : seq L.
Notation n := (size rs).
Hypothesis HP : P %= pr rs.
Lemma size_pr s : size (pr s) = (size s).+1. Proof. exact: size_prod_XsubC. Qed.
Lemma size_P : size P = n.+1. Proof. by rewrite (eqp_size HP) size_pr. Qed.
Fixpoint nt g s : seq L := match s with [::] => [::] | x :: s' => g.[x] :: nt ((g - g.[x]%:P) %/ ('X - x%:P)) s' end.
Lemma newton s : forall g r, rs = r ++ s -> (g * pr r) %% P = \sum_(l < size s) nth 0 (nt g s) l *: pr (r ++ take l s).
Proof.
  elim: s => [|x s IH] g r E.
  - rewrite big_ord0. apply/modp_eq0P. rewrite (eqp_dvdl _ HP). rewrite E cats0. exact: dvdp_mull.
  - rewrite big_ord_recl /= cats0.
    set h := (g - g.[x]%:P) %/ ('X - x%:P).
    have Eg : g = g.[x]%:P + h * ('X - x%:P).
    { rewrite /h divpK; first by rewrite addrC subrK. rewrite dvdp_XsubCl /root hornerD hornerN hornerC subrr. exact: eqxx. }
    have Er : rs = rcons r x ++ s by rewrite cat_rcons.
    have Ep : pr (rcons r x) = pr r * ('X - x%:P) by rewrite /pr -cats1 big_cat big_seq1.
    rewrite {1}Eg mulrDl modpD mul_polyC modp_small; last first.
    { apply: leq_ltn_trans (size_scale_leq _ _) _. rewrite size_pr size_P ltnS E size_cat /= addnS ltnS. exact: leq_addr. }
    congr (_ + _). rewrite mulrAC -mulrA -Ep (IH _ _ Er). apply: eq_bigr => l _. by rewrite cat_rcons.
Qed.
Definition Bn : 'M[L]_n := \matrix_(i, j) (pr (take j rs))`_i.
Definition Tn a : 'M[L]_n := \matrix_(i, j) (if (i < j)%N then 0 else nth 0 (nt a (drop j rs)) (i - j)).
Lemma Bn_det : \det Bn = 1.
Proof.
  rewrite -det_tr det_trig; last first.
  { apply/is_trig_mxP => i j Hij. rewrite !mxE nth_default // size_pr size_take ltn_ord. exact: Hij. }
  apply: big1 => i _. rewrite !mxE. have : lead_coef (pr (take i rs)) = 1 by apply/eqP; exact: monic_prod_XsubC.
  by rewrite lead_coefE size_pr size_take ltn_ord.
Qed.
Lemma Mx_vec a g : Mx P n a *m (\col_i (g %% P)`_i) = \col_i ((a * g) %% P)`_i.
Proof.
  apply/matrixP => i j. rewrite !mxE. rewrite -[in RHS]modp_mul. under eq_bigr do rewrite !mxE. set C := g %% P.
  have SC : (size C <= n)%N by rewrite -ltnS -size_P ltn_modp -size_poly_eq0 size_P.
  have EC : C = \sum_(k < n) C`_k *: 'X^k.
  { rewrite -poly_def. apply/polyP => k. rewrite coef_poly. case: ltnP => // H. by rewrite nth_default // (leq_trans SC). }
  rewrite [in RHS]EC big_distrr /= (big_morph (fun p => p %% P) (modpD P) (mod0p P)) coef_sum. apply: eq_bigr => k _. by rewrite -scalerAr modpZl coefZ mulrC.
Qed.
Lemma Mx_B a : Mx P n a *m Bn = Bn *m Tn a.
Proof.
  apply/matrixP => i j. have E : rs = take j rs ++ drop j rs by rewrite cat_take_drop.
  transitivity ((a * pr (take j rs)) %% P)`_i.
  - have -> : ((a * pr (take j rs)) %% P)`_i = (\col_i ((a * pr (take j rs)) %% P)`_i) i 0 :> L by rewrite mxE.
    rewrite -Mx_vec !mxE. apply: eq_bigr => k _. rewrite !mxE (@modp_small _ (pr _)) //. by rewrite size_P size_pr ltnS size_take !ltn_ord.
  - rewrite (newton _ E) mxE coef_sum size_drop.
    rewrite [RHS](bigID (fun k : 'I_n => (k < j)%N)) /= [X in _ = X + _]big1 ?add0r; last by move=> k Hk; rewrite !mxE Hk mulr0.
    rewrite [RHS](eq_bigl (fun k : 'I_n => (j <= k)%N)); last by move=> k; rewrite -leqNgt.
    have -> : \sum_(k < n | (j <= k)%N) Bn i k * Tn a k j = \sum_(j <= k < n) (pr (take k rs))`_i * nth 0 (nt a (drop j rs)) (k - j).
    { rewrite big_geq_mkord. apply: eq_bigr => k Hk. by rewrite !mxE ltnNge Hk. }
    rewrite -[in RHS](add0n (j : nat)) big_addn big_mkord. apply: eq_bigr => k _. rewrite coefZ addnK mulrC. congr (_`_i * _).
    by rewrite addnC takeD.
Qed.
Lemma Tn_diag a (i : 'I_n) : Tn a i i = a.[nth 0 rs i].
Proof. by rewrite mxE ltnn subnn (drop_nth 0 (ltn_ord i)). Qed.
Lemma Mx_det a : \det (Mx P n a) = \prod_(x <- rs) a.[x].
Proof.
  have := congr1 determinant (Mx_B a). rewrite !det_mulmx Bn_det mulr1 mul1r => ->. rewrite det_trig.
  - rewrite (big_nth 0) big_mkord. apply: eq_bigr => i _. exact: Tn_diag.
  - apply/is_trig_mxP => i j Hij. by rewrite mxE Hij.
Qed.
Lemma Mx_tr a : \tr (Mx P n a) = \sum_(x <- rs) a.[x].
Proof.
  have U : Bn \in unitmx by rewrite unitmxE Bn_det unitr1.
  have -> : Mx P n a = Bn *m Tn a *m invmx Bn by rewrite -Mx_B mulmxK.
  rewrite -mulmxA mxtrace_mulC mulmxKV // /mxtrace (big_nth 0) big_mkord. apply: eq_bigr => i _. exact: Tn_diag.
Qed.
End Newton.
Section MapMx.
Variables (K L : fieldType) (f : {rmorphism K -> L}).
Lemma Mx_map (P A : {poly K}) n : map_mx f (Mx P n A) = Mx (map_poly f P) n (map_poly f A).
Proof. apply/matrixP => i j. by rewrite !mxE -coef_map map_modp rmorphM /= map_polyXn. Qed.
End MapMx.
