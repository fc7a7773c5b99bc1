(* powers, joins, the Leibniz determinant *)
From Coq Require Import NArith PArith ZArith.
From mathcomp Require Import all_ssreflect all_algebra all_fingroup.
From Coq Require Import Lia.
From Verif Require Import RingSpec RingModel PermModel MatModel MatSpec MatProofs MatProofs2.
Close Scope rs_scope.
Set Implicit Arguments.
Unset Strict Implicit.
Unset Printing Implicit Defensive.
Import GRing.Theory.
Local Open Scope ring_scope.

Section Pow.
Variable R : comRingType.
Notation O := (mc_ops R).
Notation mat := (matrix (T O)).

Lemma mxpow0 n (A : 'M[R]_n) : mxpow A 0 = 1%:M. Proof. by []. Qed.
Lemma mxpowS n (A : 'M[R]_n) k : mxpow A k.+1 = A *m mxpow A k. Proof. by []. Qed.
Lemma mxpow1 n (A : 'M[R]_n) : mxpow A 1 = A. Proof. by rewrite mxpowS mulmx1. Qed.
Lemma mxpowD n (A : 'M[R]_n) k l : mxpow A (k + l) = mxpow A k *m mxpow A l.
Proof. elim: k => [|k IH]; first by rewrite mul1mx. by rewrite addSn !mxpowS IH mulmxA. Qed.
Lemma mxpow_sq n (A : 'M[R]_n) k : mxpow (A *m A) k = mxpow A k.*2.
Proof. elim: k => [|k IH] //. by rewrite mxpowS IH doubleS !mxpowS mulmxA. Qed.

Fixpoint bval (bs : list bool) : nat := if bs is b :: bs' then (b + (bval bs').*2)%N else 0%N.
Lemma bval_pos p : bval (pos_bits p) = Pos.to_nat p.
Proof.
  elim: p => [p IH|p IH|] //=; rewrite IH -addnn -plusE; case: (Pos.to_nat p) (Pos2Nat.inj_xI p) (Pos2Nat.inj_xO p) => *; lia.
Qed.
Lemma bval_bits k : bval (bits k) = N.to_nat k. Proof. by case: k => [|p] //=; rewrite bval_pos. Qed.

Lemma unwrap_mul p k q (a b : mat) (A : 'M[R]_(p,k)) (B : 'M[R]_(k,q)) : represents a A -> represents b B ->
  exists c, unwrap (@mul O a b) = Some c /\ represents c (A *m B).
Proof. by move=> Ha Hb; case: (mul_repr Ha Hb) => c [-> Hc]; exists c. Qed.

Lemma pow_loop_repr n : forall e (a : mat) (A : 'M[R]_n), represents a A ->
  exists pows, @mat_squares O e a = Some pows /\
   forall bs ans (B : 'M[R]_n), (length bs <= e.+1)%N -> represents ans B ->
     exists c, @mat_pow_loop O bs pows ans = Some c /\ represents c (B *m mxpow A (bval bs)).
Proof.
  elim=> [|e IH] a A Ha /=.
  - exists (a :: nil). split=> // bs ans B. case: bs => [|b [|b' bs]] //= _ Hb.
    + by exists ans; rewrite mulmx1.
    + case: b.
      * case: (unwrap_mul Hb Ha) => c [-> Hc] /=. by exists c; rewrite mulmx1.
      * by exists ans; rewrite mulmx1.
  - case: (unwrap_mul Ha Ha) => sq [-> Hsq] /=. case: (IH sq _ Hsq) => pows [-> Hp] /=. exists (a :: pows). split=> //.
    move=> bs ans B. case: bs => [|b bs] /= Hl Hb; first by exists ans; rewrite mulmx1.
    case: b.
    + case: (unwrap_mul Hb Ha) => c [-> Hc] /=. case: (Hp bs c _ Hl Hc) => d [-> Hd]. exists d. split=> //.
      by rewrite -mxpow_sq mulmxA.
    + case: (Hp bs ans _ Hl Hb) => d [-> Hd]. exists d. split=> //. by move: Hd; rewrite mxpow_sq.
Qed.
Lemma mat_nat_pow_repr n (a : mat) (A : 'M[R]_n) (k : N) : represents a A ->
  exists c, @mat_nat_pow O a k = Some c /\ represents c (mxpow A (N.to_nat k)).
Proof.
  move=> Ha. rewrite /mat_nat_pow (repr_rows Ha) (repr_cols Ha) PeanoNat.Nat.eqb_refl.
  case: N.eqb_spec => [->|H0]; first exact: ident_repr.
  case: N.eqb_spec => [->|H1]; first by exists a; rewrite mxpow1.
  case: (@pow_loop_repr n (length (bits k) - 1) a A Ha) => pows [-> Hp] /=. case: (ident_repr R n) => i [-> Hi] /=.
  case: (Hp (bits k) i _ _ Hi) => [|c [-> Hc]].
  - rewrite -minusE. apply/leP. lia.
  - exists c. by rewrite mul1mx bval_bits in Hc.
Qed.
End Pow.

(* ------------------------------------------------------------------ joins *)
Section Join.
Variable A : Type.
Lemma submatrix_repr p q (m : matrix A) (M : 'M[A]_(p,q)) (rs : list nat) (cs : list nat) p' q' (f : 'I_p' -> 'I_p) (g : 'I_q' -> 'I_q) :
  represents m M -> length rs = p' -> length cs = q' ->
  (forall i : 'I_p', List.nth i rs 0%N = f i) -> (forall j : 'I_q', List.nth j cs 0%N = g j) ->
  exists m', submatrix m rs cs = Some m' /\ represents m' (\matrix_(i, j) M (f i) (g j)).
Proof.
  move=> Hm Lr Lc Hf Hg. have := repr_rows Hm => Er. have := repr_cols Hm => Ec.
  rewrite /submatrix.
  have Hrow : forall r, List.In r rs -> exists i, r = nat_of_ord (f i).
  { move=> r Hr. case: (List.In_nth rs r 0%N Hr) => k [Hk E]. have Hk' : (k < p')%N by rewrite -Lr; apply/ltP. exists (Ordinal Hk'). by rewrite -Hf. }
  have Hcol : forall c, List.In c cs -> exists j, c = nat_of_ord (g j).
  { move=> c Hc. case: (List.In_nth cs c 0%N Hc) => k [Hk E]. have Hk' : (k < q')%N by rewrite -Lc; apply/ltP. exists (Ordinal Hk'). by rewrite -Hg. }
  case: (ltnP 0 p') => Hp'; last first.
  { have Ep : p' = 0%N by apply/eqP; rewrite -leqn0. have En : rs = nil by case: rs Lr {Hf Hrow} => // ? ?; rewrite Ep.
    rewrite En /=. eexists. split; first by reflexivity. apply/repr_get. do !split; rewrite /rows /cols //=. move=> i. by have := ltn_ord i; rewrite {2}Ep. }
  case: (ltnP 0 q') => Hq'; last first.
  { have Ep : q' = 0%N by apply/eqP; rewrite -leqn0. have En : cs = nil by case: cs Lc {Hg Hcol} => // ? ?; rewrite Ep.
    rewrite En /=. rewrite (mapM_some _ (fun _ => nil)); last by [].
    eexists. split; first by reflexivity. apply/repr_get. do !split; rewrite /rows /cols //=. move=> i j. by have := ltn_ord j; rewrite {2}Ep. }
  pose d := M (f (Ordinal Hp')) (g (Ordinal Hq')).
  pose F r c := if (insub r, insub c) is (Some i, Some j) then M i j else d.
  have S : shape p q m F.
  { split=> //. split=> //. move=> r c /ltP Hr /ltP Hc. rewrite /F !insubT /=. exact: (repr_getE (Ordinal Hr) (Ordinal Hc) Hm). }
  case: (submatrix_shape p q m F rs cs S) => [r /Hrow [i ->]|c /Hcol [j ->]|m' [E [S' _]]]; try by apply/ltP.
  exists m'. split=> //. move: S'; rewrite Lr Lc => S'. apply: shape_reprE S' _ => i j. by rewrite mxE Hf Hg /F !valK.
Qed.
End Join.
