(* Subresultants: S_j(A, B) and how they change along a pseudo-division step. *)
From mathcomp Require Import all_ssreflect all_algebra.
From mathcomp Require Import zify.
From Coq Require Import Lia.
From Verif Require Import PolyProofs6.
Set Implicit Arguments.
Unset Strict Implicit.
Unset Printing Implicit Defensive.
Import GRing.Theory.
Local Open Scope ring_scope.

Section SR.
Variable R : idomainType.
Implicit Types (P Q A B C x y : {poly R}).
Lemma Rth : @ring_theory (GRing.Ring.sort R) 0 1 +%R *%R (fun x y : R => x - y) -%R eq.
Proof. split=> //; [exact: add0r|exact: addrC|exact: addrA|exact: mul1r|exact: mulrC|exact: mulrA|exact: mulrDl|exact: subrr]. Qed.
Add Ring Rring : Rth.

Lemma size_XnM k P : (size ('X^k * P)%R <= k + size P)%N.
Proof. have := size_mul_leq 'X^k P. rewrite size_polyXn addSn. lia. Qed.
Lemma strip nB B (l : seq {poly R}) j k : forall t N, size B = nB.+1 -> (k <= t)%N -> (k < N)%N -> (t + nB = N + j)%N ->
  (forall y, y \in l -> (size y <= N + j - k)%N) -> dp N j (sh t B ++ l) = (lead_coef B ^+ k)%:P * dp (N - k) j (sh (t - k) B ++ l).
Proof.
  elim: k => [|k IH] [|t] [|N] // sB Hk HN Ht Hl; rewrite ?subn0 ?expr0 ?mul1r //.
  rewrite !subSS exprS polyCM -mulrA -IH //; try lia.
  rewrite /= dp_expand; [ | lia | ]; last first.
    { move=> i _. apply: nth_default. case: (ltnP i (size (sh t B ++ l))) => Hi; last by rewrite (nth_default _ Hi) size_poly0.
      have := mem_nth 0 Hi. rewrite mem_cat => /orP[/mem_sh [i' Hi' ->]|/Hl H']; last by apply: leq_trans H' _; lia.
      apply: leq_trans (size_XnM i' B) _. rewrite sB. lia. }
    congr (_%:P * _). rewrite lead_coefE sB /= mulrC coefMXn ltnNge. have -> : (N + j = t + nB)%N by lia. by rewrite leq_addr /= addKn.
Qed.
Definition sres m n j A B := dp (m + n - j - j) j (sh (n - j) A ++ sh (m - j) B).

Lemma polyC_inj0 (c : R) : c != 0 -> (c%:P != 0 :> {poly R}). Proof. by rewrite polyC_eq0. Qed.
Section Step.
Variables (m n : nat) (A B Q P : {poly R}).
Hypothesis sB : size B = n.+1.
Hypothesis Hmn : (n <= m)%N.
Let b := lead_coef B.
Let d := (m - n)%N.
Hypothesis E : b ^+ d.+1 *: A = Q * B + P.
Hypothesis sQ : (size Q <= d.+1)%N.
Hypothesis sP : (size P <= n)%N.
Lemma b_neq0 : b != 0. Proof. by rewrite lead_coef_eq0 -size_poly_eq0 sB. Qed.
Lemma step0 j : (j <= n)%N -> (b ^+ (d.+1 * (n - j)))%:P * sres m n j A B = dp (m + n - j - j) j (sh (n - j) P ++ sh (m - j) B).
Proof.
  move=> Hj. rewrite exprM /sres. have := @dp_scale_sh _ (m + n - j - j) j [::] (sh (m - j) B) (n - j) (b ^+ d.+1) A. cbn [size cat]. move=> <-; last lia.
  rewrite E. have := @dp_reduce _ (m + n - j - j) j [::] (n - j) (m - j) Q P B. cbn [size cat]. move=> -> //; last by lia.
  have := sQ. rewrite /d. set q := size Q. lia.
Qed.
Lemma step_top : (0 < n)%N -> sres m n n.-1 A B = (-1) ^+ d.+1 * P.
Proof.
  move=> Hn. apply: (@mulfI _ (b ^+ (d.+1 * (n - n.-1)))%:P); first by rewrite polyC_inj0 // expf_neq0 // b_neq0.
  rewrite step0; last lia. have -> : (n - n.-1 = 1)%N by lia. have -> : (m - n.-1 = d.+1)%N by rewrite /d; lia. have -> : (m + n - n.-1 - n.-1 = d.+2)%N by rewrite /d; lia.
  rewrite /= expr0 mul1r muln1. have := @dp_block _ d.+2 n.-1 [::] [:: P] (sh d.+1 B). cbn [cat size]. rewrite size_sh mul1n => ->; last by [].
  rewrite (@strip n B [:: P] n.-1 d.+1) //; try lia.
  - rewrite subSnn subnn [sh 0 B ++ _]/= dp1. by rewrite mulrCA.
  - move=> y. rewrite inE => /eqP ->. lia.
Qed.
Lemma step_zero j : P = 0 -> (j < n)%N -> sres m n j A B = 0.
Proof.
  move=> P0 Hj. apply: (@mulfI _ (b ^+ (d.+1 * (n - j)))%:P); first by rewrite polyC_inj0 // expf_neq0 // b_neq0. rewrite step0; last lia. rewrite mulr0 P0.
  have -> : (n - j = (n - j).-1.+1)%N by lia. rewrite /= mulr0. have := @dp_zero _ (m + n - j - j) j [::]. cbn [cat size]. apply. lia.
Qed.
Lemma step_gen j r (be : R) C : P = be *: C -> size C = r.+1 -> (r < n)%N -> (j <= r)%N ->
  (b ^+ (d.+1 * (n - j)))%:P * sres m n j A B = (-1) ^+ ((n - j) * (m - j)) * (be ^+ (n - j))%:P * (b ^+ (m - r))%:P * sres n r j B C.
Proof.
  move=> EP sC Hr Hj. rewrite step0; last lia. rewrite EP. have := @dp_scale_sh _ (m + n - j - j) j [::] (sh (m - j) B) (n - j) be C. cbn [cat size]. move=> ->; last lia.
  have := @dp_block _ (m + n - j - j) j [::] (sh (n - j) C) (sh (m - j) B). cbn [cat size]. rewrite size_cat !size_sh => ->; last lia.
  rewrite (@strip n B (sh (n - j) C) j (m - r)) //; try lia.
  - rewrite -!mulrA mulrCA. congr (_ * (_ * (_ * _))). rewrite /sres. have -> : (m + n - j - j - (m - r) = n + r - j - j)%N by lia. by have -> : (m - j - (m - r) = r - j)%N by lia.
  - move=> y /mem_sh [i Hi ->]. apply: leq_trans (size_XnM i C) _. rewrite sC. lia.
Qed.
End Step.
(* S_n(A, B) for deg B = n < m *)
Lemma sres_diag m n A B : size B = n.+1 -> (n < m)%N -> sres m n n A B = (lead_coef B ^+ (m - n.+1))%:P * B.
Proof.
  move=> sB Hm. rewrite /sres subnn /=. have -> : (m + n - n - n = (m - n.+1).+1)%N by lia. have -> : (m - n = (m - n.+1).+1)%N by lia.
  rewrite -[sh _ B]cats0 (@strip n B [::] n (m - n.+1)) //; try lia. rewrite subSnn cats0 /= expr0 mul1r dp1 //.
Qed.
Lemma sres00 A B : sres 0 0 0 A B = 1. Proof. by rewrite /sres /dp det_mx00. Qed.
Lemma sres_n0 m A B : size B = 1%N -> sres m 0 0 A B = (lead_coef B ^+ m)%:P.
Proof.
  move=> sB. case: m => [|m]; first by rewrite sres00 expr0. rewrite sres_diag // subn1 /=. have EB : B = (lead_coef B)%:P by rewrite lead_coefE sB /=; apply: size1_polyC; rewrite sB.
  by rewrite {2}EB -polyCM -exprSr.
Qed.
Lemma even_prod k (e : nat) : (-1) ^+ (k * (k + 1 + e * 2)) = 1 :> {poly R}.
Proof. rewrite -signr_odd. have -> : odd (k * (k + 1 + e * 2)) = false; last by []. rewrite oddM !oddD oddM /= andbF addbF addbT. by case: (odd k). Qed.

(* the invariant of the remainder sequence of F, m0, n0 *)
Section Chain.
Variables (m0 n0 : nat) (F G : {poly R}).
Notation S j := (sres m0 n0 j F G).
Definition inv m n A B (s : R) := [/\ (n < m)%N, size A = m.+1, size B = n.+1, s != 0 & forall j, (j <= n)%N -> sres m n j A B = (s ^+ (m - j.+1) * lead_coef A ^+ (n - j))%:P * S j].
Lemma inv_s' m n A B s : inv m n A B s -> (s ^+ (m - n.+1))%:P * S n = (lead_coef B ^+ (m - n.+1))%:P * B.
Proof. case=> H1 H2 H3 H4 H. have := H n (leqnn n). rewrite sres_diag // subnn expr0 mulr1 => -> //. Qed.
Lemma inv_coef m n A B s : inv m n A B s -> s ^+ (m - n.+1) * (S n)`_n = lead_coef B ^+ (m - n).
Proof.
  move=> I. have := congr1 (fun p : {poly R} => p`_n) (inv_s' I). rewrite !coefCM => ->. case: I => H1 H2 H3 H4 _.
  rewrite lead_coefE H3 /= -exprSr. congr (_ ^+ _). lia.
Qed.
Lemma inv_prem m n A B s Q P : inv m n A B s -> lead_coef B ^+ (m - n).+1 *: A = Q * B + P -> (size Q <= (m - n).+1)%N -> (size P <= n)%N ->
  (0 < n)%N -> P = (- lead_coef A * (- s) ^+ (m - n)) *: S n.-1.
Proof.
  case=> H1 H2 H3 H4 H E sQ sP Hn. have := @step_top m n A B Q P H3 (ltnW H1) E sQ sP Hn. rewrite H; last lia. have -> : (m - n.-1.+1 = m - n)%N by lia. have -> : (n - n.-1 = 1)%N by lia.
  move=> EE. have : (-1) ^+ (m - n).+1 * ((-1) ^+ (m - n).+1 * P) = P by rewrite mulrA -exprMn mulrNN mulr1 expr1n mul1r. rewrite -EE => <-.
  rewrite mulrA -mul_polyC. congr (_ * _). rewrite -(polyC1 R) -polyCN -polyC_exp -polyCM expr1. congr (_%:P). rewrite (exprNn s) exprS. ring.
Qed.
Lemma inv_next m n r A B C Q P s s' : inv m n A B s -> lead_coef B ^+ (m - n).+1 *: A = Q * B + P -> (size Q <= (m - n).+1)%N ->
  P = (- lead_coef A * (- s) ^+ (m - n)) *: C -> size C = r.+1 -> (r < n)%N -> s' != 0 -> s' * s ^+ (m - n.+1) = lead_coef B ^+ (m - n) -> inv n r B C s'.
Proof.
  move=> [H1 H2 H3 H4 H] E sQ EP sC Hr Hs' Es'. split=> // j Hj.
  set a := lead_coef A in H EP. set b := lead_coef B in E Es' *. have Ha : a != 0 by rewrite lead_coef_eq0 -size_poly_eq0 H2. have Hb : b != 0 by rewrite lead_coef_eq0 -size_poly_eq0 H3.
  have sP : (size P <= n)%N by rewrite EP (leq_trans (size_scale_leq _ _)) // sC.
  have := @step_gen m n A B Q P H3 (ltnW H1) E sQ sP j r _ C EP sC Hr Hj. rewrite H; last lia. rewrite -/b.
  set k := (n - j)%N. have Ek : (n = j + k)%N by rewrite /k; lia. have [e Ee] : exists e, (m = n + e.+1)%N by exists (m - n).-1; lia.
  have -> : (m - n = e.+1)%N by lia. move=> EE.
  (* signs *)
  have Eb : (-1) ^+ (k * (m - j)) * ((- a * (- s) ^+ e.+1) ^+ k)%:P = (a ^+ k * s ^+ (e.+1 * k))%:P :> {poly R}.
  { rewrite exprMn -exprM [(- a) ^+ k]exprNn [(- s) ^+ _]exprNn !polyCM !polyC_exp polyCN. set p1 := a%:P. set p2 := s%:P. rewrite polyC1.
    have -> : (-1) ^+ (k * (m - j)) * ((-1) ^+ k * p1 ^+ k * ((-1) ^+ (e.+1 * k) * p2 ^+ (e.+1 * k))) = ((-1) ^+ (k * (m - j)) * (-1) ^+ k * (-1) ^+ (e.+1 * k)) * (p1 ^+ k * p2 ^+ (e.+1 * k)) by rewrite -!mulrA; congr (_ * (_ * _)); rewrite mulrCA.
    rewrite -!exprD. have -> : (k * (m - j) + k + e.+1 * k = k * (k + 1 + e.+1 * 2))%N by nia. by rewrite even_prod mul1r. }
  rewrite Eb in EE. apply: (@mulfI _ (a ^+ k * s ^+ (e.+1 * k) * b ^+ (m - r))%:P); first by rewrite polyC_inj0 // !mulf_neq0 // expf_neq0.
  rewrite [in LHS]polyCM -EE !mulrA -!polyCM. congr (_%:P * _).
  have -> : (m - j.+1 = e + k)%N by lia. have -> : (n - j.+1 = k.-1)%N by lia. have -> : (m - r = e.+1 + (n - r))%N by lia.
  have Em : (m - n = e.+1)%N by lia. have Em' : (m - n.+1 = e)%N by lia.
  have Es2 : (s' * s ^+ e) ^+ k.-1 = b ^+ (e.+1 * k.-1) by rewrite exprM -Em -Es' Em'.
  have Ks : s ^+ (e.+1 * k) = s ^+ (e + k) * s ^+ (e * k.-1) by rewrite -exprD; congr (_ ^+ _); nia.
  rewrite Ks. have Es3 : s' ^+ k.-1 * s ^+ (e * k.-1) = b ^+ (e.+1 * k.-1) by rewrite -Es2 exprMn exprM.
  have -> : (e.+2 * k = e.+1 + (n - r) + (e.+1 * k.-1 + (r - j)))%N by nia.
  move: (e.+1 * k.-1)%N (e * k.-1)%N Es3 => u v Es3. rewrite !exprD -Es3. ring.
Qed.
Lemma inv_first r Q P C : (n0 <= m0)%N -> size F = m0.+1 -> size G = n0.+1 -> lead_coef G ^+ (m0 - n0).+1 *: F = Q * G + P -> (size Q <= (m0 - n0).+1)%N ->
  C = (-1) ^+ (m0 - n0).+1 *: P -> size C = r.+1 -> (r < n0)%N -> inv n0 r G C (lead_coef G ^+ (m0 - n0)).
Proof.
  move=> Hm sF sG E sQ EC sC Hr. set b := lead_coef G. have Hb : b != 0 by rewrite lead_coef_eq0 -size_poly_eq0 sG.
  split=> //; first by rewrite expf_neq0. move=> j Hj.
  have EP : P = (-1) ^+ (m0 - n0).+1 *: C by rewrite EC scalerA -exprMn mulrNN mulr1 expr1n scale1r.
  have sP : (size P <= n0)%N by rewrite EP (leq_trans (size_scale_leq _ _)) // sC.
  have := @step_gen m0 n0 F G Q P sG Hm E sQ sP j r _ C EP sC Hr Hj. rewrite -/b.
  set k := (n0 - j)%N. have Ek : (n0 = j + k)%N by rewrite /k; lia. have [e Ee] : exists e, (m0 = n0 + e)%N by exists (m0 - n0)%N; lia.
  have -> : (m0 - n0 = e)%N by lia. move=> EE.
  have Eb : (-1) ^+ (k * (m0 - j)) * (((-1) ^+ e.+1) ^+ k)%:P = 1 :> {poly R}.
  { rewrite -exprM polyC_exp polyCN polyC1 -exprD. have -> : (k * (m0 - j) + e.+1 * k = k * (k + 1 + e * 2))%N by nia. by rewrite even_prod. }
  rewrite Eb mul1r in EE. apply: (@mulfI _ (b ^+ (m0 - r))%:P); first by rewrite polyC_inj0 // expf_neq0.
  rewrite -EE mulrA -!polyCM -exprM -!exprD. congr (_%:P * _). congr (_ ^+ _). nia.
Qed.
End Chain.
(* swapping the two polynomials *)
Lemma sres_swap m n A B : sres m n 0 A B = (-1) ^+ (m * n) * sres n m 0 B A.
Proof.
  rewrite /sres !subn0. have := @dp_block _ (m + n) 0 [::] (sh n A) (sh m B). cbn [cat size]. rewrite size_cat !size_sh => ->; last lia. by rewrite mulnC [in RHS]addnC.
Qed.
End SR.
