(* Termination of the Collins-Akritas loop: the scaled Bernstein coefficients are the coefficients Descartes' rule is applied to. *)
From Coq Require Import List Arith NArith ZArith Bool.
From mathcomp Require Import all_ssreflect all_algebra.
From mathcomp Require Import zify.
From Coq Require Import Lia.
From Verif Require Import RingSpec RingModel FactoredModel PermModel MatModel MatSpec ZRing MatInst PolyModel PolyProofs PolyProofs2 BoundProofs2 PolyProps3 FacModel2 IsoModel IsoProofs IsoProofs4.
Close Scope rs_scope. Close Scope Q_scope.
Set Implicit Arguments.
Unset Strict Implicit.
Unset Printing Implicit Defensive.
Import Order.TTheory GRing.Theory Num.Theory.
Local Open Scope ring_scope.

Section Ops.
Variable R : realFieldType.
Notation zR := (zin R).
Implicit Types (q l : seq Z).
Definition PR l : {poly R} := map_poly zR (Poly l).
Lemma PR_coef l i : (PR l)`_i = zR (nth Z0 l i).
Proof. by rewrite coef_map coef_Poly. Qed.
Lemma PR_map l : PR l = Poly [seq zR c | c <- l].
Proof. apply/polyP => i. rewrite coef_map !coef_Poly. case: (ltnP i (size l)) => H; first by rewrite (nth_map Z0). by rewrite !nth_default ?size_map ?rmorph0. Qed.
Lemma PR_cons c l : PR (c :: l) = PR l * 'X + (zR c)%:P.
Proof. by rewrite !PR_map /= cons_poly_def. Qed.
Lemma PR_nil : PR [::] = 0. Proof. by rewrite /PR rmorph0. Qed.
Lemma PR_opx : PR one_plus_x = 'X + 1.
Proof. rewrite /one_plus_x !PR_cons. rewrite /PR rmorph0 mul0r add0r. have -> : zR (Zpos 1) = 1 by []. by rewrite mul1r. Qed.
Lemma PR_comp l m : PR (@p_compose ZO l m) = PR l \Po PR m.
Proof. by rewrite /PR p_composeE Poly_polyseq map_comp_poly. Qed.
Lemma PR_size l : size (PR l) = size (Poly l : {poly Z_comRingType}).
Proof.
  have I : injective zR.
    move=> x y E. have : zR (Z.sub x y) = 0 by rewrite /Z.sub zin_add zin_opp E subrr. move/zin_inj. lia.
  rewrite /PR /map_poly. exact: (@size_map_inj_poly _ _ zR I (rmorph0 _)).
Qed.
Lemma zinQ_lt0 z : (zR z < 0) = Z.ltb z Z0.
Proof.
  apply/idP/idP => H.
  - apply/Z.ltb_spec0. case: (Z_lt_le_dec z 0) => // /(zin_ge0 R). by rewrite leNgt H.
  - have H0 : Z.le Z0 (Z.opp z) by lia. rewrite ltNge. apply/negP => H2. have := zin_ge0 R H0. rewrite zin_opp oppr_ge0 => H3. have : zR z = 0 by apply/eqP; rewrite eq_le H2 H3. move/zin_inj. lia.
Qed.
Lemma PR_small q qs : q_small q = Some qs -> exists n, PR qs = 2%:R ^+ n.+1 *: (PR q \Po (2%:R^-1 *: 'X)).
Proof.
  rewrite /q_small. case E: p_degree => [n|] //= H. exists n. 
  suff G j : forall q qs, mapM (fun ic : nat * Z => if Nat.ltb n (fst ic) then None else Some (Z.shiftl (Z.mul (snd ic) (Zpos 2)) (Z.of_nat (n - fst ic)%coq_nat))) (combine (List.seq j (length q)) q) = Some qs ->
      2%:R ^+ j *: PR qs = 2%:R ^+ n.+1 *: (PR q \Po (2%:R^-1 *: 'X)).
    by have := G 0%N _ _ H; rewrite expr0 scale1r.
  move: j => j {E H q qs} q. elim: q j => [|c q IH] j qs /=.
  - case=> <-. by rewrite PR_nil comp_poly0 !scaler0.
  - case: Nat.ltb_spec => // Hj. case E: mapM => [qs'|] //= [<-]. rewrite !PR_cons scalerDr comp_polyD comp_polyM comp_polyX comp_polyC scalerDr. congr (_ + _).
    + have := IH _ _ E. rewrite exprS => H. have {}H : 2%:R ^+ j *: PR qs' = 2%:R ^+ n *: (PR q \Po (2%:R^-1 *: 'X)).
        apply: (@scalerI _ _ (2%:R : R)); first by rewrite pnatr_eq0. rewrite scalerA H scalerA -exprS //.
      rewrite scalerAl H -scalerAl -scalerAr scalerA exprSr mulfK ?pnatr_eq0 //.
    + rewrite -!mul_polyC -!polyCM. congr (_%:P). rewrite Z.shiftl_mul_pow2; last by lia. rewrite !zin_mul.
      have -> : zR (Z.pow 2 (Z.of_nat (n - j)%coq_nat)) = 2%:R ^+ (n - j)%N.
        rewrite minusE. elim: (n - j)%N => [|m IHm] //. rewrite Nat2Z.inj_succ Z.pow_succ_r; last by lia. by rewrite zin_mul IHm exprS.
      have -> : zR 2 = 2%:R by []. have -> : 2%:R ^+ n.+1 = 2%:R ^+ j * (2%:R * 2%:R ^+ (n - j)%N) :> R by rewrite -exprS -exprD; congr (_ ^+ _); lia.
      by rewrite -!mulrA; congr (_ * _); rewrite [RHS]mulrA [RHS]mulrC.
Qed.

(* the coefficients of (1 + x)^n l(1 / (1 + x)) *)
Lemma opx_coef k m : ((('X + 1) ^+ k : {poly R})`_m) = 'C(k, m)%:R.
Proof.
  elim: k m => [|k IH] m; first by rewrite expr0 coef1; case: m.
  rewrite exprS mulrDl mul1r coefD coefXM !IH. case: m => [|m]; first by rewrite eqxx !bin0 add0r.
  by rewrite /= binS [in RHS]natrD addrC.
Qed.
Definition desc l := @p_compose ZO (@p_reversed ZO l) one_plus_x.
Lemma desc_coef l n m : size l = n.+1 -> zR (nth Z0 (desc l) m) = \sum_(i < n.+1) zR (nth Z0 l i) * 'C(n - i, m)%:R.
Proof.
  move=> S. rewrite -PR_coef /desc PR_comp PR_opx /p_reversed revE coef_comp_poly.
  have Sz : (size (PR (rev l)) <= n.+1)%N by rewrite PR_map (leq_trans (size_Poly _)) // size_map size_rev S.
  transitivity (\sum_(k < n.+1) (PR (rev l))`_k * (('X + 1) ^+ k)`_m).
    rewrite (big_ord_widen _ (fun k => (PR (rev l))`_k * (('X + 1) ^+ k)`_m) Sz) big_mkcond /=. apply: eq_bigr => k _. case: ltnP => // H. by rewrite (nth_default 0 H) mul0r.
  rewrite (reindex_inj rev_ord_inj) /=. apply: eq_bigr => k _. rewrite opx_coef subSS. congr (_ * _). rewrite PR_coef nth_rev S ?subSS ?ltnS ?leq_subr //. by rewrite subKn // -ltnS.
Qed.
Lemma desc_size l n : size l = n.+1 -> (size (desc l) <= n.+1)%N.
Proof.
  move=> S. have -> : size (desc l) = size (PR (desc l)) by rewrite PR_size /desc p_composeE Poly_polyseq.
  rewrite /desc PR_comp PR_opx. apply: leq_trans (size_comp_poly_leq _ _) _. have -> : size ('X + 1 : {poly R}) = 2%N by rewrite -[1]/(1%:P) size_XaddC.
  rewrite muln1 ltnS. have : (size (PR (@p_reversed ZO l)) <= n.+1)%N by rewrite PR_map (leq_trans (size_Poly _)) // size_map /p_reversed revE size_rev S. by case: size.
Qed.
Lemma ac4 (l A c d : R) : d != 0 -> l * A * c = l * d * (A * (c / d)).
Proof. move=> H. rewrite -!mulrA; congr (_ * _). rewrite [RHS]mulrCA; congr (_ * _). by rewrite mulrCA divff // mulr1. Qed.
Section Bern.
Variables (Q : {poly R}) (a h lam : R) (l : seq Z) (n : nat).
Hypotheses (Sl : size l = n.+1) (El : PR l = lam *: (Q \Po (h *: 'X + a%:P))).
Lemma desc_bern m : (m <= n)%N -> zR (nth Z0 (desc l) m) = lam * 'C(n, m)%:R * bern Q n a h m.
Proof.
  move=> mn. have C0 : 'C(n, m)%:R != 0 :> R by rewrite pnatr_eq0 -lt0n bin_gt0. rewrite (desc_coef _ Sl) /bern mulr_sumr. apply: eq_bigr => i _.
  rewrite -PR_coef El coefZ tay_scale /rho. exact: ac4.
Qed.
Lemma desc_lt0 m : (m <= n)%N -> 0 < lam -> Z.ltb (nth Z0 (desc l) m) Z0 = (bern Q n a h m < 0).
Proof. move=> mn L. rewrite -zinQ_lt0 desc_bern // pmulr_rlt0 // mulr_gt0 // ltr0n bin_gt0 //. Qed.
Lemma desc_lt0' m : (m <= n)%N -> lam < 0 -> Z.ltb (nth Z0 (desc l) m) Z0 = (0 < bern Q n a h m).
Proof. move=> mn L. rewrite -zinQ_lt0 desc_bern // nmulr_rlt0 // nmulr_rlt0 // ltr0n bin_gt0 //. Qed.
Lemma desc_gt0 m : (m <= n)%N -> 0 < lam -> Z.ltb Z0 (nth Z0 (desc l) m) = (0 < bern Q n a h m).
Proof.
  move=> mn L. have -> : Z.ltb Z0 (nth Z0 (desc l) m) = Z.ltb (Z.opp (nth Z0 (desc l) m)) Z0 by apply/Z.ltb_spec0/Z.ltb_spec0; lia.
  rewrite -zinQ_lt0 zin_opp oppr_lt0 desc_bern // pmulr_rgt0 // mulr_gt0 // ltr0n bin_gt0 //.
Qed.
Lemma desc_gt0' m : (m <= n)%N -> lam < 0 -> Z.ltb Z0 (nth Z0 (desc l) m) = (bern Q n a h m < 0).
Proof.
  move=> mn L. have -> : Z.ltb Z0 (nth Z0 (desc l) m) = Z.ltb (Z.opp (nth Z0 (desc l) m)) Z0 by apply/Z.ltb_spec0/Z.ltb_spec0; lia.
  rewrite -zinQ_lt0 zin_opp oppr_lt0 desc_bern // nmulr_rgt0 // nmulr_rlt0 // ltr0n bin_gt0 //.
Qed.
Lemma desc_cv : lam != 0 ->
  (forall i j, (i < j)%N -> (j <= n)%N -> 0 <= bern Q n a h i -> 0 < bern Q n a h j) \/ (forall i j, (i < j)%N -> (j <= n)%N -> bern Q n a h i <= 0 -> bern Q n a h j < 0) ->
  (count_variations (nz (desc l)) <= 1)%N.
Proof.
  have Sd := desc_size Sl. have J j : (j < size (desc l))%N -> (j <= n)%N by move=> H; rewrite -ltnS; apply: leq_trans Sd.
  have Zle0 z : Z.le Z0 z -> Z.ltb z Z0 = false by move=> H; apply/Z.ltb_spec0; lia. have Zge0 z : Z.le z Z0 -> Z.ltb Z0 z = false by move=> H; apply/Z.ltb_spec0; lia.
  case: (ltrgt0P lam) => // L _ [] H; [apply: up_cv|apply: down_cv|apply: down_cv|apply: up_cv] => i j ij /J jn Hi; apply/Z.ltb_spec0; have im : (i <= n)%N := leq_trans (ltnW ij) jn.
  - rewrite desc_gt0 //. apply: (H i) => //. by rewrite leNgt -desc_lt0 // Zle0.
  - rewrite desc_lt0 //. apply: (H i) => //. by rewrite leNgt -desc_gt0 // Zge0.
  - rewrite desc_lt0' //. apply: (H i) => //. by rewrite leNgt -desc_gt0' // Zge0.
  - rewrite desc_gt0' //. apply: (H i) => //. by rewrite leNgt -desc_lt0' // Zle0.
Qed.
End Bern.
End Ops.
