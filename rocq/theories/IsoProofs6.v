(* Termination of the Collins-Akritas loop. *)
From Coq Require Import List Arith NArith ZArith Bool.
From mathcomp Require Import all_ssreflect all_algebra.
From mathcomp Require Import zify.
From Coq Require Import Lia.
From Verif Require Import RingSpec RingModel FactoredModel PermModel MatModel MatSpec ZRing MatInst PolyModel PolyProofs PolyProofs2 BoundProofs2 PolyProps3 FacModel2 IsoModel IsoProofs IsoProofs4 IsoProofs5.
Close Scope rs_scope. Close Scope Q_scope.
Set Implicit Arguments.
Unset Strict Implicit.
Unset Printing Implicit Defensive.
Import Order.TTheory GRing.Theory Num.Theory.
Local Open Scope ring_scope.
Arguments drop_left_root : simpl never. Arguments descartes_01 : simpl never. Arguments q_small : simpl never.
Notation Rt := [realFieldType of rat].
Notation PQ := (@IsoProofs5.PR Rt).
Notation zQ := (zin Rt).
Implicit Types (q l : seq Z).
Definition halts (st : seq item) := exists f, forall isol, iso_loop f st isol <> None.
Definition HL (q : seq Z) := forall c k st, halts st -> halts ((c, k, q) :: st).
(* no stored zero at the top *)
Definition red (q : seq Z) := size (PQ q) = size q.
Definition sep (q : seq Z) := exists u v, u * PQ q + v * (PQ q)^`() = 1.
Lemma size_divX_loop b n i a q0 q r : @quorem_loop ZO Zdiv b n i a q0 = Some (DivOk (q, r)) -> size q = (i + size q0)%N.
Proof.
  elim: i a q0 => [|i IH] a q0 /=; first by case=> <- _. case: Zdiv => // qc /IH -> /=. by rewrite addnS addSn.
Qed.
Lemma PQX : PQ (@p_var ZO) = 'X.
Proof. rewrite /p_var !PR_cons PR_nil mul0r add0r. have -> : zQ (@r1 ZO) = 1 by []. have -> : zQ (@r0 ZO) = 0 by []. by rewrite addr0 mul1r. Qed.
Lemma eval0E q : (PQ q).[0] = zQ (@p_evaluate ZO q Z0).
Proof. rewrite p_evaluateE. exact: (horner_map (zin_rmorph Rt) (Poly q) Z0). Qed.
Lemma drop_zero q : red q -> (1 <= size q)%N -> (PQ q).[0] = 0 -> exists q', [/\ red q', size q = (size q').+1, PQ q = PQ q' * 'X & forall c k, drop_left_root c k q = Some (q', [:: (c, k, false)])].
Proof.
  move=> Rq S0 E0. have Z : Z.eqb (@p_evaluate ZO q Z0) Z0 by apply/Z.eqb_spec/(@zin_inj Rt); rewrite -eval0E E0.
  have [Q EQ] : exists Q : {poly Z_comRingType}, Poly q = Q * 'X.
    have : root (Poly q : {poly Z_comRingType}) 0 by rewrite rootE -[0]/(Z0) -p_evaluateE; apply/eqP/Z.eqb_spec. 
    case/factor_theorem => Q ->. exists Q. by rewrite polyC0 subr0.
  have PX : Poly (@p_var ZO) = 'X :> {poly Z_comRingType} by rewrite /p_var /= !cons_poly_def mul0r add0r mul1r addr0.
  have := p_div_ok Zidom q (@p_var ZO). case ED: p_div => [[d| |]|] //.
  - case=> V Eq. have EX : PQ q = PQ d * 'X by rewrite /PR Eq rmorphM /= -PQX.
    have D0 : PQ d != 0. { apply: contraTneq S0 => D. move: Rq. by rewrite /red EX D mul0r size_poly0 => <-. }
    have SZ : size q = (size (PQ d)).+1 by rewrite -Rq EX size_mulX.
    have SD : size q = (size d).+1.
      move: ED. rewrite /p_div /try_quorem !p_num_coeffsE PX size_polyX -(PR_size Rt) Rq /=. case: Nat.ltb_spec => H.
      - have S1 : size q = 1%N by lia. move: SZ. rewrite S1 => -[] /esym/eqP. rewrite size_poly_eq0. by rewrite (negPf D0).
      - case EL: quorem_loop => [[[qq r]| |]|] //=. case: p_equal => //=. case: p_is_zero => // -[<-]. rewrite (size_divX_loop EL) /=. lia.
    exists d. split=> //; first last.
    + move=> c k. by rewrite /drop_left_root Z ED.
    + apply/eqP. by rewrite /red -eqSS -SZ SD.
  - move=> ZZ. have : (Poly (@p_var ZO) : {poly Z_idomainType})`_1 = 0 by rewrite ZZ coef0. by rewrite coef_Poly.
  - case=> V /(_ Q) []. rewrite EQ. congr (_ * _). by symmetry.
Qed.
Lemma HL_drop q q' : (PQ q').[0] != 0 -> (forall c k, drop_left_root c k q = Some (q', [:: (c, k, false)])) -> HL q' -> HL q.
Proof.
  move=> E0 D H c k st Hst. have D' c' k' : drop_left_root c' k' q' = Some (q', [::]).
    rewrite /drop_left_root. case: Z.eqb_spec => // E. by move: E0; rewrite eval0E E eqxx.
  have [[|f] Hf] := H c k st Hst; first by case: (Hf [::]).
  exists f.+1 => isol. have := Hf (isol ++ [:: (c, k, false)]). rewrite /= D D' /= cats0. by [].
Qed.
Lemma HL_step q v : (PQ q).[0] != 0 -> descartes_01 q = Some v -> (v <= 1)%N \/ (exists qs, [/\ q_small q = Some qs, HL qs & HL (@p_compose ZO qs one_plus_x)]) -> HL q.
Proof.
  move=> E0 Ev H c k st Hst. have D' c' k' : drop_left_root c' k' q = Some (q, [::]).
    rewrite /drop_left_root. case: Z.eqb_spec => // E. by move: E0; rewrite eval0E E eqxx.
  case: (leqP v 1) => V.
  - have [f Hf] := Hst. exists f.+1 => isol. rewrite /= D' /= Ev /=. case: Nat.eqb_spec => _; first exact: Hf. case: Nat.ltb_spec => [|_]; [by lia|exact: Hf].
  - case: H => [|[qs [E1 H1 H2]]]; first by rewrite leqNgt V.
    have Hr := H2 (N.add (N.shiftl c 1) 1) (k + 1)%coq_nat st Hst. have [f Hf] := H1 (N.shiftl c 1) (k + 1)%coq_nat _ Hr.
    exists f.+1 => isol. rewrite /= D' /= Ev /=. case: Nat.eqb_spec => [|_]; first by lia. case: Nat.ltb_spec => [_|]; last by lia. rewrite E1 /=. exact: Hf.
Qed.
Lemma descartes_some q : size q != 0%N -> (PQ q).[0] != 0 -> exists v, descartes_01 q = Some v.
Proof.
  move=> S0 E0. rewrite /descartes_01. case E: sign_variations => [v|]; first by exists v. exfalso. move: E => /sv_none E.
  case Sq: (size q) S0 => [|n] // _. have := desc_coef Rt n Sq. rewrite big_ord_recl subn0 binn mulr1 big1 => [|i _].
  - rewrite addr0 /desc. have -> : nth Z0 (@p_compose ZO (@p_reversed ZO q) one_plus_x) n = Z0.
      case: (ltnP n (size (@p_compose ZO (@p_reversed ZO q) one_plus_x))) => Hn; last by rewrite nth_default.
      have := mem_nth Z0 Hn. set z := nth _ _ _ => Hz. case: (Z.eqb_spec z Z0) => // H. have : z \in nz (@p_compose ZO (@p_reversed ZO q) one_plus_x) by rewrite mem_filter Hz andbT; case: Z.eqb_spec. by rewrite E.
    move=> H. move/eqP: E0; apply. by rewrite -[0]/(0) horner_coef0 PR_coef -H.
  - rewrite bin_small ?mulr0 // lift0. have := ltn_ord i. lia.
Qed.
Lemma qsmall_some q : red q -> size q != 0%N -> exists qs, q_small q = Some qs.
Proof.
  move=> Rq S0. rewrite /q_small p_degreeE -(PR_size Rt) Rq. case Sq: (size q) S0 => [|n] // _. cbn [obind].
  suff G j m : (j + m <= n.+1)%N -> forall q, size q = m -> exists qs, mapM (fun ic : nat * Z => if Nat.ltb n (fst ic) then None else Some (Z.shiftl (Z.mul (snd ic) (Zpos 2)) (Z.of_nat (n - fst ic)%coq_nat))) (combine (List.seq j (length q)) q) = Some qs.
    exact: (G 0%N n.+1 (leqnn _) q Sq).
  elim: m j => [|m IH] j Hj [|c l] //= S; first by exists [::]. case: Nat.ltb_spec => H; first by lia. 
  have Hl : size l = m by apply: (succn_inj S). have Hj1 : (j.+1 + m <= n.+1)%N by lia. have [qs E] := IH j.+1 Hj1 l Hl. rewrite -[List.length l]/(size l) in E *. rewrite E. by eexists.
Qed.
Lemma sep_affine Q q lam a h : red q -> lam != 0 -> h != 0 -> (exists u v, u * Q + v * Q^`() = 1) -> PQ q = lam *: (Q \Po (h *: 'X + a%:P)) -> sep q.
Proof.
  move=> _ l0 h0 [u [v UV]] E. set w := h *: 'X + a%:P in E. exists (lam^-1 *: (u \Po w)), ((lam^-1 / h) *: (v \Po w)).
  have Dw : w^`() = h%:P by rewrite /w derivD derivZ derivX derivC addr0 alg_polyC.
  rewrite E derivZ deriv_comp Dw -!scalerAl -!scalerAr !scalerA [_ * h%:P]mulrC mul_polyC -scalerAr scalerA.
  have -> : lam^-1 * lam = 1 by rewrite mulVf. have -> : lam^-1 / h * lam * h = 1 by rewrite mulrAC divfK // mulVf.
  rewrite !scale1r -!comp_polyM -comp_polyD UV. by rewrite -[1]/(1%:P) comp_polyC.
Qed.
Lemma sep_X q q' : sep q -> PQ q = PQ q' * 'X -> sep q' /\ (PQ q').[0] != 0.
Proof.
  case=> u [v UV] E. move: UV. rewrite E derivM derivX mulr1 => UV. split.
  - exists (u * 'X + v), (v * 'X). rewrite -UV mulrDl mulrDr -!mulrA ['X * _]mulrC ['X * _]mulrC -!addrA. congr (_ + _). by rewrite addrC.
  - apply/eqP => HZ. have E1 : (1 : {poly rat}).[0] = 0 by rewrite -UV !(hornerD, hornerM) HZ hornerX ?mulr0 ?add0r ?addr0 ?mulr0. move: E1. rewrite hornerC => /eqP. by rewrite oner_eq0.
Qed.
Lemma mapM_len (A B : Type) (f : A -> option B) (l : seq A) (l1 : seq B) : mapM f l = Some l1 -> size l1 = size l.
Proof. elim: l l1 => [|x l IH] l1 /=; first by case=> <-. case: (f x) => // y. case: mapM IH => // m /(_ _ erefl) E [<-]. by rewrite /= E. Qed.
Lemma red_small q qs : red q -> q_small q = Some qs -> red qs /\ size qs = size q.
Proof.
  move=> Rq E. have [n Ep] := PR_small Rt E.
  have S : size qs = size q.
    move: E. rewrite /q_small. case: p_degree => [m|] // H. rewrite (mapM_len H) -[LHS]/(List.length _) combine_length seq_length Nat.min_id. by [].
  split=> //. rewrite /red S Ep size_scale ?expf_eq0 ?pnatr_eq0 // size_comp_poly2; first exact: Rq. by rewrite size_scale ?invr_eq0 ?pnatr_eq0 // size_polyX.
Qed.
Lemma red_comp q m : red (@p_compose ZO q m).
Proof. by rewrite /red PR_size p_composeE Poly_polyseq. Qed.
Lemma red_neq0 q : red q -> size q != 0%N -> PQ q != 0.
Proof. by rewrite /red => R S; rewrite -size_poly_eq0 R. Qed.
Lemma cv_le1 l : (size l <= 1)%N -> (count_variations (nz l) <= 1)%N.
Proof. move=> H. apply: up_cv => i j ij jl. lia. Qed.
Lemma pow2_bound (M : rat) : 0 < M -> exists K, 2%:R ^- K * M < 1.
Proof.
  move=> M0. exists (Num.bound M). rewrite mulrC ltr_pdivr_mulr ?exprn_gt0 // mul1r.
  have H := archi_boundP (ltW M0). apply: lt_trans H _. by rewrite -natrX ltr_nat ltn_expl.
Qed.
Lemma sv_cv l v : sign_variations l = Some v -> v = count_variations (nz l).
Proof. rewrite /sign_variations /nonzero_coeffs filterE. rewrite -[[seq x <- l | _]]/(nz l). by case: (nz l) => [|x t] // [<-]. Qed.
Lemma pow2S j : 2%:R ^- j.+1 = 2%:R ^- j / 2%:R :> rat.
Proof. by rewrite exprSr invfM. Qed.
Lemma half2 (h : rat) : h / 2%:R + h / 2%:R = h.
Proof. by rewrite -splitr. Qed.
Lemma affL (Q : {poly rat}) (lam h a : rat) m : 2%:R ^+ m.+1 *: ((lam *: (Q \Po (h *: 'X + a%:P))) \Po (2%:R^-1 *: 'X)) = (2%:R ^+ m.+1 * lam) *: (Q \Po ((h / 2%:R) *: 'X + a%:P)).
Proof. by rewrite comp_polyZ scalerA -comp_polyA comp_polyD comp_polyZ comp_polyX comp_polyC scalerA. Qed.
Lemma affR (Q : {poly rat}) (lam h a : rat) : (lam *: (Q \Po (h *: 'X + a%:P))) \Po ('X + 1) = lam *: (Q \Po (h *: 'X + (a + h)%:P)).
Proof.
  by rewrite comp_polyZ -comp_polyA comp_polyD comp_polyZ comp_polyX comp_polyC scalerDr alg_polyC polyCD -addrA [h%:P + _]addrC.
Qed.
Lemma HL_all N : forall q, red q -> size q != 0%N -> (size q <= N)%N -> sep q -> HL q.
Proof.
  elim: N => [|N IHN] q0 R0 S0 SN Sep0; first by move: S0; case: (size q0) SN.
  set Q := PQ q0. case En: (size q0) S0 => [|n] // _.
  have SQ : size Q = n.+1 by rewrite -En.
  have [K HK] : exists K, forall l a lam, size l = n.+1 -> lam != 0 -> PQ l = lam *: (Q \Po (2%:R ^- K *: 'X + a%:P)) -> 0 <= a -> a <= 1 -> (count_variations (nz (desc l)) <= 1)%N.
    case: (leqP n 0) => n0.
      exists 0%N => l a lam Sl _ _ _ _. apply: cv_le1. have := desc_size Rt Sl. by move: n0; rewrite leqn0 => /eqP ->.
    have [u [v UV]] := Sep0. have sQ : (1 < size Q)%N by rewrite SQ.
    have [M [M0 HM]] := bern_mono UV sQ. have [K HK] := pow2_bound M0. exists K => l a lam Sl L0 El a0 a1.
    apply: (desc_cv Sl El) => //. have := HM a (2%:R ^- K) a0 a1 _ HK. rewrite SQ /=. apply. by rewrite invr_gt0 exprn_gt0.
  suff D d : forall j l a lam, (j + d)%N = K -> red l -> size l = n.+1 -> lam != 0 -> PQ l = lam *: (Q \Po (2%:R ^- j *: 'X + a%:P)) -> 0 <= a -> a + 2%:R ^- j <= 1 -> HL l.
    apply: (D K 0%N q0 0 1) => //.
    - by rewrite scale1r expr0 invr1 scale1r addr0 comp_polyXr.
  elim: d => [|d IHd] j l a lam Hj Rl Sl L0 El a0 a1.
  all: have h0 : 2%:R ^- j != 0 :> rat by rewrite invr_eq0 expf_eq0 pnatr_eq0 andbF.
  all: have hp : 0 < 2%:R ^- j :> rat by rewrite invr_gt0 exprn_gt0.
  all: have Sepl : sep l := sep_affine Rl L0 h0 Sep0 El.
  all: have Snz : size l != 0%N by rewrite Sl.
  all: have S1 : (1 <= size l)%N by rewrite Sl.
  all: case: (eqVneq (PQ l).[0] 0) => E0; first (have [q' [Rq Sq Eq Dq]] := drop_zero Rl S1 E0; have [Sepq Hq] := sep_X Sepl Eq;
      apply: (HL_drop Hq Dq); apply: IHN => //; [apply: contraNneq Hq => Z; rewrite (size0nil Z) PR_nil horner0 //|rewrite -ltnS -Sq Sl -En //]).
  all: have [v Ev] := descartes_some Snz E0.
  - apply: (HL_step E0 Ev). left. move: Hj. rewrite addn0 => Hj. subst j.
    have a2 : a <= 1 by apply: le_trans a1; rewrite ler_addl ltW.
    rewrite (sv_cv Ev). exact: (HK l a lam Sl L0 El a0 a2).
  - apply: (HL_step E0 Ev). right. have [qs Eqs] := qsmall_some Rl Snz. have [Rs Ss] := red_small Rl Eqs. have [m Em] := PR_small Rt Eqs.
    have EL := Em. rewrite El affL -pow2S in EL. have L1 : 2%:R ^+ m.+1 * lam != 0 by rewrite mulf_neq0 // expf_eq0 pnatr_eq0 andbF.
    have Hj' : (j.+1 + d)%N = K by rewrite addSnnS.
    have hj : 2%:R ^- j.+1 + 2%:R ^- j.+1 = 2%:R ^- j :> rat by rewrite pow2S half2. have hp1 : 0 < 2%:R ^- j.+1 :> rat by rewrite invr_gt0 exprn_gt0.
    exists qs. split=> //.
    + apply: (IHd j.+1 qs a _ Hj' Rs _ L1 EL a0); first by rewrite Ss. apply: le_trans a1. by rewrite ler_add2l -hj ler_addl ltW.
    + have ER : PQ (@p_compose ZO qs one_plus_x) = (2%:R ^+ m.+1 * lam) *: (Q \Po (2%:R ^- j.+1 *: 'X + (a + 2%:R ^- j.+1)%:P)) by rewrite PR_comp PR_opx EL affR.
      apply: (IHd j.+1 _ (a + 2%:R ^- j.+1) _ Hj' (red_comp _ _) _ L1 ER).
      * rewrite -(red_comp qs one_plus_x) PR_comp PR_opx size_comp_poly2 ?Rs ?Ss // -[1]/(1%:P) size_XaddC //.
      * by rewrite addr_ge0 // ltW.
      * by rewrite -addrA hj.
Qed.
