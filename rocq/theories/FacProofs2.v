(* Yun's algorithm (FacModel.yun) over a GCD domain of characteristic 0. *)
From Coq Require Import List Arith NArith Bool.
From mathcomp Require Import all_ssreflect all_algebra separable.
From mathcomp Require Import zify.
From Coq Require Import Lia.
From Verif Require Import RingSpec RingModel RingProofs FactoredSpec FactoredModel FactoredProofs PermModel MatModel MatSpec PolyModel PolyProofs PolyProofs2 PolyProofs3 PolyProofs11 PolyProofs12 FacModel FacProofs.
Close Scope rs_scope.
Set Implicit Arguments.
Unset Strict Implicit.
Unset Printing Implicit Defensive.
Import GRing.Theory.
Local Open Scope ring_scope.

Section Y.
Variable R : idomainType.
Notation O := (mc_ops R).
Notation P := (poly_ops O).
Variable div : div_op O.
Hypothesis D : idom_laws O div.
Variable ffa : ffa_op O.
Hypothesis F : ffa_laws O ffa.
Notation pdv := (@pdivr O div).
Notation pfa := (@pffar O div ffa).
Let PD : idom_laws P pdv := poly_idom D.
Let PF : ffa_laws P pfa := poly_ffa D F.
Notation fact := (factored P).
Notation ex := (fun f : fact => Poly (@expand P f)).
Implicit Types (f a b c d : seq R) (A B Q : {poly R}) (fs ga gb : fact).

Lemma eqvE a b : eqv P a b <-> Poly a = Poly b.
Proof. split=> [/p_equalP|H] //. exact/p_equalP. Qed.
Lemma pmulE a b : Poly (@rmul P a b) = Poly a * Poly b.
Proof. by cbn [rmul poly_ops]; rewrite p_mulE Poly_polyseq. Qed.
Lemma pnpowE a n : Poly (@npow P a n) = Poly a ^+ n.
Proof. elim: n => [|n IH]; first by rewrite expr0 /= cons_poly_def mul0r add0r. by rewrite exprS -IH -pmulE. Qed.
Lemma pnat_powE a n : Poly (@nat_pow P a n) = Poly a ^+ N.to_nat n.
Proof. rewrite -pnpowE. apply/eqvE. exact: nat_pow_ok (poly_ring R) _ _. Qed.
(* the documented invariant of Factored values *)
Definition okf fs := [/\ @runit P (f_unit fs), @valid_factors P (f_factors fs) & List.Forall (fun x => @is_fav_assoc P pfa (fst x) = true) (f_factors fs)].
Lemma ex_mul ga gb : okf ga -> okf gb -> okf (f_mul (R := P) pdv ga gb) /\ ex (f_mul (R := P) pdv ga gb) = ex ga * ex gb.
Proof.
  move=> [U1 V1 F1] [U2 V2 F2]. have [E [U3 F3]] := f_mul_ok P pdv pfa PD PF ga gb F1 F2. split; last by move/eqvE: E => ->; rewrite pmulE.
  split=> //; first exact: U3. exact: (f_mul_valid P pdv PD _ _ V1 V2).
Qed.
Lemma runit_mul u v : @runit P u -> @runit P v -> @runit P (@rmul P u v).
Proof. move=> /punitE [x X E] /punitE [y Y E']. apply/punitE. exists (x * y); first by rewrite unitrM X. by rewrite pmulE E E' polyCM. Qed.
Lemma exE ga : ex ga = Poly (f_unit ga) * Poly (@powers_prod P (f_factors ga)).
Proof. have /eqvE -> := expand_ok P pdv PD ga. by rewrite pmulE. Qed.
Lemma ex_pow ga n : okf ga -> okf (f_pow (R := P) ga (N.of_nat n.+1)) /\ ex (f_pow (R := P) ga (N.of_nat n.+1)) * Poly (f_unit ga) ^+ n = ex ga ^+ n.+1.
Proof.
  move=> [U V Fv]. split.
  - split=> //=.
    + case: V => V1 V2. split.
      * apply/List.Forall_forall => x /List.in_map_iff [y [<- Hy]] /=. move/List.Forall_forall: V1 => /(_ y Hy) [H1 H2]. split=> //. by apply: N.mul_pos_pos; [exact: H2|lia].
      * rewrite /non_associate in V2 *. elim: V2 => [|x l Hx Hl IH] /=; first by constructor. constructor=> //. apply/List.Forall_forall => z /List.in_map_iff [y [<- Hy]] /=. by move/List.Forall_forall: Hx => /(_ y Hy).
    + apply/List.Forall_forall => x /List.in_map_iff [y [<- Hy]] /=. by move/List.Forall_forall: Fv => /(_ y Hy).
  - rewrite !exE /=. have /eqvE -> := powers_prod_pow P pdv PD (f_factors ga) (N.of_nat n.+1). rewrite pnpowE Nnat.Nat2N.id exprMn [in RHS]exprS. by rewrite mulrAC.
Qed.
Lemma okf_unit u : @runit P u -> okf (factored_unit_unchecked (R := P) u).
Proof. move=> H. split=> //=. split; constructor. Qed.

Lemma div_unwrap_ok a b Q : Poly b != 0 -> Poly a = Q * Poly b -> exists q, @div_unwrap O div a b = Some q /\ Poly q = Q.
Proof.
  move=> Hb E. rewrite /div_unwrap (p_div_total D). have := pdivP D a b. cbn [obind]. case: pdiv => [q||].
  - case=> _ E'. exists q. split=> //. apply: (@mulIf _ (Poly b)) => //. by rewrite -E' E.
  - move=> Z. by move: Hb; rewrite Z eqxx.
  - case=> _ /(_ Q). by rewrite E.
Qed.

Variable gcd : R -> R -> R.
Hypothesis G : gcd_laws O ffa gcd.
Notation GE := (GE G).
Hypothesis C0 : forall n, (n.+1)%:R != 0 :> R.
Lemma prim1 : prim (1 : {poly R}).
Proof. move=> d /(_ 0%N). by rewrite coefC eqxx. Qed.
Lemma prim_exp A n : prim A -> prim (A ^+ n).
Proof. move=> H. elim: n => [|n IH]; first by rewrite expr0; exact: prim1. rewrite exprS. exact: (gauss GE). Qed.
Lemma prim_const A : prim A -> (size A <= 1)%N -> exists2 u, u \is a GRing.unit & A = u%:P.
Proof.
  move=> H /size1_polyC E. exists A`_0 => //. have [|q Eq] := H A`_0.
  - move=> i. rewrite {2}E coefC. case: eqP => _; [exact: dv_refl|exact: dv0].
  - apply/unitrP. exists q. by rewrite -Eq mulrC -Eq.
Qed.

Section Loop.
Variables (pgcd : seq R -> seq R -> option (seq R)) (sqf : seq R -> option fact).
Hypothesis PG : forall b d, prim (Poly b) -> exists g, [/\ pgcd b d = Some g, prim (Poly g) & Poly g %= gcdp (Poly b) (Poly d)].
Hypothesis SQ : forall a, prim (Poly a) -> coprimep (Poly a) (Poly a)^`() -> exists fa, [/\ sqf a = Some fa, okf fa & ex fa = Poly a].
Notation from i L := [seq x <- L | (i <= x.2)%N].
Definition units_one := forall a fa, sqf a = Some fa -> Poly (f_unit fa) = 1.

Lemma scaleE_eqp A B s t : s != 0 -> t != 0 -> s *: A = t *: B -> A %= B.
Proof. move=> Hs Ht E. apply: eqp_trans (_ : s *: A %= _); first by rewrite eqp_sym eqp_scale. by rewrite E eqp_scale. Qed.
Lemma eqp_scaleE A B : A %= B -> exists s t, [/\ s != 0, t != 0 & s *: A = t *: B].
Proof. move/eqpP => [[s t] /= /andP[Hs Ht] E]. by exists s, t. Qed.
Lemma yun_loop_ok (L : seq ({poly R} * nat)) : good L -> forall fuel i f b d fs, (0 < i)%N ->
  prim (Poly f) -> Poly f %= Fp (from i L) -> prim (Poly b) ->
  (exists s t, [/\ s != 0, t != 0, s *: Poly b = t *: Pi (from i L) & s *: Poly d = t *: W (fun e => e - i)%N (from i L)]) ->
  (forall x, x \in L -> (x.2 < fuel + i)%N) -> okf fs ->
  exists fl gs w, [/\ @yun_loop O div pgcd sqf fuel i f b d fs = Some (fl, gs), okf gs, @runit P fl, w \is a GRing.unit & 
    ex gs * Poly fl * w%:P = ex fs * Poly f] /\ (units_one -> w = 1).
Proof.
  move=> HL. elim=> [|fuel IH] i f b d fs Hi Hf Ef Hb [s [t [Hs Ht Eb Ed]]] Hx Hfs.
  - have E0 : from i L = [::] by apply: from_top => x /Hx. rewrite E0 /= in Ef.
    have Hs1 : (size (Poly f) == 1)%N by rewrite size_poly_eq1. have [u U Eu] := prim_const Hf (eq_leq (eqP Hs1)).
    cbn [yun_loop]. rewrite p_degreeE (eqP Hs1). cbn [obind Nat.eqb]. exists f, fs, 1. split=> //. split=> //; [|exact: unitr1|by rewrite polyC1 mulr1]. apply/punitE. by exists u.
  - cbn [yun_loop]. rewrite p_degreeE. have Hf0 := prim_neq0 Hf. case Es: (size (Poly f)) => [|m]; first by move: Hf0; rewrite -size_poly_eq0 Es.
    cbn [obind]. case: m Es => [|m] Es.
    { have [u U Eu] := prim_const Hf (eq_leq Es). cbn [Nat.eqb]. exists f, fs, 1. split=> //. split=> //; [|exact: unitr1|by rewrite polyC1 mulr1]. apply/punitE. by exists u. }
    cbn [Nat.eqb]. have [a [Ea Ha Eag]] := PG d Hb. rewrite Ea. cbn [obind].
    set A := Pi [seq x <- L | x.2 == i]. set B' := Pi (from i.+1 L). set W' := W (fun e => e - i)%N (from i.+1 L).
    have EB : Pi (from i L) = A * B' by exact: split_Pi. have EW : W (fun e => e - i)%N (from i L) = A * W' by exact: split_W.
    rewrite EB in Eb. rewrite EW in Ed.
    have HA0 : A != 0 by apply: good_neq0; exact: good_filter.
    have Hc : coprimep B' W'. { apply: coprime_PW => //; first exact: good_filter. move=> x. rewrite mem_filter => /andP[H _]. by rewrite subn_gt0. }
    have EaA : Poly a %= A.
    { apply: eqp_trans Eag _. apply: eqp_trans (eqp_gcd (scaleE_eqp Hs Ht Eb) (scaleE_eqp Hs Ht Ed)) _. apply: eqp_trans (gcdp_mul2l _ _ _) _.
      rewrite -{2}[A]mulr1. apply: eqp_mull. by rewrite -size_poly_eq1. }
    have Hsq : coprimep (Poly a) (Poly a)^`(). { have := @eqp_separable _ _ _ EaA. rewrite /separable_poly => ->. exact: Pi_at_sqfree. }
    have [fa [Efa Hfa Exa]] := SQ Ha Hsq. rewrite Efa. cbn [obind]. have Ha0 := prim_neq0 Ha.
    have Eai : Poly (@nat_pow P a (N.of_nat i)) = Poly a ^+ i by rewrite pnat_powE Nnat.Nat2N.id.
    have [Q EQ] : exists Q, Poly f = Q * Poly a ^+ i.
    { apply: (prim_dvdp GE); first exact: prim_exp. rewrite (eqp_dvdr _ Ef) split_Fp (eqp_dvdl _ (eqp_exp i EaA)). exact: dvdp_mulr. }
    have [f1 [Ef1 EQ1]] : exists q, @div_unwrap O div f (@nat_pow P a (N.of_nat i)) = Some q /\ Poly q = Q by apply: div_unwrap_ok; rewrite Eai // expf_neq0.
    rewrite Ef1. cbn [obind].
    have [Qb EQb] : exists Q, Poly b = Q * Poly a by apply: (prim_dvdp GE) => //; rewrite (eqp_dvdl _ Eag) dvdp_gcdl.
    have [Qd EQd] : exists Q, Poly d = Q * Poly a by apply: (prim_dvdp GE) => //; rewrite (eqp_dvdl _ Eag) dvdp_gcdr.
    have [b1 [Eb1 EQb1]] := div_unwrap_ok Ha0 EQb. have [c1 [Ec1 EQc1]] := div_unwrap_ok Ha0 EQd. rewrite Eb1 Ec1. cbn [obind].
    set fs1 := f_mul _ _ _. have Ei : i = i.-1.+1 by rewrite prednK. 
    have [Hp1 Hp2] := ex_pow i.-1 Hfa. rewrite -Ei in Hp1 Hp2. have [Hm1 Hm2] := ex_mul Hfs Hp1. rewrite -/fs1 in Hm1 Hm2.
    have [sg [ta [Hsg Hta Esg]]] := eqp_scaleE EaA.
    have cancel X Y Z : s *: (X * Poly a) = t *: (A * Z) -> Y = X -> (s * ta) *: Y = (sg * t) *: Z.
    { move=> E ->. apply: (@mulfI _ A) => //. have -> : A * ((s * ta) *: X) = s *: (X * (ta *: A)) by rewrite -!scalerAr scalerA [X * A]mulrC.
      by rewrite -Esg -!scalerAr scalerA [s * sg]mulrC -scalerA E scalerA. }
    rewrite EQb in Eb. rewrite EQd in Ed. have K1 := cancel _ _ _ Eb EQb1. have K2 := cancel _ _ _ Ed EQc1.
    have [] := IH (i + 1)%N f1 b1 (@p_add O (@p_neg O (@p_derivative O b1)) c1) fs1.
    + by rewrite addn1.
    + apply: (prim_dv (C := Poly a ^+ i) Hf). by rewrite EQ1 mulrC.
    + rewrite addn1. have Hpa : Poly a ^+ i != 0 by rewrite expf_neq0. rewrite -(eqp_mul2r _ _ Hpa) EQ1 -EQ. apply: eqp_trans Ef _. rewrite split_Fp mulrC. apply: eqp_mull. rewrite eqp_sym. exact: eqp_exp.
    + apply: (prim_dv (C := Poly a) Hb). by rewrite EQb1 mulrC.
    + exists (s * ta), (sg * t). rewrite !mulf_neq0 // addn1. split=> //. rewrite p_addE Poly_polyseq p_negE p_derivativeE scalerDr K2 scalerN -derivZ K1 derivZ dPi -scalerN -scalerDr. congr (_ *: _).
      rewrite /W' -[from i.+1 L]/(from i.+1 L). have -> : W (fun e => e - i)%N (from i.+1 L) = W (fun e => (e - i.+1) + 1)%N (from i.+1 L).
      { apply: W_ext => x. rewrite mem_filter => /andP[H _]. by rewrite addn1 subnSK. }
      by rewrite (W_add _ (fun _ => 1%N)) addrC addrK.
    + move=> x /Hx. lia.
    + exact: Hm1.
    + move=> fl [gs [w [[E1 E2 E3 E4 E5] E6]]]. have [/punitE [u U Eu] _ _] := Hfa. exists fl, gs, (w * u ^+ i.-1). split.
      * split=> //; first by rewrite unitrM E4 unitrX. rewrite polyCM mulrA E5 Hm2 EQ1 EQ rmorphX /= -Eu. rewrite -mulrA [X in _ * X]mulrC mulrA -[_ * _ * Poly _ ^+ _]mulrA Hp2 Exa. by rewrite -mulrA [Poly a ^+ _ * _]mulrC.
      * move=> H1. rewrite E6 // mul1r. have := H1 _ _ Efa. rewrite Eu => /(congr1 (fun p : {poly R} => p`_0)). rewrite !coefC /= => ->. by rewrite expr1n.
Qed.
End Loop.

(* gcd_by_primitive_subresultant is a gcd for the loop *)
Lemma gcdps_PG b d : prim (Poly b) -> exists g, [/\ @gcd_by_primitive_subresultant O div gcd b d = Some g, prim (Poly g) & Poly g %= gcdp (Poly b) (Poly d)].
Proof.
  move=> Hb. have Hb0 := prim_neq0 Hb. case: (@eqP _ (Poly d) 0) => [Hd|/eqP Hd].
  - exists b. rewrite /gcd_by_primitive_subresultant !p_is_zeroE Hd (negPf Hb0) eqxx gcdp0. by rewrite eqpxx.
  - have [g [E1 E2 [q1 E3] [q2 E4] E5]] := gcdps_ok D G Hb0 Hd. exists g. split=> //. apply/andP; split.
    + rewrite dvdp_gcd E3 E4. by rewrite !dvdp_mull.
    + have Hg0 : gcdp (Poly b) (Poly d) != 0 by rewrite gcdp_eq0 (negPf Hb0). have [c [h [Eh Hc Hh]]] := prim_fact GE Hg0.
      have dvh A : gcdp (Poly b) (Poly d) %| A -> exists q, A = q * h. { move=> H. apply: (prim_dvdp GE) => //. apply: dvdp_trans H. by rewrite Eh dvdpZr. }
      have [q ->] := E5 h Hh (dvh _ (dvdp_gcdl _ _)) (dvh _ (dvdp_gcdr _ _)). by rewrite Eh dvdpZl // dvdp_mull.
Qed.
(* primes of R are primes of R[x] *)
Lemma dvp_prime p : @rprime O p -> forall A B, dvp p (A * B) -> dvp p A \/ dvp p B.
Proof.
  move=> [_ [_ Hp]]. have Hp' x y : dv p (x * y) -> dv p x \/ dv p y. { move/rdvdE => /(Hp x y) []; move/rdvdE; by [left|right]. }
  suff K : forall n A B, (size A + size B <= n)%N -> dvp p (A * B) -> dvp p A \/ dvp p B by move=> A B; exact: (K _ _ _ (leqnn _)).
  have dvp0 : dvp p (0 : {poly R}) by move=> i; rewrite coef0; exact: dv0.
  elim=> [|n IH] A B Hn Hd.
  { left. have : (size A <= 0)%N by apply: leq_trans Hn; exact: leq_addr. by rewrite leqn0 size_poly_eq0 => /eqP ->. }
  case: (@eqP _ A 0) => [->|/eqP HA]; first by left. case: (@eqP _ B 0) => [->|/eqP HB]; first by right.
  have : dv p (lead_coef A * lead_coef B) by rewrite -lead_coefM; exact: Hd. case/Hp' => Hl.
  - have [||H|H] := IH (A - lead_coef A *: 'X^(size A).-1) B.
    + have := size_tail HA. move: Hn. set x := size A. set y := size B. move=> H1 H2. apply: leq_trans (_ : (x.-1 + y <= n)%N); last lia. rewrite leq_add2r. lia.
    + rewrite mulrBl. apply: dvp_sub => //. apply: dvp_mul => i. rewrite coefZ. exact: dvMr.
    + left. exact: dvp_lead.
    + by right.
  - have [||H|H] := IH A (B - lead_coef B *: 'X^(size B).-1).
    + have := size_tail HB. move: Hn. set x := size A. set y := size B. move=> H1 H2. apply: leq_trans (_ : (x + y.-1 <= n)%N); last lia. rewrite leq_add2l. lia.
    + rewrite mulrBr. apply: dvp_sub => //. rewrite mulrC. apply: dvp_mul => i. rewrite coefZ. exact: dvMr.
    + by left.
    + right. exact: dvp_lead.
Qed.
Lemma rdvd_const p a : @rdvd P [:: p] a <-> dvp p (Poly a).
Proof.
  split.
  - case=> c /p_equalP. rewrite pmulE Poly1 => -> i. rewrite coefCM. apply: dvMr. exact: dv_refl.
  - move=> /dvp_fact [Q E]. exists (polyseq Q). apply/p_equalP. by rewrite pmulE Poly1 Poly_polyseq mul_polyC.
Qed.
Lemma const_prime p : @rprime O p -> @rprime P [:: p].
Proof.
  move=> Hp. have [H1 [H2 _]] := Hp. split; last split.
  - apply/negP => /p_equalP. rewrite Poly1 => /eqP. rewrite polyC_eq0. by move: H1 => /= ->.
  - move/punitE => [u U]. rewrite Poly1 => /polyC_inj E. apply: H2. apply/runitE. by rewrite E.
  - move=> a b /rdvd_const. rewrite pmulE => /(dvp_prime Hp) []; rewrite -rdvd_const; by [left|right].
Qed.
Lemma const_fav p : p != 0 -> @is_fav_assoc O ffa p = true -> @is_fav_assoc P pfa [:: p] = true.
Proof.
  move=> Hp /eqP H. have [a' [E1 E2]] := pffaE D F [:: p]. rewrite /is_fav_assoc. apply/p_equalP. change pfa with (@pffa R div ffa). rewrite E1.
  move: E2. rewrite Poly1 lead_coefC polyC_eq0 (negPf Hp). have [Ea Ua] := ffaE F p. have -> : (ffa p).1 = 1.
  { apply: (@mulIf _ p) => //. by rewrite mul1r {2}H -Ea. }
  by rewrite polyC1 mul1r.
Qed.
Lemma good_pos (L : seq ({poly R} * nat)) x : good L -> x \in L -> (0 < x.2)%N.
Proof. elim: L => [|y L IH] //= [_ _ _ Hy HL]. rewrite inE => /orP[/eqP ->|] //. exact: IH. Qed.
Lemma powers_const (fs : seq (R * N)) : Poly (@powers_prod P (List.map (fun pk => ([:: fst pk], snd pk)) fs)) = (@powers_prod O fs)%:P.
Proof.
  elim: fs => [|[p k] fs IH]; first by rewrite /= cons_poly_def mul0r add0r. cbn [List.map powers_prod fst snd]. rewrite pmulE IH pnpowE Poly1 /= polyCM. congr (_ * _). by rewrite npowE rmorphX.
Qed.
Section Yun.
Variables (pgcd : seq R -> seq R -> option (seq R)) (sqf : seq R -> option fact) (factor : R -> option (factored O)).
Hypothesis PG : forall b d, prim (Poly b) -> exists g, [/\ pgcd b d = Some g, prim (Poly g) & Poly g %= gcdp (Poly b) (Poly d)].
Hypothesis SQ : forall a, prim (Poly a) -> coprimep (Poly a) (Poly a)^`() -> exists fa, [/\ sqf a = Some fa, okf fa & ex fa = Poly a].
Definition okfR (f : factored O) := [/\ @runit O (f_unit f), @valid_factors O (f_factors f) & List.Forall (fun x => @is_fav_assoc O ffa (fst x) = true) (f_factors f)].
Hypothesis FA : forall c : R, c != 0 -> exists cf, [/\ factor c = Some cf, okfR cf & @expand O cf = c].
Lemma okf_const cf : okfR cf -> okf (Factored (R := P) [:: f_unit cf] (List.map (fun pk => ([:: fst pk], snd pk)) (f_factors cf))) /\
  ex (Factored (R := P) [:: f_unit cf] (List.map (fun pk => ([:: fst pk], snd pk)) (f_factors cf))) = (@expand O cf)%:P.
Proof.
  move=> [U [V1 V2] Fv]. split; last first.
  - rewrite exE. cbn [f_unit f_factors]. rewrite powers_const Poly1 -polyCM. congr (_%:P). by have /= /eqP -> := expand_ok O div D cf.
  - split; cbn [f_unit f_factors].
    + apply/punitE. exists (f_unit cf); [exact/runitE|exact: Poly1].
    + split.
      * apply/List.Forall_forall => x /List.in_map_iff [y [<- Hy]] /=. move/List.Forall_forall: V1 => /(_ y Hy) [H1 H2]. split=> //. exact: const_prime.
      * rewrite /non_associate in V2 *. elim: V2 => [|x l Hx Hl IH] /=; first by constructor. constructor=> //. apply/List.Forall_forall => z /List.in_map_iff [y [<- Hy]] /=. move/List.Forall_forall: Hx => /(_ y Hy) H [v [/punitE [u Hu Ev] /p_equalP]].
        rewrite pmulE !Poly1 Ev -polyCM => /polyC_inj E. apply: H. exists u. split; [exact/runitE|exact/eqP].
    + apply/List.Forall_forall => x /List.in_map_iff [y [<- Hy]] /=. apply: const_fav; last by move/List.Forall_forall: Fv => /(_ y Hy).
      move/List.Forall_forall: V1 => /(_ y Hy) [[H1 _] _]. by move: H1 => /= ->.
Qed.
Lemma yun_ok f : Poly f != 0 -> exists r w, [/\ @yun O div gcd pgcd factor sqf f = Some r, okf r, w \is a GRing.unit & ex r * w%:P = Poly f] /\ (units_one sqf -> w = 1).
Proof.
  move=> Hf. rewrite /yun p_is_zeroE Hf. have [c [h [Efp Efh Hc Hh]]] := fpu_ok D G Hf. rewrite Efp. cbn [obind fst snd].
  have [cf [Ecf Hcf Excf]] := FA Hc. rewrite Ecf. cbn [obind]. have [Hk1 Hk2] := okf_const Hcf. set fs := Factored _ _ in Hk1 Hk2 *.
  have Hh0 := prim_neq0 Hh.
  have [L [HL EL]] := sqfree_decomp C0 Hh0 (leqnSn _).
  have [a [Ea Ha Eag]] := gcdps_PG (@p_derivative O h) Hh. rewrite Ea. cbn [obind]. have Ha0 := prim_neq0 Ha. rewrite p_derivativeE in Eag.
  have [s [t [Hs Ht Es]]] := eqp_scaleE EL.
  have Es' : s *: (Poly h)^`() = t *: (Gp L * W id L) by rewrite -derivZ Es derivZ dFp.
  rewrite Gp_Pi // in Es.
  have EaG : Poly a %= Gp L.
  { apply: eqp_trans Eag _. apply: eqp_trans (eqp_gcd (scaleE_eqp Hs Ht Es) (scaleE_eqp Hs Ht Es')) _. apply: eqp_trans (gcdp_mul2l _ _ _) _.
    rewrite -{2}[Gp L]mulr1. apply: eqp_mull. rewrite -size_poly_eq1. apply: coprime_PW => //. move=> x Hx. exact: good_pos HL Hx. }
  have [Qb EQb] : exists Q, Poly h = Q * Poly a by apply: (prim_dvdp GE) => //; rewrite (eqp_dvdl _ Eag) dvdp_gcdl.
  have [Qc EQc] : exists Q, Poly (@p_derivative O h) = Q * Poly a by apply: (prim_dvdp GE) => //; rewrite (eqp_dvdl _ Eag) p_derivativeE dvdp_gcdr.
  have [b [Eb EQb1]] := div_unwrap_ok Ha0 EQb. have [c1 [Ec1 EQc1]] := div_unwrap_ok Ha0 EQc. rewrite Eb Ec1. cbn [obind].
  have [sg [ta [Hsg Hta Esg]]] := eqp_scaleE EaG.
  have HG0 : Gp L != 0 by apply/eqP => Z; move: EaG; rewrite Z eqp0 (negPf Ha0).
  have cancel X Y Z : s *: (X * Poly a) = t *: (Gp L * Z) -> Y = X -> (s * ta) *: Y = (sg * t) *: Z.
  { move=> E ->. apply: (@mulfI _ (Gp L)) => //. have -> : Gp L * ((s * ta) *: X) = s *: (X * (ta *: Gp L)) by rewrite -!scalerAr scalerA [X * Gp L]mulrC.
    by rewrite -Esg -!scalerAr scalerA [s * sg]mulrC -scalerA E scalerA. }
  rewrite EQb in Es. rewrite p_derivativeE in EQc. rewrite EQc in Es'. have K1 := cancel _ _ _ Es EQb1. have K2 := cancel _ _ _ Es' EQc1.
  have [] := @yun_loop_ok pgcd sqf PG SQ L HL (length h) 1 h b (@p_add O (@p_neg O (@p_derivative O b)) c1) fs isT Hh.
  - by rewrite from1.
  - apply: (prim_dv (C := Poly a) Hh). by rewrite EQb1 mulrC.
  - exists (s * ta), (sg * t). rewrite !mulf_neq0 // from1 //. split=> //. rewrite p_addE Poly_polyseq p_negE p_derivativeE scalerDr K2 scalerN -derivZ K1 derivZ dPi -scalerN -scalerDr. congr (_ *: _).
    have -> : W id L = W (fun e => (e - 1) + 1)%N L. { apply: W_ext => x Hx. by rewrite subnK //; exact: good_pos HL Hx. }
    by rewrite (W_add _ (fun _ => 1%N)) addrC addrK.
  - move=> x Hx. have := good_exp HL Hx. rewrite -(eqp_size EL) addn1 => H. apply: leq_trans H _. apply: leqW. rewrite lengthE. exact: size_Poly.
  - exact: Hk1.
  - move=> fl [gs [w [[E1 E2 E3 E4 E5] E6]]]. rewrite E1. cbn [obind fst snd]. have [M1 M2] := ex_mul E2 (okf_unit E3). exists (f_mul (R := P) pdv gs (factored_unit_unchecked (R := P) fl)), w.
    split=> //. split=> //. have -> : ex (f_mul (R := P) pdv gs (factored_unit_unchecked (R := P) fl)) = ex gs * Poly fl.
    { by rewrite M2; congr (_ * _). }
    by rewrite E5 Hk2 Excf Efh mul_polyC.
Qed.
End Yun.
End Y.
