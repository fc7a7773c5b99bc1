(* Yun's algorithm asks its squarefree factoriser only for finitely many primitive squarefree divisors of f, which do not depend on the factoriser;
   and if the factoriser is right up to a unit on those, the result is a factorisation of f up to a unit. *)
From Coq Require Import List Arith NArith Bool.
From mathcomp Require Import all_ssreflect all_algebra separable.
From mathcomp Require Import zify.
From Coq Require Import Lia.
From Verif Require Import RingSpec RingModel RingProofs FactoredSpec FactoredModel FactoredProofs PermModel MatModel MatSpec PolyModel PolyProofs PolyProofs2 PolyProofs3 PolyProofs11 PolyProofs12 FacModel FacProofs FacProofs2.
Close Scope rs_scope.
Set Implicit Arguments.
Unset Strict Implicit.
Unset Printing Implicit Defensive.
Import GRing.Theory.
Local Open Scope ring_scope.

Section Y.
Variable R : idomainType.
Notation O := (mc_ops R).
Notation P := (poly_ops O).
Variable div : div_op O.
Hypothesis D : idom_laws O div.
Variable ffa : ffa_op O.
Hypothesis F : ffa_laws O ffa.
Notation pdv := (@pdivr O div).
Notation pfa := (@pffar O div ffa).
Notation fact := (factored P).
Notation ex := (fun f : fact => Poly (@expand P f)).
Notation okf := (okf div ffa).
Implicit Types (f a b c d : seq R) (A B Q : {poly R}) (fs ga gb : fact).
Variable gcd : R -> R -> R.
Hypothesis G : gcd_laws O ffa gcd.
Notation GE := (GE G).
Hypothesis C0 : forall n, (n.+1)%:R != 0 :> R.
Variable pgcd : seq R -> seq R -> option (seq R).
Hypothesis PG : forall b d, prim (Poly b) -> exists g, [/\ pgcd b d = Some g, prim (Poly g) & Poly g %= gcdp (Poly b) (Poly d)].
Notation from i L := [seq x <- L | (i <= x.2)%N].
(* the squarefree factoriser is right, up to a unit, on these *)
Definition right_on (sqf : seq R -> option fact) (as_ : list (seq R)) : Prop := forall a, List.In a as_ -> exists fa v, [/\ sqf a = Some fa, okf fa, v \is a GRing.unit & ex fa * v%:P = Poly a].
Definition askable (n : nat) (as_ : list (seq R)) : Prop := forall a, List.In a as_ -> [/\ prim (Poly a), coprimep (Poly a) (Poly a)^`() & (size (Poly a) <= n)%N].
Lemma yun_loop_args (L : seq ({poly R} * nat)) : good L -> forall fuel i f b d, (0 < i)%N ->
  prim (Poly f) -> Poly f %= Fp (from i L) -> prim (Poly b) ->
  (exists s t, [/\ s != 0, t != 0, s *: Poly b = t *: Pi (from i L) & s *: Poly d = t *: W (fun e => e - i)%N (from i L)]) ->
  (forall x, x \in L -> (x.2 < fuel + i)%N) ->
  exists as_, askable (size (Poly f)) as_ /\ forall sqf, right_on sqf as_ -> forall fs, okf fs ->
  exists fl gs w, [/\ @yun_loop O div pgcd sqf fuel i f b d fs = Some (fl, gs), okf gs, @runit P fl, w \is a GRing.unit & 
    ex gs * Poly fl * w%:P = ex fs * Poly f].
Proof.
  move=> HL. elim=> [|fuel IH] i f b d Hi Hf Ef Hb [s [t [Hs Ht Eb Ed]]] Hx.
  - have E0 : from i L = [::] by apply: from_top => x /Hx. rewrite E0 /= in Ef.
    have Hs1 : (size (Poly f) == 1)%N by rewrite size_poly_eq1. have [u U Eu] := prim_const Hf (eq_leq (eqP Hs1)).
    exists [::]. split=> // sqf _ fs Hfs. cbn [yun_loop]. rewrite p_degreeE (eqP Hs1). cbn [obind Nat.eqb]. exists f, fs, 1. split=> //; [|exact: unitr1|by rewrite polyC1 mulr1]. apply/punitE. by exists u.
  - have Hf0 := prim_neq0 Hf. case Es: (size (Poly f)) => [|m]; first by move: Hf0; rewrite -size_poly_eq0 Es.
    case: m Es => [|m] Es.
    { have [u U Eu] := prim_const Hf (eq_leq Es). exists [::]. split=> // sqf _ fs Hfs. cbn [yun_loop]. rewrite p_degreeE Es. cbn [obind Nat.eqb]. exists f, fs, 1. split=> //; [|exact: unitr1|by rewrite polyC1 mulr1]. apply/punitE. by exists u. }
    have [a [Ea Ha Eag]] := PG d Hb.
    set A := Pi [seq x <- L | x.2 == i]. set B' := Pi (from i.+1 L). set W' := W (fun e => e - i)%N (from i.+1 L).
    have EB : Pi (from i L) = A * B' by exact: split_Pi. have EW : W (fun e => e - i)%N (from i L) = A * W' by exact: split_W.
    rewrite EB in Eb. rewrite EW in Ed.
    have HA0 : A != 0 by apply: good_neq0; exact: good_filter.
    have Hc : coprimep B' W'. { apply: coprime_PW => //; first exact: good_filter. move=> x. rewrite mem_filter => /andP[H _]. by rewrite subn_gt0. }
    have EaA : Poly a %= A.
    { apply: eqp_trans Eag _. apply: eqp_trans (eqp_gcd (scaleE_eqp Hs Ht Eb) (scaleE_eqp Hs Ht Ed)) _. apply: eqp_trans (gcdp_mul2l _ _ _) _.
      rewrite -{2}[A]mulr1. apply: eqp_mull. by rewrite -size_poly_eq1. }
    have Hsq : coprimep (Poly a) (Poly a)^`(). { have := @eqp_separable _ _ _ EaA. rewrite /separable_poly => ->. exact: Pi_at_sqfree. }
    have Ha0 := prim_neq0 Ha.
    have Eai : Poly (@nat_pow P a (N.of_nat i)) = Poly a ^+ i by rewrite pnat_powE Nnat.Nat2N.id.
    have [Q EQ] : exists Q, Poly f = Q * Poly a ^+ i.
    { apply: (prim_dvdp GE); first exact: (prim_exp G). rewrite (eqp_dvdr _ Ef) split_Fp (eqp_dvdl _ (eqp_exp i EaA)). exact: dvdp_mulr. }
    have [f1 [Ef1 EQ1]] : exists q, @div_unwrap O div f (@nat_pow P a (N.of_nat i)) = Some q /\ Poly q = Q by apply: (div_unwrap_ok D); rewrite Eai // expf_neq0.
    have [Qb EQb] : exists Q, Poly b = Q * Poly a by apply: (prim_dvdp GE) => //; rewrite (eqp_dvdl _ Eag) dvdp_gcdl.
    have [Qd EQd] : exists Q, Poly d = Q * Poly a by apply: (prim_dvdp GE) => //; rewrite (eqp_dvdl _ Eag) dvdp_gcdr.
    have [b1 [Eb1 EQb1]] := div_unwrap_ok D Ha0 EQb. have [c1 [Ec1 EQc1]] := div_unwrap_ok D Ha0 EQd.
    have [sg [ta [Hsg Hta Esg]]] := eqp_scaleE EaA.
    have cancel X Y Z : s *: (X * Poly a) = t *: (A * Z) -> Y = X -> (s * ta) *: Y = (sg * t) *: Z.
    { move=> E ->. apply: (@mulfI _ A) => //. have -> : A * ((s * ta) *: X) = s *: (X * (ta *: A)) by rewrite -!scalerAr scalerA [X * A]mulrC.
      by rewrite -Esg -!scalerAr scalerA [s * sg]mulrC -scalerA E scalerA. }
    rewrite EQb in Eb. rewrite EQd in Ed. have K1 := cancel _ _ _ Eb EQb1. have K2 := cancel _ _ _ Ed EQc1.
    have [] := IH (i + 1)%N f1 b1 (@p_add O (@p_neg O (@p_derivative O b1)) c1).
    + by rewrite addn1.
    + apply: (prim_dv (C := Poly a ^+ i) Hf). by rewrite EQ1 mulrC.
    + rewrite addn1. have Hpa : Poly a ^+ i != 0 by rewrite expf_neq0. rewrite -(eqp_mul2r _ _ Hpa) EQ1 -EQ. apply: eqp_trans Ef _. rewrite split_Fp mulrC. apply: eqp_mull. rewrite eqp_sym. exact: eqp_exp.
    + apply: (prim_dv (C := Poly a) Hb). by rewrite EQb1 mulrC.
    + exists (s * ta), (sg * t). rewrite !mulf_neq0 // addn1. split=> //. rewrite p_addE Poly_polyseq p_negE p_derivativeE scalerDr K2 scalerN -derivZ K1 derivZ dPi -scalerN -scalerDr. congr (_ *: _).
      rewrite /W' -[from i.+1 L]/(from i.+1 L). have -> : W (fun e => e - i)%N (from i.+1 L) = W (fun e => (e - i.+1) + 1)%N (from i.+1 L).
      { apply: W_ext => x. rewrite mem_filter => /andP[H _]. by rewrite addn1 subnSK. }
      by rewrite (W_add _ (fun _ => 1%N)) addrC addrK.
    + move=> x /Hx. lia.
    + move=> as1 [A1 A2]. exists (a :: as1). split.
      { have Hd : Poly a ^+ i %| Poly f by rewrite EQ dvdp_mull. have Hs1 : (size (Poly f1) <= size (Poly f))%N by apply: dvdp_leq => //; rewrite EQ1 EQ dvdp_mulr.
        move=> a' [<-|Ha']; last by have [B1 B2 B3] := A1 _ Ha'; split=> //; rewrite -Es; exact: leq_trans B3 Hs1. split=> //. rewrite -Es. apply: dvdp_leq => //. apply: dvdp_trans Hd. exact: dvdp_exp. }
      move=> sqf HSQ fs Hfs. have [fa [v [Efa Hfa Uv Exa]]] := HSQ a (or_introl erefl). cbn [yun_loop]. rewrite p_degreeE Es. cbn [obind Nat.eqb]. rewrite Ea. cbn [obind]. rewrite Efa. cbn [obind]. rewrite Ef1. cbn [obind]. rewrite Eb1 Ec1. cbn [obind].
      set fs1 := f_mul _ _ _. have Ei : i = i.-1.+1 by rewrite prednK.
      have [Hp1 Hp2] := ex_pow D i.-1 Hfa. rewrite -Ei in Hp1 Hp2. have [Hm1 Hm2] := ex_mul D F Hfs Hp1. rewrite -/fs1 in Hm1 Hm2.
      have [|fl [gs [w [E1 E2 E3 E4 E5]]]] := A2 sqf _ fs1 Hm1. { move=> a' Ha'. apply: HSQ. by right. }
      have [/punitE [u U Eu] _ _] := Hfa. exists fl, gs, (w * (u ^+ i.-1 * v ^+ i)). split=> //; first by rewrite !unitrM E4 !unitrX.
      rewrite polyCM mulrA E5 Hm2 EQ1 EQ polyCM !rmorphX /= -Eu. have -> : Poly a ^+ i = ex fa ^+ i * v%:P ^+ i by rewrite -exprMn Exa.
      rewrite -Hp2. set x := ex fs. set y := Poly (expand (f_pow fa (N.of_nat i))). set z := Poly (f_unit fa) ^+ _. set q := v%:P ^+ i. rewrite -!mulrA. congr (_ * (_ : {poly R})). rewrite [RHS]mulrCA. congr (_ * _).
Qed.

Variable factor : R -> option (factored O).
Hypothesis FA : forall c : R, c != 0 -> exists cf, [/\ factor c = Some cf, okfR ffa cf & @expand O cf = c].
Lemma yun_args f : Poly f != 0 -> exists as_, askable (size (Poly f)) as_ /\ forall sqf, right_on sqf as_ ->
  exists r w, [/\ @yun O div gcd pgcd factor sqf f = Some r, okf r, w \is a GRing.unit & ex r * w%:P = Poly f].
Proof.
  move=> Hf. have [c [h [Efp Efh Hc Hh]]] := fpu_ok D G Hf.
  have [cf [Ecf Hcf Excf]] := FA Hc. have [Hk1 Hk2] := okf_const D F Hcf. set fs := Factored _ _ in Hk1 Hk2 *.
  have Hh0 := prim_neq0 Hh.
  have [L [HL EL]] := sqfree_decomp C0 Hh0 (leqnSn _).
  have [a [Ea Ha Eag]] := gcdps_PG D G (@p_derivative O h) Hh. have Ha0 := prim_neq0 Ha. rewrite p_derivativeE in Eag.
  have [s [t [Hs Ht Es]]] := eqp_scaleE EL.
  have Es' : s *: (Poly h)^`() = t *: (Gp L * W id L) by rewrite -derivZ Es derivZ dFp.
  rewrite Gp_Pi // in Es.
  have EaG : Poly a %= Gp L.
  { apply: eqp_trans Eag _. apply: eqp_trans (eqp_gcd (scaleE_eqp Hs Ht Es) (scaleE_eqp Hs Ht Es')) _. apply: eqp_trans (gcdp_mul2l _ _ _) _.
    rewrite -{2}[Gp L]mulr1. apply: eqp_mull. rewrite -size_poly_eq1. apply: coprime_PW => //. move=> x Hx. exact: good_pos HL Hx. }
  have [Qb EQb] : exists Q, Poly h = Q * Poly a by apply: (prim_dvdp GE) => //; rewrite (eqp_dvdl _ Eag) dvdp_gcdl.
  have [Qc EQc] : exists Q, Poly (@p_derivative O h) = Q * Poly a by apply: (prim_dvdp GE) => //; rewrite (eqp_dvdl _ Eag) p_derivativeE dvdp_gcdr.
  have [b [Eb EQb1]] := div_unwrap_ok D Ha0 EQb. have [c1 [Ec1 EQc1]] := div_unwrap_ok D Ha0 EQc.
  have [sg [ta [Hsg Hta Esg]]] := eqp_scaleE EaG.
  have HG0 : Gp L != 0 by apply/eqP => Z; move: EaG; rewrite Z eqp0 (negPf Ha0).
  have cancel X Y Z : s *: (X * Poly a) = t *: (Gp L * Z) -> Y = X -> (s * ta) *: Y = (sg * t) *: Z.
  { move=> E ->. apply: (@mulfI _ (Gp L)) => //. have -> : Gp L * ((s * ta) *: X) = s *: (X * (ta *: Gp L)) by rewrite -!scalerAr scalerA [X * Gp L]mulrC.
    by rewrite -Esg -!scalerAr scalerA [s * sg]mulrC -scalerA E scalerA. }
  rewrite EQb in Es. rewrite p_derivativeE in EQc. rewrite EQc in Es'. have K1 := cancel _ _ _ Es EQb1. have K2 := cancel _ _ _ Es' EQc1.
  have [] := @yun_loop_args L HL (length h) 1 h b (@p_add O (@p_neg O (@p_derivative O b)) c1) isT Hh.
  - by rewrite from1.
  - apply: (prim_dv (C := Poly a) Hh). by rewrite EQb1 mulrC.
  - exists (s * ta), (sg * t). rewrite !mulf_neq0 // from1 //. split=> //. rewrite p_addE Poly_polyseq p_negE p_derivativeE scalerDr K2 scalerN -derivZ K1 derivZ dPi -scalerN -scalerDr. congr (_ *: _).
    have -> : W id L = W (fun e => (e - 1) + 1)%N L. { apply: W_ext => x Hx. by rewrite subnK //; exact: good_pos HL Hx. }
    by rewrite (W_add _ (fun _ => 1%N)) addrC addrK.
  - move=> x Hx. have := good_exp HL Hx. rewrite -(eqp_size EL) addn1 => H. apply: leq_trans H _. apply: leqW. rewrite lengthE. exact: size_Poly.
  - move=> as_ [A1 A2]. exists as_. split. { have Hs1 : (size (Poly h) <= size (Poly f))%N by rewrite Efh size_scale. move=> a' Ha'. have [B1 B2 B3] := A1 _ Ha'. split=> //. exact: leq_trans B3 Hs1. }
    move=> sqf HSQ. have [fl [gs [w [E1 E2 E3 E4 E5]]]] := A2 sqf HSQ fs Hk1. rewrite /yun p_is_zeroE Hf Efp. cbn [obind fst snd]. rewrite Ecf. cbn [obind]. rewrite Ea. cbn [obind]. rewrite Eb Ec1. cbn [obind]. rewrite -/fs E1. cbn [obind fst snd].
    have [M1 M2] := ex_mul D F E2 (okf_unit div ffa E3). exists (f_mul (R := P) pdv gs (factored_unit_unchecked (R := P) fl)), w.
    split=> //. have -> : ex (f_mul (R := P) pdv gs (factored_unit_unchecked (R := P) fl)) = ex gs * Poly fl.
    { by rewrite M2; congr (_ * _). }
    by rewrite E5 Hk2 Excf Efh mul_polyC.
Qed.
End Y.
