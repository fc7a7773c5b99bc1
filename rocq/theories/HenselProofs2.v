(* compute_lift_factors: one Hensel step *)
From Coq Require Import List Arith NArith Bool.
From mathcomp Require Import all_ssreflect all_algebra.
From mathcomp Require Import zify.
From Coq Require Import Lia Ring.
From Verif Require Import RingSpec RingModel RingProofs RingProofs2 PermModel MatModel MatSpec PolyModel PolyProofs PolyProofs2 PolyProofs3 PolyHom McRing QuotRing HenselSpec HenselModel HenselProofs.
Close Scope rs_scope.
Set Implicit Arguments.
Unset Strict Implicit.
Unset Printing Implicit Defensive.
Import GRing.Theory.
Local Open Scope ring_scope.

Section Id.
Variable A : comRingType.
Add Ring A_ring2 : (mc_rt A).
Lemma step_id1 (a b f g D s I In D' qf qg rf rg : A) :
  (a * f + b * g = 1 + I * s -> D = In * D' -> a * D = qg * g + rg -> b * D = qf * f + rf ->
  (qf + qg) * (f * g) = (D - (rg * f + rf * g)) + (I * In) * (s * D'))%mcr.
Proof.
  intros H1 H2 H3 H4.
  transitivity (((qf * f + rf) * g + (qg * g + rg) * f) - (rg * f + rf * g))%mcr; [ring|].
  rewrite -H3 -H4. transitivity ((a * f + b * g) * D - (rg * f + rf * g))%mcr; [ring|]. rewrite H1.
  transitivity (D - (rg * f + rf * g) + I * s * D)%mcr; [ring|]. rewrite [X in (_ + I * s * X)%mcr]H2. ring.
Qed.
Lemma step_id2 (al be ga f g D h I J rf rg s t : A) :
  let In := (I * J)%mcr in let m := (I * In)%mcr in
  (be * al + ga * I = 1 -> D = h - al * f * g + m * s -> D = (In * rg * f + In * rf * g) + m * t ->
   h = al * ((f + be * (In * rf)) * (g + be * (In * rg))) + m * (t - s + ga * (rg * f + rf * g) - al * be * be * J * rf * rg))%mcr.
Proof.
  intros In m H1 H2 H3.
  assert (H4 : h = (D + al * f * g - m * s)%mcr) by (rewrite H2; ring).
  assert (H5 : (al * ((f + be * (In * rf)) * (g + be * (In * rg))) = al * f * g + (be * al) * (In * rg * f + In * rf * g) + m * (al * be * be * J * rf * rg))%mcr) by (unfold m, In; ring).
  assert (H6 : (be * al = 1 - ga * I)%mcr) by (rewrite -H1; ring).
  rewrite H5 H6 H4 H3. unfold m, In. ring.
Qed.
(* the Bezout coefficients of a quadratic lift *)
Lemma quad_id (a b f g dl m s : A) : (a * f + b * g = 1 + dl + m * s -> (a - a * dl) * f + (b - b * dl) * g = 1 - dl * dl + m * (s - s * dl))%mcr.
Proof. intros H. transitivity ((a * f + b * g) * (1 - dl))%mcr; [ring|]. rewrite H. ring. Qed.
Lemma unit_id (g u v c d x y : A) : (x = g * c -> y = g * d -> u * x + v * y = 1 -> g * (u * c + v * d) = 1)%mcr.
Proof. intros -> -> <-. ring. Qed.
Lemma unit_id2 (al m u v c : A) : (al = m * c -> u * al + v * m = 1 -> (u * c + v) * m = 1)%mcr.
Proof. intros -> <-. ring. Qed.
Lemma comax_id (al i j u v u' v' : A) : (u * al + v * i = 1 -> u' * al + v' * j = 1 -> (u' + v' * j * u) * al + (v' * v) * (i * j) = 1)%mcr.
Proof. intros H1 H2. transitivity (u' * al + v' * j * (u * al + v * i))%mcr; [ring|]. rewrite H1. transitivity (u' * al + v' * j)%mcr; [ring|exact H2]. Qed.
End Id.

Section Pow.
Variable R : comRingType.
Implicit Types (I : R) (P S : {poly R}).
Lemma cong_dvd (m c : R) P S : cong (m * c) P S -> cong m P S.
Proof. move=> H k. have [d Hd] := H k. exists (c * d). by rewrite Hd mulrA. Qed.
Lemma cong_pow I j k P S : (j <= k)%N -> cong (I ^+ k) P S -> cong (I ^+ j) P S.
Proof. move=> Hjk. rewrite -(subnKC Hjk) exprD. exact: cong_dvd. Qed.
Lemma cong0E m P : cong m P 0 <-> exists S, P = m%:P * S.
Proof. rewrite congE. split=> -[S ->]; exists S; by rewrite add0r. Qed.
Lemma cong_scale m (c : R) P S : cong m P S -> cong m (c *: P) (c *: S).
Proof. rewrite -!mul_polyC. move=> H. apply: cong_mul => //. exact: cong_refl. Qed.
End Pow.

Section Step.
Variable R : idomainType.
Notation O := (mc_ops R).
Variables (div : div_op O) (ffa : ffa_op O) (norm : R -> option N) (quorem : R -> R -> option (R * R)).
Hypothesis D : idom_laws O div.
Hypothesis F : ffa_laws O ffa.
Hypothesis E : euclid_laws O norm quorem.
Hypothesis M : norm_mono O norm.
Notation rm m := (q_rem (R := O) quorem m).
Definition comax (x y : R) : Prop := exists u v, u * x + v * y = 1.
(* xgcd of comaximal elements returns 1 *)
Lemma h_xgcd_ok x y : comax x y -> exists u v, @h_xgcd O div ffa norm quorem x y = Some (1, u, v) /\ u * x + v * y = 1.
Proof.
  case=> u [v H]. rewrite /h_xgcd. have Hf : (nrm O norm y < hfuel (A := O) norm y)%coq_nat by rewrite /nrm /hfuel; case: (norm y) => [n|]; lia.
  have [g [a [b [-> [_ [[/rdvdE[c Hx] [/rdvdE[d Hy] _]] [/eqP Hg /eqP Hb]]]]]]] := euclidean_xgcd_ok O (mc_ring R) div D ffa F norm quorem E _ x y Hf.
  have U : @runit O g. { exists (u * c + v * d). apply/eqP. exact: (unit_id Hx Hy H). }
  have /eqP G1 := ffa_of_unit _ _ F g U. have G : g = 1 :> R by rewrite -Hg G1. exists a, b. rewrite G in Hb *. by split.
Qed.
Lemma prod3 (x : R) (f g : seq R) : Poly (@product (poly_ops O) [:: [:: x]; f; g]) = x%:P * Poly f * Poly g.
Proof. rewrite /product. cbn [List.fold_left rmul r1 poly_ops]. by rewrite !p_mulE !Poly_polyseq !Poly1 mul1r. Qed.
Lemma Q_prod3 m (x : R) (f g : seq R) : m != 0 -> m \isn't a GRing.unit ->
  cong m (Poly (@product (poly_ops (@quotient_ops O quorem m)) [:: [:: x]; f; g])) (x%:P * Poly f * Poly g).
Proof. move=> m0 mu. apply: cong_trans (Q_product D E M m0 mu _) _. rewrite !big_cons big_nil mulr1 Poly1 mulrA. exact: cong_refl. Qed.
Lemma degree_lt (f : seq R) d : (size (Poly f) <= d)%N -> (0 < d)%N -> Nat.ltb (match @p_degree O f with Some d => d | None => 0 end) d.
Proof. rewrite p_degreeE => H H0. apply/Nat.ltb_spec0. case: (size _) H => [|k]; lia. Qed.
(* the degrees add up *)
Lemma size_fact m (h f g : {poly R}) : m != 0 -> m \isn't a GRing.unit -> comax (lead_coef h) m -> f \is monic -> g \is monic ->
  cong m h ((lead_coef h)%:P * f * g) -> size h = size ((lead_coef h)%:P * f * g) /\ size h = (size f + size g).-1.
Proof.
  move=> m0 mu [u [v Huv]] Mf Mg C. set al := lead_coef h. have nal c : al = m * c -> False.
  { move=> Ea. move/negP: mu; apply. apply/unitrP. exists (u * c + v). rewrite [m * _]mulrC. split; exact: (unit_id2 Ea Huv). }
  have al0 : al != 0. { apply/eqP => Z. apply: (nal 0). by rewrite mulr0. }
  have Mfg : f * g \is monic by rewrite monicMl. have S1 : size (al%:P * f * g) = size (f * g) by rewrite -mulrA mul_polyC size_scale.
  have S2 : size (f * g) = (size f + size g).-1 by rewrite size_Mmonic // monic_neq0.
  have L : lead_coef (al%:P * f * g) = al by rewrite -mulrA lead_coefM lead_coefC (monicP Mfg) mulr1.
  suff S : size h = size (al%:P * f * g) by split=> //; rewrite S S1.
  apply/eqP. rewrite eqn_leq. apply/andP; split; rewrite leqNgt; apply/negP => Hlt.
  - have [c] := C (size h).-1. rewrite [X in _ - X]nth_default; last by rewrite -ltnS (ltn_predK Hlt). rewrite subr0 => Ec. exact: (nal c).
  - have [c] := C (size (al%:P * f * g)).-1. rewrite [X in X - _]nth_default; last by rewrite -ltnS (ltn_predK Hlt).
    rewrite sub0r -/(lead_coef (al%:P * f * g)) L => Ec. apply: (nal (- c)). by rewrite mulrN -Ec opprK.
Qed.
Lemma lift_monic m (f df : seq R) : m != 0 -> rm m 1 = 1 -> Poly f \is monic -> (size (Poly df) < size (Poly f))%N ->
  let f' := @rem_map O quorem m (@p_add O df f) in Poly f' \is monic /\ size (Poly f') = size (Poly f).
Proof.
  move=> m0 R1 Mf Hs f'. have C k : (Poly f')`_k = rm m ((Poly df)`_k + (Poly f)`_k).
  { by rewrite /f' (prem_coef D E M m0) p_addE Poly_polyseq coefD. }
  have Sf : (0 < size (Poly f))%N by apply: leq_ltn_trans Hs. set d := (size (Poly f)).-1.
  have Ed : size (Poly f) = d.+1 by rewrite /d prednK.
  have C1 : (Poly f')`_d = 1. { rewrite C [(Poly df)`_d]nth_default; last by move: Hs; rewrite Ed ltnS. by rewrite add0r -/(lead_coef (Poly f)) (monicP Mf). }
  have S : size (Poly f') = d.+1.
  { apply/eqP. rewrite eqn_leq. apply/andP; split.
    - apply/leq_sizeP => j Hj. rewrite C [(Poly f)`_j]nth_default ?Ed // [(Poly df)`_j]nth_default; last by apply: leq_trans Hj; rewrite -Ed ltnW.
      by rewrite addr0 (q_rem0 D E M m0).
    - rewrite ltnNge. apply/negP => H. move: C1. rewrite nth_default // => /eqP. by rewrite eq_sym oner_eq0. }
  split; last by rewrite S Ed. by rewrite monicE /lead_coef S C1.
Qed.

Lemma clf_ok (I : R) (n : N) (a b f g h : seq R) : (0 < N.to_nat n)%N ->
  I != 0 -> I \isn't a GRing.unit -> rm (I ^+ (N.to_nat n).+1) 1 = 1 ->
  Poly f \is monic -> Poly g \is monic -> (1 < size (Poly h))%N -> comax (lead_coef (Poly h)) I ->
  cong (I ^+ N.to_nat n) (Poly h) ((lead_coef (Poly h))%:P * Poly f * Poly g) ->
  cong I (Poly a * Poly f + Poly b * Poly g) 1 ->
  exists df dg f' g', [/\ @compute_lift_factors O div ffa norm quorem I n a b f g h = Some (df, dg, f', g'),
    cong (I ^+ (N.to_nat n).+1) (Poly h) ((lead_coef (Poly h))%:P * Poly f' * Poly g'),
    [/\ Poly f' \is monic, size (Poly f') = size (Poly f), cong (I ^+ N.to_nat n) (Poly df) 0 & cong (I ^+ (N.to_nat n).+1) (Poly f') (Poly f + Poly df)] &
    [/\ Poly g' \is monic, size (Poly g') = size (Poly g), cong (I ^+ N.to_nat n) (Poly dg) 0 & cong (I ^+ (N.to_nat n).+1) (Poly g') (Poly g + Poly dg)]].
Proof.
  set k := N.to_nat n => k0 I0 Iu R1 Mf Mg Sh CM Ch Cab. set al := lead_coef (Poly h) in CM Ch *.
  have m0 j : I ^+ j != 0 by rewrite expf_neq0. have mu j : (0 < j)%N -> I ^+ j \isn't a GRing.unit by move=> Hj; rewrite unitrX_pos.
  have H0 : Poly h != 0 by rewrite -size_poly_gt0; apply: leq_trans Sh.
  have CM' j : comax al (I ^+ j).
  { have [u [v Huv]] := CM. elim: j => [|j [u' [v' IH]]]; first by exists 0, 1; rewrite mul0r add0r mul1r expr0.
    exists (u' + v' * (I ^+ j) * u), (v' * v). rewrite exprS. exact: comax_id Huv IH. }
  have [S1 S2] := size_fact (m0 k) (mu _ k0) (CM' k) Mf Mg Ch.
  set m := I ^+ k.+1 in R1 *. have {}R1 : rm m 1 = 1 by []. have mm0 : m != 0 := m0 _. have mmu : m \isn't a GRing.unit := mu _ (ltn0Sn k).
  have Em : @nat_pow O I (n + 1) = m by rewrite nat_powE /m /k; congr (_ ^+ _); lia.
  rewrite /compute_lift_factors p_leading_coeffE (negbTE H0). cbn [obind]. rewrite -/al.
  have [be [ga [-> Hbe]]] := h_xgcd_ok CM. cbn [obind]. rewrite [@req O _ _]eqxx [@is_zero O I](negbTE I0). cbn [negb].
  have -> : @req (@quotient_ops O quorem I) al al by apply/(Qreq D E M I0); exists 0; rewrite subrr mulr0.
  rewrite Em [@is_zero O m](negbTE mm0). cbn [negb]. set dh := rem_map _ _ _.
  have Edh : cong m (Poly dh) (Poly h - al%:P * Poly f * Poly g).
  { apply: cong_trans (premE D E M mm0 _) _. rewrite p_addE Poly_polyseq p_negE prod3. exact: cong_refl. }
  have -> : @p_equal (@quotient_ops O quorem m) dh (@p_add (@quotient_ops O quorem m) h (@p_neg (@quotient_ops O quorem m) (@product (poly_ops (@quotient_ops O quorem m)) [:: [:: al]; f; g]))).
  { apply/(Q_equal D E M mm0 mmu). apply: cong_trans Edh _. apply: cong_sym. apply: cong_trans (Q_add D E M mm0 mmu _ _) _. apply: cong_add; first exact: cong_refl.
    apply: cong_trans (Q_neg _ _ _) _. apply: cong_opp. exact: Q_prod3. }
  have Sdh : (size (Poly dh) < size (Poly h))%N.
  { rewrite -[size (Poly h)]prednK ?size_poly_gt0 // ltnS. apply/leq_sizeP => j Hj. rewrite /dh (prem_coef D E M mm0) p_addE Poly_polyseq p_negE prod3 coefB.
    case: (ltnP (size (Poly h)).-1 j) => Hj'.
    - rewrite !nth_default ?subr0 ?(q_rem0 D E M mm0) //; first by rewrite -S1; move: Hj'; set x := size _; lia. by move: Hj'; set x := size _; lia.
    - have -> : j = (size (Poly h)).-1 by apply/eqP; rewrite eqn_leq Hj Hj'. rewrite {2}S1 -/(lead_coef (Poly h)) -/(lead_coef (al%:P * Poly f * Poly g)).
      have -> : lead_coef (al%:P * Poly f * Poly g) = al by rewrite !lead_coefM lead_coefC (monicP Mf) (monicP Mg) !mulr1.
      by rewrite subrr (q_rem0 D E M mm0). }
  rewrite p_degreeE -[size (Poly h)]prednK ?size_poly_gt0 //. cbn [obind]. rewrite degree_lt; last first.
  { by move: Sh; set x := size _; lia. } { by rewrite -ltnS prednK // size_poly_gt0. }
  have QM : forall x y : seq R, Poly y \is monic -> exists q r, @try_quorem O div x y = Some (DivOk (q, r)) /\
     Poly x = Poly q * Poly y + Poly r /\ (size (Poly r) < size (Poly y))%N.
  { move=> x y My. have := try_quorem_ok D x y. case: try_quorem => [[[q r]||]|] //=; first by case=> _ ? ?; exists q, r.
    - move=> Z. by move: My; rewrite Z monicE lead_coef0 eq_sym oner_eq0.
    - case=> B0 /(_ (Pdiv.Ring.rdivp (Poly x) (Poly y)) (Pdiv.Ring.rmodp (Poly x) (Poly y))). rewrite Pdiv.Ring.ltn_rmodp B0 => /(_ isT).
      by rewrite -(Pdiv.RingMonic.rdivp_eq My). }
  have [qg [rg [-> [Eg Srg]]]] := QM (@p_mul O a dh) g Mg. have [qf [rf [-> [Ef Srf]]]] := QM (@p_mul O b dh) f Mf. cbn [obind].
  rewrite p_mulE Poly_polyseq in Eg. rewrite p_mulE Poly_polyseq in Ef.
  (* dh is a multiple of I^k *)
  have /cong0E [D' HD'] : cong (I ^+ k) (Poly dh) 0.
  { apply: cong_trans (cong_pow (leqnSn k) Edh) _. rewrite -(subrr (Poly h)). apply: cong_sub; first exact: cong_refl. exact: cong_sym. }
  have /congE [s Hs] := Cab. have EmP : m%:P = I%:P * (I ^+ k)%:P by rewrite -polyCM /m exprS.
  have Id1 := step_id1 Hs HD' Eg Ef.
  have Mfg : Poly f * Poly g \is monic by rewrite monicMl.
  have Sfg : size (Poly f * Poly g) = size (Poly h) by rewrite size_Mmonic ?monic_neq0.
  have Sr : (size (Poly rg * Poly f + Poly rf * Poly g)%R < size (Poly f * Poly g)%R)%N.
  { apply: leq_ltn_trans (size_add _ _) _. rewrite Sfg S2 gtn_max. apply/andP; split; apply: leq_ltn_trans (size_mul_leq _ _) _; move: Srg Srf.
    - set x := size _; set y := size _; set z := size _; set t := size _. lia.
    - set x := size _; set y := size _; set z := size _; set t := size _. lia. }
  have [Cq Cr] : cong m (Poly qf + Poly qg) 0 /\ cong m (Poly dh - (Poly rg * Poly f + Poly rf * Poly g)) 0.
  { apply: (monic_cong0 D E M mm0 mmu Mfg); last by apply/congE; exists (s * D'); rewrite EmP; exact: Id1.
    apply: leq_ltn_trans (size_add _ _) _. by rewrite size_opp gtn_max Sr Sfg Sdh. }
  have -> : @p_is_zero (@quotient_ops O quorem m) (@p_add (@quotient_ops O quorem m) qf qg).
  { apply/(Q_is_zero D E M mm0 mmu). exact: cong_trans (Q_add D E M mm0 mmu _ _) Cq. }
  have DIV : forall (A B q r : {poly R}), B \is monic -> (size r < size B)%N -> A * Poly dh = q * B + r -> exists r', r = (I ^+ k)%:P * r'.
  { move=> A B q r MB Sr' EA. apply/cong0E. have [] := @monic_cong0 R div norm quorem D E M _ (m0 k) (mu _ k0) q B (- r) MB; first by rewrite size_opp.
    - apply/congE. exists (A * D'). by rewrite mulrCA -HD' EA addrC addrK.
    - move=> _ /cong_opp. by rewrite opprK oppr0. }
  have [rf' Hrf] := DIV _ _ _ _ Mf Srf Ef. have [rg' Hrg] := DIV _ _ _ _ Mg Srg Eg.
  have dfE r : Poly (@p_mul O [:: be] r) = be%:P * Poly r by rewrite p_mulE Poly_polyseq Poly1.
  have szd r (G : {poly R}) : (size (Poly r) < size G)%N -> (size (Poly (@p_mul O [:: be] r)) < size G)%N.
  { rewrite dfE mul_polyC. apply: leq_ltn_trans. exact: size_scale_leq. }
  have [Mf' Sf'] := lift_monic mm0 R1 Mf (szd _ _ Srf). have [Mg' Sg'] := lift_monic mm0 R1 Mg (szd _ _ Srg).
  have Cl (x y : seq R) : cong m (Poly (@rem_map O quorem m (@p_add O x y))) (Poly y + Poly x).
  { apply: cong_trans (premE D E M mm0 _) _. rewrite p_addE Poly_polyseq addrC. exact: cong_refl. }
  have Cz r r' : Poly r = (I ^+ k)%:P * r' -> cong (I ^+ k) (Poly (@p_mul O [:: be] r)) 0.
  { move=> Er. apply/cong0E. exists (be%:P * r'). by rewrite dfE Er mulrCA. }
  exists (@p_mul O [:: be] rf), (@p_mul O [:: be] rg), (@rem_map O quorem m (@p_add O (@p_mul O [:: be] rf) f)), (@rem_map O quorem m (@p_add O (@p_mul O [:: be] rg) g)).
  split=> //; first last.
  { split=> //. exact: Cz Hrg. } { split=> //. exact: Cz Hrf. }
  apply: cong_trans (_ : cong m _ (al%:P * ((Poly f + be%:P * Poly rf) * (Poly g + be%:P * Poly rg)))) _; last first.
  { rewrite -mulrA. apply: cong_mul; first exact: cong_refl. apply: cong_mul; apply: cong_sym; rewrite -dfE; exact: Cl. }
  have /congE [s' Hs'] := Edh. have [t Ht] : exists t, Poly dh = Poly rg * Poly f + Poly rf * Poly g + m%:P * t.
  { apply/congE. apply: cong_trans (_ : cong m _ ((Poly dh - (Poly rg * Poly f + Poly rf * Poly g)) + (Poly rg * Poly f + Poly rf * Poly g))) _.
    - rewrite subrK. exact: cong_refl.
    - rewrite -[X in cong m _ X]add0r. apply: cong_add => //. exact: cong_refl. }
  apply/congE. have EkP : (I ^+ k)%:P = I%:P * (I ^+ k.-1)%:P by rewrite -polyCM -exprS prednK.
  have EmP2 : m%:P = I%:P * (I%:P * (I ^+ k.-1)%:P) by rewrite EmP EkP.
  have HbeP : be%:P * al%:P + ga%:P * I%:P = 1 by rewrite -!polyCM -polyCD Hbe.
  rewrite EmP2 Hrf Hrg EkP in Ht Hs' *. eexists. exact: (step_id2 HbeP Hs' Ht).
Qed.
End Step.
