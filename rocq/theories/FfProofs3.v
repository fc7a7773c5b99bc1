(* factorize_squarefree: the loop and the p-th root step. *)
From Coq Require Import List Arith NArith Bool.
From mathcomp Require Import all_ssreflect all_fingroup all_algebra all_solvable all_field separable.
From mathcomp Require Import zify.
From Coq Require Import Lia.
From Verif Require Import RingSpec RingModel RingProofs FactoredSpec FactoredModel FactoredProofs PermModel MatModel MatSpec MatProofs4 LatModel PolyModel PolyProofs PolyProofs2 PolyProofs3 PolyProofs11 PolyProofs12 FacModel FacProofs FacProofs2 FfModel FfProofs FfProofs2.
Close Scope rs_scope.
Set Implicit Arguments.
Unset Strict Implicit.
Unset Printing Implicit Defensive.
Import GRing.Theory.
Local Open Scope ring_scope.

Lemma ofnat_S i : (N.of_nat i + 1)%num = N.of_nat i.+1. Proof. lia. Qed.
Section S.
Variable R : idomainType.
Notation O := (mc_ops R).
Notation P := (poly_ops O).
Implicit Types (f g a b c w : seq R) (A B Q : {poly R}) (L : seq ({poly R} * nat)).
Notation from i L := [seq x <- L | (i <= x.2)%N].
Notation at_ i L := [seq x <- L | x.2 == i].
Definition monics L := forall x, x \in L -> x.1 \is monic.
Lemma monics_filter (h : pred ({poly R} * nat)) L : monics L -> monics (filter h L).
Proof. move=> H x. rewrite mem_filter => /andP [_]. exact: H. Qed.
Lemma Pi_monic' L : monics L -> Pi L \is monic.
Proof. elim: L => [|x L IH] H /=; first exact: monic1. rewrite monicMl; first by rewrite IH // => y Hy; apply: H; rewrite inE Hy orbT. by have := H _ (mem_head _ _). Qed.
Lemma Fp_monic' L : monics L -> Fp L \is monic.
Proof. elim: L => [|x L IH] H /=; first exact: monic1. rewrite monicMl; first by rewrite IH // => y Hy; apply: H; rewrite inE Hy orbT. apply: monic_exp. by have := H _ (mem_head _ _). Qed.
Lemma monic_eqp' A B : A \is monic -> B \is monic -> A %= B -> A = B.
Proof. move=> M1 M2 /eqp_eq. by rewrite (monicP M1) (monicP M2) !scale1r. Qed.
Lemma Pi_split (h : pred ({poly R} * nat)) L : Pi L = Pi (filter h L) * Pi (filter (predC h) L).
Proof. elim: L => [|x L IH] /=; first by rewrite mulr1. rewrite IH. case: (h x) => /=; [by rewrite mulrA|by rewrite [RHS]mulrCA]. Qed.
Lemma Fp_split (h : pred ({poly R} * nat)) L : Fp L = Fp (filter h L) * Fp (filter (predC h) L).
Proof. elim: L => [|x L IH] /=; first by rewrite mulr1. rewrite IH. case: (h x) => /=; [by rewrite mulrA|by rewrite [RHS]mulrCA]. Qed.
Lemma coprime_filter (h k : pred ({poly R} * nat)) L : good L -> (forall x, h x -> k x -> False) -> coprimep (Pi (filter h L)) (Pi (filter k L)).
Proof.
  move=> HL Hhk. elim: L HL => [|x L IH] /=; first by rewrite coprime1p. case=> H1 H2 H3 _ HL.
  have sub (m : pred ({poly R} * nat)) : coprimep x.1 (Pi (filter m L)) by move: H3; rewrite (Pi_split m L) coprimepMr => /andP [].
  case Hh: (h x); case Hk: (k x) => /=; rewrite ?coprimepMl ?coprimepMr ?IH ?sub ?andbT //; first by case: (Hhk x Hh Hk). by rewrite coprimep_sym sub.
Qed.
Lemma nonconst_Pi L : good L -> L != [::] -> (1 < size (Pi L))%N.
Proof.
  case: L => [|x L] //= [H1 _ _ _ HL] _. have Z := good_neq0 HL. have X : x.1 != 0 by rewrite -size_poly_gt0 ltnW. rewrite size_mul //. rewrite -size_poly_gt0 in Z. move: H1 Z. set u := size x.1. set v := size (Pi L). lia.
Qed.
Lemma Pi_at_inj i j L : good L -> at_ i L != [::] -> Pi (at_ i L) = Pi (at_ j L) -> i = j.
Proof.
  move=> HL Hi E. apply/eqP. apply: contraT => Hij. have := @coprime_filter (fun x => x.2 == i) (fun x => x.2 == j) L HL. rewrite -E coprimepp. have := nonconst_Pi (good_filter (fun x => x.2 == i) HL) Hi.
  case: (size _) => [|[|n]] // _ H. have : false by apply: H => x /eqP Z1 /eqP Z2; move: Hij; rewrite -Z1 -Z2 eqxx. done.
Qed.
(* the Rust factor list fs consists of the products over the exponents ks *)
Definition dec L (ks : seq nat) (fs : seq (seq R * N)) := [seq (Poly x.1, N.to_nat x.2) | x <- fs] = [seq (Pi (at_ k L), k) | k <- ks].
Lemma s_add_fresh fs f k : (forall x, List.In x fs -> Poly x.1 <> Poly f) -> @s_add O fs f k = fs ++ [:: (f, k)].
Proof.
  elim: fs => [|[g j] fs IH] H //=. case: (boolP (@p_equal O f g)) => [/p_equalP E|_]; first by case: (H (g, j)); [left|rewrite /= E]. rewrite IH // => x Hx. apply: H. by right.
Qed.
Lemma dec_cat L ks ks' fs fs' : dec L ks fs -> dec L ks' fs' -> dec L (ks ++ ks') (fs ++ fs').
Proof. rewrite /dec !map_cat => -> ->. done. Qed.
Lemma s_mul_fresh L fs2 : good L -> forall ks1 ks2 fs1, dec L ks1 fs1 -> dec L ks2 fs2 -> uniq (ks1 ++ ks2) -> (forall k, k \in ks1 -> at_ k L != [::]) ->
  (forall k, k \in ks2 -> at_ k L != [::]) -> List.fold_left (fun fs fk => @s_add O fs (fst fk) (snd fk)) fs2 fs1 = fs1 ++ fs2.
Proof.
  move=> HL. elim: fs2 => [|[f e] fs2 IH] ks1 ks2 fs1 D1 D2 U N1 N2 /=; first by rewrite cats0.
  case: ks2 D2 U N2 => [|k ks2] //= [E1 E2 D2] U N2.
  rewrite s_add_fresh.
  - rewrite (IH (ks1 ++ [:: k]) ks2) //.
    + by rewrite -catA.
    + apply: dec_cat => //. by rewrite /dec /= E1 E2.
    + by rewrite -catA.
    + move=> j. rewrite mem_cat inE => /orP[/N1 //|/eqP ->]. apply: N2. exact: mem_head.
    + move=> j Hj. apply: N2. by rewrite inE Hj orbT.
  - move=> x Hx E. have : (Poly x.1, N.to_nat x.2) \in [seq (Poly x.1, N.to_nat x.2) | x <- fs1].
    { apply/MatProofs4.in_mem. exact: (List.in_map (fun x : seq R * N => (Poly x.1, N.to_nat x.2)) _ _ Hx). }
    rewrite D1 => /mapP [j Hj [Ej _]]. move: U. rewrite cat_uniq => /and3P [_ /hasP /= H _]. apply: H. exists k; first exact: mem_head.
    have -> // : k = j. apply: (Pi_at_inj HL); first by apply: N2; exact: mem_head. by rewrite -E1 -E Ej.
Qed.

Fixpoint Gi i L : {poly R} := if L is x :: L' then x.1 ^+ (x.2 - i) * Gi i L' else 1.
Lemma Gi_1 L : Gi 1 L = Gp L.
Proof. elim: L => [|x L IH] //=. by rewrite IH subn1. Qed.
Lemma Gi_step i L : Gi i (from i L) = Pi (from i.+1 L) * Gi i.+1 (from i.+1 L).
Proof.
  elim: L => [|[q e] L IH] /=; first by rewrite mulr1. case: ltngtP => H /=; rewrite IH //=; last by rewrite -H subnn expr0 mul1r.
  have -> : (e - i = (e - i.+1).+1)%N by lia. rewrite exprS -!mulrA. congr (_ * _). by rewrite mulrCA.
Qed.
Lemma Gi_monic i L : monics L -> Gi i L \is monic.
Proof. elim: L => [|x L IH] H /=; first exact: monic1. rewrite monicMl; first by rewrite IH // => y Hy; apply: H; rewrite inE Hy orbT. apply: monic_exp. by have := H _ (mem_head _ _). Qed.
Lemma Gi_coprime i A L : coprimep A (Pi L) -> coprimep A (Gi i L).
Proof. elim: L => [|x L IH] /=; first by rewrite coprimep1. rewrite !coprimepMr => /andP [H1 /IH ->]. by rewrite andbT coprimep_expr. Qed.
Lemma coprime_PW' (v : nat -> nat) L : good L -> (forall x, x \in L -> (v x.2)%:R != 0 :> R) -> coprimep (Pi L) (W v L).
Proof.
  elim: L => [|[q e] L IH] /=; first by rewrite coprime1p. case=> H1 H2 H3 He H4 Hw.
  have Hwe := Hw (q, e) (mem_head _ _).
  rewrite coprimepMl. apply/andP; split.
  - rewrite addrC mulrC coprimep_addl_mul -scaler_nat coprimepZr //. by rewrite coprimepMr H2 H3.
  - have -> : (q^`() * Pi L) *+ v e = (q^`() *+ v e) * Pi L by rewrite mulrnAl. rewrite coprimep_addl_mul coprimepMr coprimep_sym H3 /=. apply: IH => // x Hx. apply: Hw. by rewrite inE Hx orbT.
Qed.
Lemma Fp_map_exp n L : Fp [seq (x.1, (x.2 * n)%N) | x <- L] = Fp L ^+ n.
Proof. elim: L => [|x L IH] /=; first by rewrite expr1n. by rewrite IH exprM exprMn. Qed.
Lemma Pi_map_exp (h : nat -> nat) L : Pi [seq (x.1, h x.2) | x <- L] = Pi L.
Proof. elim: L => [|x L IH] //=. by rewrite IH. Qed.
Lemma good_map_exp (h : nat -> nat) L : good L -> (forall x, x \in L -> (0 < h x.2)%N) -> good [seq (x.1, h x.2) | x <- L].
Proof. elim: L => [|x L IH] //= [H1 H2 H3 H4 HL] H. rewrite Pi_map_exp. split=> //; first by apply: H; exact: mem_head. apply: IH => // y Hy. apply: H. by rewrite inE Hy orbT. Qed.

Variable div : div_op O.
Hypothesis D : idom_laws O div.
Hypothesis FD : forall x y : R, y != 0 -> exists q, div x y = DivOk q.
Variable ffa : ffa_op O.
Hypothesis FA : ffa_laws O ffa.

Lemma new_sqf_ok z : Poly z \is monic -> exists s, @new_squarefree_poly_unchecked O z = Some s /\ s_unit s = 1 /\ s_factors s = (if (1 < size (Poly z))%N then [:: (z, Npos xH)] else [::]).
Proof.
  move=> M. rewrite /new_squarefree_poly_unchecked p_is_zeroE (negPf (monic_neq0 M)) /= p_degreeE. have := monic_neq0 M. rewrite -size_poly_gt0. case Es: (size (Poly z)) => [|[|n]] // _.
  - cbn [obind Nat.eqb]. rewrite p_as_constantE Es leqnn. cbn [obind]. exists (@SqfreeFactored O (Poly z)`_0 [::]). split=> //=. split=> //. by rewrite -(monicP M) lead_coefE Es.
  - cbn [obind Nat.eqb]. by exists (@SqfreeFactored O 1 [:: (z, Npos xH)]).
Qed.
Lemma s_mul_ok L ks1 ks2 (s1 s2 : sqfree_factored O) : good L -> dec L ks1 (s_factors s1) -> dec L ks2 (s_factors s2) -> uniq (ks1 ++ ks2) ->
  (forall k, k \in ks1 ++ ks2 -> at_ k L != [::]) -> dec L (ks1 ++ ks2) (s_factors (s_mul s1 s2)) /\ s_unit (s_mul s1 s2) = s_unit s1 * s_unit s2.
Proof.
  move=> HL D1 D2 U N. split=> //. rewrite /s_mul. cbn [s_factors]. rewrite (s_mul_fresh HL D1 D2 U); first exact: dec_cat.
  - move=> k Hk. apply: N. by rewrite mem_cat Hk.
  - move=> k Hk. apply: N. by rewrite mem_cat Hk orbT.
Qed.
(* L0: all factors; L: those whose exponent is not divisible by the characteristic *)
Lemma sqf_loop_ok L0 L B u : good L0 -> good L -> monics L -> coprimep (Pi L) B -> B \is monic -> (forall k, at_ k L = [::] \/ at_ k L = at_ k L0) ->
  forall fuel i w c (fs : sqfree_factored O) ks, (0 < i)%N -> Poly w = Pi (from i L) -> Poly c = B * Gi i (from i L) -> (forall x, x \in L -> (x.2 < i + fuel)%N) ->
  s_unit fs = u -> dec L0 ks (s_factors fs) -> uniq ks -> (forall k, (k \in ks) = (k < i)%N && (at_ k L != [::])) ->
  exists c' fs' ks', [/\ @sqf_loop O div ffa fuel (N.of_nat i) w c fs = Some (c', fs'), Poly c' = B, s_unit fs' = u, dec L0 ks' (s_factors fs') & uniq ks' /\ forall k, (k \in ks') = (at_ k L != [::])].
Proof.
  move=> HL0 HL ML CB MB AT.
  have Hw1 i w : Poly w = Pi (from i L) -> (from i L == [::]) = @p_equal O w [:: 1].
  { move=> Ew. apply/idP/idP.
    - move=> /eqP E. apply/p_equalP. by rewrite Ew E Poly1.
    - move/p_equalP. rewrite Ew Poly1 => E. apply: contraT => H. have := nonconst_Pi (good_filter (fun x => (i <= x.2)%N) HL) H. by rewrite E size_poly1. }
  have Hdone i (ks : seq nat) : (forall k, (k \in ks) = (k < i)%N && (at_ k L != [::])) -> from i L = [::] -> forall k, (k \in ks) = (at_ k L != [::]).
  { move=> Hks E k. rewrite Hks. case: ltnP => //= Hk. have -> : at_ k L = [::] => //. apply/eqP. rewrite -[_ == _]negbK -has_filter. apply/hasPn => x Hx.
    have : x \notin from i L by rewrite E. rewrite mem_filter Hx andbT -ltnNge => H. by rewrite neq_ltn (leq_trans H Hk). }
  elim=> [|fuel IH] i w c fs ks Hi Ew Ec Hfu Hu Hdec Huq Hks.
  - have E : from i L = [::] by apply: from_top => x /Hfu; rewrite addn0. cbn [sqf_loop]. rewrite -[@r1 O]/(1 : R) -(Hw1 _ _ Ew) E eqxx. exists c, fs, ks. split=> //; first by rewrite Ec E mulr1. split=> //. exact: Hdone E.
  - cbn [sqf_loop]. rewrite -[@r1 O]/(1 : R) -(Hw1 _ _ Ew). case: eqP => E.
    { exists c, fs, ks. split=> //; first by rewrite Ec E mulr1. split=> //. exact: Hdone E. }
    set Y := Pi (from i.+1 L).
    have [y [Ey1 Ey2 Ey3]] := pgcd_ok D FD FA w c. rewrite Ey1. cbn [obind].
    have Ew' : Poly w = Pi (at_ i L) * Y by rewrite Ew split_Pi.
    have Ec' : Poly c = (B * Gi i.+1 (from i.+1 L)) * Y by rewrite Ec Gi_step -/Y [Y * _]mulrC mulrA.
    have MY : Y \is monic by apply: Pi_monic'; exact: monics_filter.
    have MA : Pi (at_ i L) \is monic by apply: Pi_monic'; exact: monics_filter.
    have Hcop : coprimep (Pi (at_ i L)) (B * Gi i.+1 (from i.+1 L)).
    { rewrite coprimepMr. apply/andP; split.
      - move: CB. by rewrite (Pi_split (fun x => x.2 == i) L) coprimepMl => /andP [].
      - apply: Gi_coprime. apply: coprime_filter => // x /eqP ->. by rewrite ltnn. }
    have Ey : Poly y = Y.
    { apply: monic_eqp' => //. { apply: Ey3. rewrite Ew'. by rewrite mulf_neq0 // monic_neq0. }
      apply: eqp_trans Ey2 _. rewrite Ew' Ec'. apply: eqp_trans (gcdp_mul2r _ _ _) _. rewrite -{2}[Y]mul1r. apply: eqp_mulr. by rewrite -/(coprimep _ _) in Hcop; move: Hcop; rewrite coprimep_def size_poly_eq1. }
    have [z [Ez1 Ez2]] := @div_unwrap_ok R div D w y (Pi (at_ i L)) ltac:(by rewrite Ey monic_neq0) ltac:(by rewrite Ew' Ey).
    have [c1 [Ec1 Ec2]] := @div_unwrap_ok R div D c y (B * Gi i.+1 (from i.+1 L)) ltac:(by rewrite Ey monic_neq0) ltac:(by rewrite Ec' Ey).
    rewrite Ez1. cbn [obind]. have Mz : Poly z \is monic by rewrite Ez2; apply: Pi_monic'; exact: monics_filter.
    have [s [Es1 [Es2 Es3]]] := new_sqf_ok Mz. rewrite Es1. cbn [obind]. rewrite Ec1. cbn [obind].
    have Hat : (1 < size (Poly z))%N = (at_ i L != [::]).
    { rewrite Ez2. apply/idP/idP; last by apply: nonconst_Pi; exact: good_filter. apply: contraTneq => ->. by rewrite /= size_poly1. }
    rewrite Hat in Es3.
    set ks2 := if at_ i L != [::] then [:: i] else [::].
    have Hd2 : dec L0 ks2 (s_factors (@s_pow O s (N.of_nat i))).
    { rewrite /s_pow. cbn [s_factors]. rewrite Es3 /ks2 /dec. case: eqP => H //=. rewrite Ez2. case: (AT i) => // ->. congr [:: (_, _)]. move: (Nat2N.id i). by case: (N.of_nat i). }
    have Hmem k : (k \in ks ++ ks2) = (k < i.+1)%N && (at_ k L != [::]).
    { rewrite mem_cat Hks ltnS [(k <= i)%N]leq_eqVlt. have -> : (k \in ks2) = (k == i) && (at_ i L != [::]) by rewrite /ks2; case: (at_ i L != [::]); rewrite ?inE ?andbT ?andbF.
      case: (boolP (k == i)) => [/eqP ->|_]; [by rewrite ltnn /=|by rewrite /= orbF]. }
    have Huq2 : uniq (ks ++ ks2).
    { rewrite cat_uniq Huq /= /ks2. case: (at_ i L != [::]) => //=. by rewrite orbF andbT Hks ltnn. }
    have [|Hd Hun] := @s_mul_ok L0 ks ks2 fs (@s_pow O s (N.of_nat i)) HL0 Hdec Hd2 Huq2 _.
    { move=> k. rewrite Hmem => /andP [_]. by case: (AT k) => ->. }
    rewrite ofnat_S.
    apply: (IH i.+1 _ _ _ (ks ++ ks2)) => //.
    + move=> x /Hfu. by rewrite addSnnS.
    + rewrite Hun /s_pow. cbn [s_unit]. by rewrite Es2 mulr1.
Qed.
Section Root.
Variable p : nat.
Hypothesis p0 : (0 < p)%N.
Lemma dvdN k : (N.eqb (N.modulo (N.of_nat k) (N.of_nat p)) 0) = (p %| k)%N.
Proof.
  apply/idP/idP.
  - move/N.eqb_eq => H. apply/dvdnP. exists (N.to_nat (N.div (N.of_nat k) (N.of_nat p))). have := N.div_mod (N.of_nat k) (N.of_nat p). rewrite H. set q := N.div _ _. clearbody q. nia.
  - case/dvdnP=> q ->. apply/N.eqb_eq. rewrite -multE Nat2N.inj_mul N.mod_mul //. lia.
Qed.
Lemma pth_root_loop (cs : seq R) : forall k s, (s < p)%N -> (p %| k + s)%N -> (forall i, ~~ (p %| k + i)%N -> cs`_i = 0) ->
  exists r, @pth_root_coeffs O (N.of_nat p) k cs = Some r /\ forall j, r`_j = cs`_(j * p + s).
Proof.
  elim: cs => [|x cs IH] k s Hs Hd Hz. { exists [::]. split=> // j. by rewrite !nth_nil. }
  cbn [pth_root_coeffs]. rewrite dvdN. have E1 : (k + 1)%coq_nat = k.+1 by rewrite plusE addn1. rewrite E1.
  have Hz' i : ~~ (p %| k.+1 + i)%N -> cs`_i = 0 by rewrite addSnnS => /Hz.
  case: s Hs Hd => [|s] Hs Hd.
  - rewrite addn0 in Hd. rewrite Hd. case: (IH k.+1 p.-1) => //; [by rewrite prednK|by rewrite addSnnS prednK // dvdn_add|].
    move=> r [-> Hr]. exists (x :: r). split=> // -[|j] //=. rewrite Hr. have -> : (j.+1 * p + 0 = (j * p + p.-1).+1)%N by move: p0; nia. done.
  - case: (boolP (p %| k)%N) => Hk.
    { exfalso. move: Hd. rewrite dvdn_addr // => /(dvdn_leq (ltn0Sn s)). by rewrite leqNgt Hs. }
    have -> : @is_zero O x = true. { apply/eqP. by have := Hz 0%N; rewrite addn0 => /(_ Hk). }
    cbn [oassert obind]. case: (IH k.+1 s) => //; [exact: ltnW|by rewrite addSnnS|]. move=> r [-> Hr]. exists r. split=> // j. rewrite Hr addnS. done.
Qed.
Lemma pth_root_ok c G : Poly c = G \Po 'X^p -> exists r, @pth_root_coeffs O (N.of_nat p) 0 c = Some r /\ Poly r = G.
Proof.
  move=> E. have Hc i : c`_i = (G \Po 'X^p)`_i by rewrite -E coef_Poly.
  case: (@pth_root_loop c 0 0) => // [i|r [E1 E2]]; first by rewrite add0n Hc coef_comp_poly_Xn // => /negPf ->.
  exists r. split=> //. apply/polyP => i. by rewrite coef_Poly E2 addn0 Hc coef_comp_poly_Xn // dvdn_mull // mulnK.
Qed.
End Root.
Section Top.
Variable p : nat.
Hypothesis Cp : p \in [char R].
Let p_pr : prime p := charf_prime Cp.
Lemma frob_comp' A : (forall a : R, a ^+ p = a) -> A ^+ p = A \Po 'X^p.
Proof.
  move=> H. have Cq : p \in [char {poly R}] by exact: (rmorph_char [rmorphism of (@polyC R)]).
  elim/poly_ind: A => [|f c IH]; first by rewrite comp_poly0 expr0n; case: p p_pr.
  rewrite comp_polyD comp_polyM comp_polyC comp_polyX -IH -[LHS](Frobenius_autE Cq) rmorphD rmorphM /= !Frobenius_autE. by rewrite -rmorphX H.
Qed.
Notation La L := [seq x <- L | ~~ (p %| x.2)%N].
Notation Lb L := [seq x <- L | (p %| x.2)%N].
Lemma deriv_b L : (Fp (Lb L))^`() = 0.
Proof.
  elim: L => [|x L IH] /=; first exact: derivC. case: ifP => //= /dvdnP [k ->]. rewrite derivM IH mulr0 addr0 deriv_exp mulrnA.
  have Cq : p \in [char {poly R}] by exact: (rmorph_char [rmorphism of (@polyC R)]).
  by rewrite (mulrn_char Cq) mul0r.
Qed.
Lemma gcd_deriv L : good L -> gcdp (Fp L) (Fp L)^`() %= Fp (Lb L) * Gp (La L).
Proof.
  move=> HL. have Ha := good_filter (fun x => ~~ (p %| x.2)%N) HL.
  have E : Fp L = Fp (Lb L) * Fp (La L) by rewrite (Fp_split (fun x => (p %| x.2)%N) L).
  have E1 : Fp L = Fp (Lb L) * Gp (La L) * Pi (La L) by rewrite E (Gp_Pi Ha) mulrA.
  have E2 : (Fp L)^`() = Fp (Lb L) * Gp (La L) * W id (La L) by rewrite E derivM deriv_b mul0r add0r (dFp Ha) mulrA.
  rewrite E2 {1}E1. apply: eqp_trans (gcdp_mul2l _ _ _) _. rewrite -{2}[_ * Gp _]mulr1. apply: eqp_mull. rewrite -size_poly_eq1 -coprimep_def.
  apply: coprime_PW' => // x. rewrite mem_filter => /andP [H _]. by rewrite -(dvdn_charf Cp).
Qed.
(* the p-th root of the part with exponents divisible by p *)
Definition Lr L := [seq (x.1, (x.2 %/ p)%N) | x <- Lb L].
Lemma Fp_Lr L : Fp (Lb L) = Fp (Lr L) ^+ p.
Proof.
  rewrite -Fp_map_exp /Lr -map_comp. congr Fp. rewrite -[LHS]map_id. apply/eq_in_map => x. rewrite mem_filter => /andP [H _] /=. rewrite divnK //. by case: x {H}.
Qed.
Lemma good_Lr L : good L -> good (Lr L).
Proof.
  move=> HL. apply: (@good_map_exp (fun e => e %/ p)%N); first exact: good_filter. move=> x. rewrite mem_filter => /andP [H Hx]. rewrite divn_gt0 ?prime_gt0 //. apply: dvdn_leq => //. exact: good_pos HL Hx.
Qed.
Lemma monics_Lr L : monics L -> monics (Lr L).
Proof. move=> H x /mapP [y Hy ->]. move: Hy. rewrite mem_filter => /andP [_ Hy]. exact: (H y Hy). Qed.
Lemma at_Lr k L : at_ (k * p)%N L = [::] /\ at_ k (Lr L) = [::] \/ at_ (k * p)%N L != [::] /\ at_ k (Lr L) != [::] /\ Pi (at_ (k * p)%N L) = Pi (at_ k (Lr L)).
Proof.
  have E : at_ k (Lr L) = [seq (x.1, (x.2 %/ p)%N) | x <- at_ (k * p)%N L].
  { rewrite /Lr filter_map -filter_predI. congr map. apply: eq_filter => x /=. apply/andP/eqP.
    - case=> /eqP <- H. by rewrite divnK.
    - move=> ->. by rewrite mulnK ?prime_gt0 // dvdn_mull. }
  rewrite E (Pi_map_exp (fun e => e %/ p)%N). case: (at_ (k * p)%N L) => [|x l]; [by left|by right].
Qed.
Lemma at_La k L : at_ k (La L) = if (p %| k)%N then [::] else at_ k L.
Proof.
  rewrite -filter_predI. case: ifP => H.
  - apply/eqP. rewrite -[_ == _]negbK -has_filter. apply/hasPn => x _ /=. apply/negP => /andP [/eqP -> ]. by rewrite H.
  - apply: eq_filter => x /=. case: eqP => //= ->. by rewrite H.
Qed.
Lemma is_unit_field (x : R) : x != 0 -> @is_unit O div x = true.
Proof. move=> H. apply/(is_unit_ok O (id_ring _ _ D) div D)/runitE. exact: (field_unit D FD). Qed.
Lemma dec_pow L ks (s : sqfree_factored O) : dec (Lr L) ks (s_factors s) -> (forall k, (k \in ks) = (at_ k (Lr L) != [::])) -> dec L [seq (k * p)%N | k <- ks] (s_factors (@s_pow O s (N.of_nat p))).
Proof.
  rewrite /dec /s_pow. cbn [s_factors]. move=> H Hk. rewrite -!map_comp.
  have -> : [seq ((fun x : seq R * N => (Poly x.1, N.to_nat x.2)) \o (fun fk : seq R * N => (fk.1, (fk.2 * N.of_nat p)%num))) i | i <- s_factors s] = [seq (x.1, (x.2 * p)%N) | x <- [seq (Poly x.1, N.to_nat x.2) | x <- s_factors s]].
  { rewrite -map_comp. apply: eq_map => x /=. congr (_, _). rewrite N2Nat.inj_mul Nat2N.id. by rewrite multE. }
  rewrite H -map_comp. apply/eq_in_map => k Hkk /=. congr (_, _). have := at_Lr k L. rewrite Hk in Hkk. case=> [[_ Z]|[_ [_ ->]]] //. by rewrite Z eqxx in Hkk.
Qed.
Lemma fact_sqf_ok : forall fuel L (m : monic_factored O), good L -> monics L -> Poly (m_monic m) = Fp L -> m_unit m != 0 -> (forall x, x \in L -> (x.2 < fuel)%N) -> (0 < fuel)%N ->
  ((forall a : R, a ^+ p = a) \/ (forall x, x \in L -> ~~ (p %| x.2)%N)) ->
  exists s ks, [/\ @factorize_squarefree O div ffa (N.of_nat p) fuel m = Some s, s_unit s = m_unit m, dec L ks (s_factors s), uniq ks & forall k, (k \in ks) = (at_ k L != [::])].
Proof.
  elim=> [|fuel IH] L m HL ML Em Hu Hfu Hf0 Hp //. cbn [factorize_squarefree].
  rewrite /unit_unchecked (is_unit_field Hu).
  cbn [oassert obind]. have [c [Ec1 Ec2 Ec3]] := pgcd_ok D FD FA (m_monic m) (@p_derivative O (m_monic m)). rewrite Ec1. cbn [obind].
  have Ha := good_filter (fun x => ~~ (p %| x.2)%N) HL. have Ma := monics_filter (h := fun x => ~~ (p %| x.2)%N) ML.
  have Mb : Fp (Lb L) \is monic by apply: Fp_monic'; exact: monics_filter.
  have Mc : Fp (Lb L) * Gi 1 (from 1 (La L)) \is monic by rewrite monicMl // (from1 Ha) Gi_monic.
  have Ec : Poly c = Fp (Lb L) * Gi 1 (from 1 (La L)).
  { apply: monic_eqp' => //.
    - apply: Ec3. by rewrite Em (Fp_neq0 HL).
    - rewrite (from1 Ha) Gi_1. apply: eqp_trans Ec2 _. rewrite Em p_derivativeE Em. exact: gcd_deriv. }
  have Hw : Poly (m_monic m) = Pi (La L) * Poly c. { by rewrite Em Ec (from1 Ha) Gi_1 (Fp_split (fun x => (p %| x.2)%N) L) (Gp_Pi Ha) mulrA mulrC. }
  have Hc0 : Poly c != 0 by rewrite Ec monic_neq0.
  have [w [Ew1 Ew2]] := @div_unwrap_ok R div D (m_monic m) c (Pi (La L)) Hc0 Hw.
  rewrite Ew1. cbn [obind].
  have Hcop : coprimep (Pi (La L)) (Fp (Lb L)).
  { have : coprimep (Pi (La L)) (Pi (Lb L)) by apply: coprime_filter => // x /negPf ->. elim: (Lb L) => [|x l IHl] /=; first by rewrite coprimep1. rewrite !coprimepMr => /andP [H1 /IHl ->]. by rewrite andbT coprimep_expr. }
  have Hat k : at_ k (La L) = [::] \/ at_ k (La L) = at_ k L by rewrite at_La; case: ifP; [left|right].
  have Hexp x : x \in La L -> (x.2 < 1 + length (m_monic m))%N.
  { rewrite mem_filter => /andP [_ Hx]. have := good_exp HL Hx. rewrite -Em lengthE. have := size_Poly (m_monic m). set u := size (Poly _). set v := size (m_monic m). lia. }
  have Hw2 : Poly w = Pi (from 1 (La L)) by rewrite (from1 Ha).
  have Hk0 k : (k \in [::]) = (k < 1)%N && (at_ k (La L) != [::]). { case: k => // . rewrite at_La dvdn0. done. }
  have [c' [fs' [ks [E1 E2 E3 E4 [E5 E6]]]]] := @sqf_loop_ok L (La L) (Fp (Lb L)) (m_unit m) HL Ha Ma Hcop Mb Hat (length (m_monic m)) 1%N w c (@SqfreeFactored O (m_unit m) [::]) [::] isT Hw2 Ec Hexp erefl erefl isT Hk0.
  rewrite E1. cbn [obind]. rewrite -[@r1 O]/(1 : R).
  have [Hb|Hb] := boolP (Lb L == [::]).
  - have -> : @p_equal O c' [:: 1] = true by apply/p_equalP; rewrite E2 (eqP Hb) Poly1.
    exists fs', ks. split=> // k. rewrite E6 at_La. case: ifP => // Hk. apply/esym/negbTE. rewrite negbK -[_ == _]negbK -has_filter. apply/hasPn => x Hx. apply/negP => /eqP Z. have : x \in Lb L by rewrite mem_filter Z Hk Hx. by rewrite (eqP Hb).
  - have Hb1 : (1 < size (Fp (Lb L)))%N.
    { have Gb := good_filter (fun x => (p %| x.2)%N) HL. have := nonconst_Pi Gb Hb. move/leq_trans; apply. apply: dvdp_leq; [exact: Fp_neq0|exact: Pi_dvd_Fp]. }
    have -> : @p_equal O c' [:: 1] = false. { apply/negbTE/negP => /p_equalP. rewrite E2 Poly1 => Z. by move: Hb1; rewrite Z size_poly1. }
    case: Hp => [Hp|Hp]; last first. { exfalso. case/eqP: Hb. apply/eqP. rewrite -[_ == _]negbK -has_filter. apply/hasPn => x Hx. exact: Hp. }
    have [r [Er1 Er2]] : exists r, @pth_root_coeffs O (N.of_nat p) 0 c' = Some r /\ Poly r = Fp (Lr L). { apply: pth_root_ok; first exact: prime_gt0. by rewrite E2 Fp_Lr frob_comp'. }
    rewrite Er1. cbn [obind]. rewrite /new_monic_unchecked p_is_monicE Er2 (Fp_monic' (monics_Lr ML)). cbn [oassert obind].
    have [] := IH (Lr L) (@MonicFactored O 1 r) (good_Lr HL) (monics_Lr ML) Er2 (oner_neq0 _) _ _ (or_introl Hp).
    + move=> x /mapP [y Hy ->] /=. move: Hy. rewrite mem_filter => /andP [Hd Hy]. have := Hfu y Hy. rewrite ltnS. apply: leq_trans. apply: ltn_Pdiv; [exact: prime_gt1|exact: good_pos HL Hy].
    + case: (L) Hfu HL Hb => [|x l] Hfu' HL' Hb' //. move: (Hfu' x (mem_head _ _)) (good_pos HL' (mem_head _ _)). case: (fuel) => //. by rewrite ltnS leqn0 => /eqP ->.
    + move=> s [ks' [F1 F2 F3 F4 F5]]. rewrite F1. cbn [obind].
      have Huq : uniq (ks ++ [seq (k * p)%N | k <- ks']).
      { rewrite cat_uniq E5 map_inj_uniq ?F4 ?andbT /=; last by move=> i j /eqP; rewrite eqn_mul2r eqn0Ngt prime_gt0 //= => /eqP. apply/hasPn => k /mapP [j _ ->]. change ((j * p)%N \notin ks). by rewrite E6 at_La dvdn_mull. }
      have Hmem k : (k \in ks ++ [seq (k * p)%N | k <- ks']) = (at_ k L != [::]).
      { rewrite mem_cat E6 at_La. case: ifP => [/dvdnP [j ->]|Hk] /=.
        - have inj : injective (fun k => k * p)%N by move=> i j' /eqP; rewrite eqn_mul2r eqn0Ngt prime_gt0 //= => /eqP. rewrite (mem_map inj) F5. by case: (at_Lr j L) => [[-> ->]|[-> [-> _]]].
        - rewrite orbC. case: (boolP (k \in _)) => // /mapP [j _ Z]. by rewrite Z dvdn_mull in Hk. }
      have [|G1 G2] := @s_mul_ok L ks [seq (k * p)%N | k <- ks'] fs' (@s_pow O s (N.of_nat p)) HL E4 (dec_pow F3 F5) Huq.
      { move=> k. by rewrite Hmem. }
      exists (@s_mul O fs' (@s_pow O s (N.of_nat p))), (ks ++ [seq (k * p)%N | k <- ks']). split=> //. rewrite G2 E3 /s_pow. cbn [s_unit]. by rewrite F2 /= mulr1.
Qed.
End Top.
End S.
