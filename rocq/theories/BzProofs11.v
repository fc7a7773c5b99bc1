(* new_at_prime: either the prime is rejected, or the result satisfies what the search needs. *)
From Coq Require Import List NArith ZArith QArith Bool Sorted.
From mathcomp Require Import all_ssreflect all_algebra separable.
From mathcomp Require Import zify.
From Coq Require Import Lia.
From Verif Require HenselProofs5 FfProofs.
From Verif Require Import RingSpec RingModel RingProofs RingProofs2 PermModel MatModel MatSpec ZRing MatInst PolyModel PolySpec PolyHom PolyProofs PolyProofs2 PolyProofs3 PolyProofs11 PolyProofs12 PolyProps PolyProps3 HenselSpec HenselModel HenselProofs HenselProofs2 HenselProofs3 HenselProofs4 HenselProps FfSpec BoundModel BoundProofs BoundProofs2 BoundProps BzModel BzSpec BzProofs2 BzProofs7 BzProofs8.
Close Scope rs_scope. Close Scope Q_scope.
Set Implicit Arguments.
Unset Strict Implicit.
Unset Printing Implicit Defensive.
Import GRing.Theory.
Local Open Scope ring_scope.

Lemma size_ker (R K K' : ringType) (phi : {rmorphism R -> K}) (phi' : {rmorphism R -> K'}) (F : {poly R}) : (forall x, phi x = 0 <-> phi' x = 0) -> size (map_poly phi F) = size (map_poly phi' F).
Proof.
  move=> H. have H' x : (phi x == 0) = (phi' x == 0) by apply/eqP/eqP => /H.
  have L (K1 K2 : ringType) (f1 : {rmorphism R -> K1}) (f2 : {rmorphism R -> K2}) : (forall x, (f1 x == 0) = (f2 x == 0)) -> (size (map_poly f1 F) <= size (map_poly f2 F))%N.
  { move=> E. rewrite leqNgt. apply/negP => Hlt. have : (map_poly f1 F)`_(size (map_poly f1 F)).-1 != 0 by rewrite -lead_coefE lead_coef_eq0 -size_poly_gt0; exact: leq_ltn_trans Hlt. rewrite coef_map E. have := @nth_default _ 0 (map_poly f2 F) (size (map_poly f1 F)).-1. rewrite coef_map => ->; first by rewrite eqxx. by move: Hlt; case: (size (map_poly f1 F)). }
  by apply/eqP; rewrite eqn_leq !L.
Qed.
Section AtPrime.
Variable pn : nat.
Hypothesis Hp : prime pn.
Notation K := [fieldType of 'F_pn].
Notation phi := (zin_rmorph K).
Notation p := (Z.of_nat pn).
Lemma kp (x : ZR) : phi x = 0 <-> exists c, x = (p : ZR) * c. Proof. exact: (zin_Fp Hp). Qed.
Lemma pz2 : Z.le 2 p. Proof. have := prime_gt1 Hp. lia. Qed.
Lemma pzp : Znumtheory.prime p.
Proof.
  apply: Znumtheory.prime_intro; first by have := pz2; lia. move=> n Hn. apply/Znumtheory.Zgcd_1_rel_prime. have H1 := pz2.
  have Hd : Z.divide (Z.gcd n p) p by exact: Z.gcd_divide_r. have Hg := Z.gcd_nonneg n p.
  have Hd2 : (Z.to_nat (Z.gcd n p) %| pn)%N. { case: Hd => c Hc. apply/dvdnP. exists (Z.to_nat c). nia. }
  have := primeP Hp => -[_ /(_ _ Hd2)] /orP [/eqP|/eqP] E; first lia. exfalso. have Hd3 : Z.divide (Z.gcd n p) n by exact: Z.gcd_divide_l. have : Z.le (Z.gcd n p) n by apply: Z.divide_pos_le => //; lia. lia.
Qed.
Lemma pirr : @irreducible ZO p. Proof. exact: (Z_irreducible_prime _ pzp). Qed.
Lemma pn0 : (p : ZR) != 0. Proof. apply/eqP => Z. have := pz2. rewrite Z. by []. Qed.
Lemma pnu : (p : ZR) \isn't a GRing.unit.
Proof. have LI : Z.le 2 p := pz2. apply/negP => /unitrP [y [_ E]]. have {}E : Z.mul p y = (Zpos 1) := E. have : Z.divide p (Zpos 1) by exists y; rewrite Z.mul_comm. move/Z.divide_1_r_abs. lia. Qed.
Lemma p_degree_mod (f : list Z) : @p_degree (ZQ p) f = (match size (modp pn f) with O => None | S k => Some k end).
Proof.
  have [K' [psi [H K0]]] := quot_hom Zidom Zeuclid Zmono pn0 pnu. have := hom_degree _ H f => ->. rewrite p_degreeE Poly_map.
  have -> : size (map_poly psi (Poly (f : seq ZR))) = size (modp pn f) by apply: size_ker => x; rewrite kp K0. by [].
Qed.

Variables (is_irr : Z -> bool) (mf : Z -> list Z -> option (list (list Z * N))).
Hypothesis Hirr' : is_irr p.
Hypothesis MF : mfactor_right mf.
Notation lin := (@h_linear_lift ZO Zdiv Zffa Znorm Zquorem).
Notation hnew := (@h_new ZO Zdiv Zffa Znorm Zquorem is_irr).
Notation into := (@into_hensel_factorization ZO Zdiv Zffa Znorm Zquorem is_irr).
Lemma hnew_inv b n h fs X : hnew b p n h fs = Some X -> [/\ X = @HFact ZO p n h (h_t X), @himpl_new ZO Zdiv Zffa Znorm Zquorem is_irr (length fs) p n h fs = Some (h_t X) & @h_check ZO Zquorem b X = Some true].
Proof.
  rewrite /h_new. case: (is_irr p) => //. case: (Nat.leb _ _) => //. case: (forallb _ _) => //. case: (~~ _) => //. case: (p_leading_coeff _) => [a|] //. cbn [obind]. case: (p_equal _ _) => //.
  case E: (himpl_new _ _ _ _ _) => [t|] //. cbn [obind]. case E2: (h_check _ _) => [[]|] // -[<-]. by split.
Qed.
Lemma pow2 k : Z.le (Z.pow 2 (Z.of_nat k)) (@GRing.exp ZR p k).
Proof.
  elim: k => [|k IH]; first by rewrite expr0. rewrite Nat2Z.inj_succ Z.pow_succ_r; last lia. rewrite exprS -[_ * _]/(Z.mul p (@GRing.exp ZR p k)). have := pz2. have : Z.lt 0 (Z.pow 2 (Z.of_nat k)) by apply: Z.pow_pos_nonneg; lia. move: IH. set x : Z := (_ ^+ k). nia.
Qed.
Lemma lu_ok m fuel : forall F n, (forall k, exists Y, times lin k F = Some Y /\ @h_modulus ZO Y = (p : ZR) ^+ (n + k)) -> Z.le m (@GRing.exp ZR p (n + fuel)) ->
  exists k Y, [/\ lift_until fuel m F = Some Y, times lin k F = Some Y & Z.le m (@h_modulus ZO Y)].
Proof.
  elim: fuel => [|fuel IH] F n HF Hm.
  - have [Y [E1 E2]] := HF 0%N. move: E1 => /= -[E1]. subst Y. exists 0%N, F. rewrite -E2 in Hm. rewrite /lift_until. case: Z.ltb_spec => [Hl|_]; last by []. exfalso. exact: (Z.lt_irrefl _ (Z.lt_le_trans _ _ _ Hl Hm)).
  - cbn [lift_until]. have [Y0 [E1 E2]] := HF 0%N. move: E1 => /= -[E1]. subst Y0. case: Z.ltb_spec => [Hl|Hl]; last by exists 0%N, F. have [Y [E3 E4]] := HF 1%N. move: E3. cbn [times]. case E3: (lin F) => [F'|] // -[EY]. subst Y. cbn [obind].
    have [||k [Y [A1 A2 A3]]] := IH F' n.+1.
    + move=> k. have [Y [B1 B2]] := HF k.+1. exists Y. move: B1. cbn [times]. rewrite E3. by rewrite addSnnS.
    + by rewrite addSnnS.
    + exists k.+1, Y. split=> //. cbn [times]. by rewrite E3.
Qed.
Lemma min_ok (m : N) : Z.le (Z.of_N m) (@GRing.exp ZR p (1 + N.to_nat (N.log2_up m))).
Proof.
  have H := @pow2 (1 + N.to_nat (N.log2_up m))%N. apply: Z.le_trans _ H. have L : N.le m (N.pow 2 (N.log2_up m)). { case: (N.leb_spec m 1) => Hm; first by have := N.pow_nonzero 2 (N.log2_up m); lia. have [_] := N.log2_up_spec m Hm. by []. }
  rewrite Nat2Z.inj_add Z.pow_add_r; [|lia|lia]. have -> : Z.of_nat (N.to_nat (N.log2_up m)) = Z.of_N (N.log2_up m) by lia. have := N2Z.inj_pow 2 (N.log2_up m). have := Z.pow_pos_nonneg 2 (Z.of_N (N.log2_up m)). lia.
Qed.
Lemma irr_monic_neq (r g : {poly K}) : irreducible_poly r -> irreducible_poly g -> r \is monic -> g \is monic -> r <> g -> coprimep r g.
Proof.
  move=> Ir Ig Mr Mg Hne. rewrite (@FfProofs.irr_coprime [finFieldType of 'F_pn] _ _ Ir). apply/negP => Hd. apply: Hne. apply/eqP. rewrite -eqp_monic //. case: Ig => _ /(_ r) H. apply: H => //. case: Ir => H1 _. by apply/eqP => E; move: H1; rewrite E.
Qed.
Section Poly.
Variable (f : list Z) (minimum : N).
Hypothesis Sf : (1 < size (ZP f))%N.
Notation d := (size (ZP f)).-1.
Notation L := (lead_coef (ZP f)).
Notation NAP := (new_at_prime is_irr mf f d minimum (N.of_nat pn)).
Lemma f_nz : ZP f != 0. Proof. rewrite -size_poly_gt0. exact: ltn_trans Sf. Qed.
Lemma nap_lead0 : phi L = 0 -> NAP = Some None.
Proof.
  move=> HL. rewrite /new_at_prime nat_N_Z p_degree_mod. have : (size (modp pn f) < size (ZP f))%N.
  { have Hle : (size (modp pn f) <= size (ZP f))%N by exact: size_poly. rewrite ltn_neqAle Hle andbT. apply/eqP => E. have : (modp pn f)`_(size (modp pn f)).-1 != 0 by rewrite -lead_coefE lead_coef_eq0 -size_poly_gt0 E; exact: ltn_trans Sf. have Ec : (modp pn f)`_(size (ZP f)).-1 = phi L by exact: (coef_map phi). by rewrite E Ec HL eqxx. }
  case: (size (modp pn f)) => [|k] // H. case: Nat.eqb_spec => // E. exfalso. move: H. rewrite E. by case: (size (ZP f)) => // n; rewrite ltnn.
Qed.
Hypothesis HL : phi L != 0.
Lemma size_f : size (modp pn f) = size (ZP f). Proof. exact: size_map_poly_id0. Qed.
Lemma modf0 : modp pn f != 0. Proof. rewrite -size_poly_gt0 size_f. exact: ltn_trans Sf. Qed.
Lemma lead_f : lead_coef (modp pn f) = phi L. Proof. exact: lead_coef_map_eq. Qed.
Lemma nap_step : exists l u, [/\ mf p f = Some l, forall x, List.In x l -> ZP x.1 \is monic,
  irreducible_factorization (F := [finFieldType of 'F_pn]) (modp pn f) u [seq (modp pn x.1, N.to_nat x.2) | x <- l] &
  NAP = (do o <- into p l f; match o with
    | Some F => do F <- lift_until (N.to_nat (N.log2_up minimum)) (Z.of_N minimum) F; Some (Some (AtPrime f L d (@h_modulus ZO F) (@h_factors ZO F)))
    | None => Some None end)].
Proof.
  have [l [u [E1 E2 E3]]] := MF Hp modf0. exists l, u. split=> //. rewrite /new_at_prime nat_N_Z p_degree_mod size_f. have -> : (match (match size (ZP f) with O => None | S k => Some k end) with Some d' => Nat.eqb d' d | None => false end) = true by case: (size (ZP f)) Sf => // n _; exact: Nat.eqb_refl.
  rewrite E1. cbn [obind]. case: (into p l f) => [[F|]|] //. cbn [obind]. rewrite /h_dont_lift_bezout_coeffs. case: (lift_until _ _ _) => [F'|] //. cbn [obind].
  rewrite /z_lead (@p_leading_coeffE ZR). by rewrite (negPf f_nz).
Qed.
Lemma nap_repeat : (exists l, mf p f = Some l /\ exists x, x \in l /\ x.2 <> 1%num) -> NAP = Some None.
Proof.
  case=> l [El [x [Hx Hn]]]. have [l' [u [E1 E2 E3 ->]]] := nap_step. move: E1. rewrite El => -[E1]. subst l'.
  have [H _] := @C28_into_hensel_factorization ZR Zdiv Zffa Znorm Zquorem Zidom Zffa_ok Zeuclid Zmono is_irr p pirr Hirr' (Z_small pz2) f l. rewrite H //. by exists x.
Qed.
Definition state_ok (S : at_prime) : Prop := exists gs t, [/\ S = AtPrime f L d (Z.pow p (Z.of_nat t)) gs, (0 < t)%N, Z.le (Z.of_N minimum) (Z.pow p (Z.of_nat t)) &
  lifted f gs pn t \/ [/\ gs = [:: f], phi L != 0 & irreducible_poly (modp pn f)]].
Section Ones.
Variables (l : list (list Z * N)) (u : 'F_pn).
Hypothesis E1 : mf p f = Some l.
Hypothesis E2 : forall x, List.In x l -> ZP x.1 \is monic.
Hypothesis E3 : irreducible_factorization (F := [finFieldType of 'F_pn]) (modp pn f) u [seq (modp pn x.1, N.to_nat x.2) | x <- l].
Hypothesis One : forall x, x \in l -> x.2 = 1%num.
Notation fs := [seq fst x | x <- l].
Lemma mon_mod g : ZP g \is monic -> modp pn g \is monic /\ size (modp pn g) = size (ZP g).
Proof. move=> Hg. have H : phi (lead_coef (ZP g)) != 0 by rewrite (eqP Hg) rmorph1 oner_eq0. split; last exact: size_map_poly_id0. rewrite monicE (lead_coef_map_eq H) (eqP Hg). exact/eqP/(rmorph1 phi). Qed.
Lemma irr_l x : x \in l -> irreducible_poly (modp pn x.1).
Proof. move=> Hx. have := irf_irreducible E3. move/(_ (modp pn x.1, N.to_nat x.2)). case=> //. apply/mapP. by exists x. Qed.
Lemma prodf : modp pn f = phi L *: \prod_(g <- fs) modp pn g.
Proof.
  have [u0 Ef] := irf_expands E3. move: Ef. rewrite [X in u *: X](_ : _ = \prod_(g <- fs) modp pn g); last first.
  { rewrite !big_map big_seq [RHS]big_seq. apply: eq_bigr => x Hx. by rewrite (One Hx) expr1. }
  move=> Ef. rewrite -lead_f. have Mn : \prod_(g <- fs) modp pn g \is monic. { rewrite big_map big_seq. apply: monic_prod => x Hx. have [] := mon_mod (E2 (proj2 (HenselProofs5.In_mem _ _) Hx)). by []. }
  by rewrite {2}Ef lead_coefZ (eqP Mn) mulr1 -Ef.
Qed.
Lemma cong_f : @cong ZR p (ZP f) (L *: \prod_(g <- fs) ZP g).
Proof. apply/(cong_hom kp). rewrite -[map_poly phi (ZP f)]/(modp pn f) prodf map_polyZ rmorph_prod. by []. Qed.
Lemma mem_fs g : g \in fs -> exists x, x \in l /\ g = x.1. Proof. case/mapP => x Hx ->. by exists x. Qed.
Lemma mon_fs g : g \in fs -> [/\ ZP g \is monic, (1 < size (ZP g))%N & irreducible_poly (modp pn g)].
Proof. case/mem_fs => x [Hx ->]. have HM := E2 (proj2 (HenselProofs5.In_mem _ _) Hx). have Hi := irr_l Hx. split=> //. have [_ <-] := mon_mod HM. by case: Hi. Qed.
Lemma cop_fs i j : (i < size fs)%N -> (j < size fs)%N -> i != j -> coprimep (modp pn (nth [::] fs i)) (modp pn (nth [::] fs j)).
Proof.
  move=> Hi Hj Hij. have [Mi _ Ii] := mon_fs (mem_nth [::] Hi). have [Mj _ Ij] := mon_fs (mem_nth [::] Hj). apply: irr_monic_neq => //; [by case: (mon_mod Mi)|by case: (mon_mod Mj)|].
  move=> E. have U := irf_distinct E3. rewrite -map_comp in U. have U' : uniq [seq modp pn g | g <- fs] by rewrite -map_comp. have NU := @nth_uniq _ 0 [seq modp pn g | g <- fs] i j. rewrite size_map in NU. have := NU Hi Hj U'. by rewrite !(nth_map [::]) // E eqxx (negPf Hij).
Qed.
Lemma size_fs : (0 < size fs)%N.
Proof. case E: fs => [|g r] //. have := prodf. rewrite E big_nil alg_polyC => Ef. have := size_f. rewrite Ef size_polyC HL => H. by move: Sf; rewrite -H. Qed.
Lemma powZ t : Z.pow p (Z.of_nat t) = (p : ZR) ^+ t. Proof. elim: t => [|n IH]; first by rewrite expr0. rewrite exprS -IH Nat2Z.inj_succ Z.pow_succ_r; last lia. by []. Qed.
Lemma allones : forallb (fun fp => N.eqb (snd fp) 1) l. Proof. apply/forallb_forall => x /HenselProofs5.In_mem /One ->. by []. Qed.
Lemma nap_single : size fs = 1%N -> exists S, NAP = Some (Some S) /\ state_ok S.
Proof.
  move=> S1. have [l' [u' [E1' _ _ ->]]] := nap_step. move: E1'. rewrite E1 => -[<-]. rewrite /into_hensel_factorization allones.
  have Hfs : fs = [:: nth [::] fs 0] by case: fs S1 => [|g [|]]. have I0 : (0 < size fs)%N by rewrite S1.
  have G : all (@HenselProofs5.good ZR) fs by apply: goods => g /mon_fs [].
  have PC : @HenselProofs5.pairwise_coprime ZR p fs by move=> j k Hjk; rewrite S1; case: j k Hjk => [|j] [|[|k]].
  have CM : comax L (p : ZR) by apply: (comax_p Zidom Zffa_ok Zeuclid pirr) => /kp Z; move: HL; rewrite Z eqxx.
  have CC : @cong ZR ((p : ZR) ^+ N.to_nat 1) (ZP f) (L%:P * \prod_(g <- fs) ZP g) by rewrite expr1 mul_polyC; exact: cong_f.
  have [t [Et _ _]] := @HenselProofs5.h_new_ok ZR Zdiv Zffa Znorm Zquorem Zidom Zffa_ok Zeuclid Zmono is_irr p pirr Hirr' (small_rm pn0 (Z_small pz2)) true 1%num f fs isT (fun _ => leqnn 1) I0 G PC f_nz CM CC.
  rewrite -[List.map fst l]/fs Et. have [_ Ei Ec] := hnew_inv Et. cbn [obind]. rewrite Ec. cbn [obind]. have Elf : t = Leaf. { move: Ei. rewrite lengthE S1 Hfs. cbn [himpl_new h_t]. by case. } subst t.
    have HT k : times lin k (@HFact ZO p 1 f Leaf) = Some (@HFact ZO p (1 + N.of_nat k) f Leaf). { have Gn n : times lin k (@HFact ZO p n f Leaf) = Some (@HFact ZO p (n + N.of_nat k) f Leaf); last exact: Gn. elim: k n => [|k IH] n; first by rewrite N.add_0_r. cbn [times]. have -> : lin (@HFact ZO p n f Leaf) = Some (@HFact ZO p (n + 1) f Leaf) by []. rewrite IH. congr (Some (HFact _ _ _ _)). lia. }
    have HM k : @h_modulus ZO (@HFact ZO p (1 + N.of_nat k) f Leaf) = (p : ZR) ^+ (1 + k). { rewrite /h_modulus. cbn [h_i h_n]. rewrite nat_powE. congr (_ ^+ _). lia. }
    have [||k [Y [Y1 Y2 Y3]]] := @lu_ok (Z.of_N minimum) (N.to_nat (N.log2_up minimum)) (@HFact ZO p 1 f Leaf) 1.
    { move=> k. eexists. split; [exact: HT|exact: HM]. } { exact: min_ok. }
    rewrite Y1. cbn [obind]. eexists. split; first by []. exists [:: f], (1 + k)%N. move: Y2. rewrite HT => -[EY]. subst Y. rewrite powZ -HM. split=> //. right. split=> //.
    have [_ _ Ig] := mon_fs (mem_nth [::] I0). have := prodf. rewrite Hfs big_seq1 => ->. split; first by rewrite size_scale //; case: Ig. move=> q q1. rewrite dvdpZr // => Hq. case: Ig => _ /(_ q q1 Hq) H. apply: eqp_trans H _. rewrite eqp_sym. exact: eqp_scale.
Qed.
Lemma nap_many : (1 < size fs)%N -> exists S, NAP = Some (Some S) /\ state_ok S.
Proof.
  move=> S1. have [l' [u' [E1' _ _ ->]]] := nap_step. move: E1'. rewrite E1 => -[<-].
  have HIn : @hensel_input ZR p 1 f fs.
  { split=> //.
    - move=> g /mon_fs []. by [].
    - move=> j k Hjk Hk. apply/(coprime_modE kp (@zin_Fp_surj pn)). apply: cop_fs => //; [exact: ltn_trans Hk|]. by rewrite ltn_eqF.
    - split; first exact: f_nz. split; first by move=> /kp Z; move: HL; rewrite Z eqxx. rewrite expr1. exact: cong_f. }
  have [_ H] := @C28_into_hensel_factorization ZR Zdiv Zffa Znorm Zquorem Zidom Zffa_ok Zeuclid Zmono is_irr p pirr Hirr' (Z_small pz2) f l.
  have [X [EX [X1 X2 X3]]] := H One HIn. rewrite -/fs in X1 X3. rewrite EX. cbn [obind].
  have Q k := @C28_quadratic ZR Zdiv Zffa Znorm Zquorem Zidom Zffa_ok Zeuclid Zmono is_irr p pirr Hirr' (Z_small pz2) f fs HIn 0 k.
  have HT k : exists Y, [/\ times lin k X = Some Y, h_n Y = N.of_nat (1 + k) & @hensel_right ZR p f fs 1 Y].
  { have [X0 [X' [Y [A1 A2 A3 A4 [_ [B1 B2 B3 _]]]]]] := Q k. move: A1. rewrite X1 => -[A1]. subst X0. move: A2 => /= -[A2]. subst X'. exists Y. split=> //. }
  have [||k [Y [Y1 Y2 Y3]]] := @lu_ok (Z.of_N minimum) (N.to_nat (N.log2_up minimum)) X 1.
  { move=> k. have [Y [A1 A2 [A3 _ _]]] := HT k. exists Y. split=> //. by rewrite A3 A2 Nnat.Nat2N.id. } { exact: min_ok. }
  have [Y' [A1 A2 [A3 A4 A5]]] := HT k. move: A1. rewrite Y2 => -[EY]. subst Y'. rewrite Y1. cbn [obind]. eexists. split; first by [].
  have EM : @h_modulus ZO Y = Z.pow p (Z.of_nat (1 + k)) by rewrite A3 A2 Nnat.Nat2N.id powZ.
  exists (@h_factors ZO Y), (1 + k)%N. rewrite -EM. split=> //. left.
  have HF i : (i < size fs)%N -> size (@h_factors ZO Y) = size fs /\ lift_of (p : ZR) (nth [::] fs i) (nth [::] (@h_factors ZO Y) i).
  { rewrite expr1 in A5. clear -A5. elim: A5 i => [|a b xs ys H1 H2 IH] [|i] //=. - move=> _. split=> //. congr S. elim: H2 {IH H1} => //= x y xs' ys' _ _ ->. by []. - move=> Hi. have [E H] := IH i Hi. split=> //. by rewrite E. }
  have Sz : size (@h_factors ZO Y) = size fs by have [] := HF 0%N size_fs.
  have Em i : (i < size fs)%N -> modp pn (nth [::] (@h_factors ZO Y) i) = modp pn (nth [::] fs i). { move=> Hi. have [_ [C _ _]] := HF i Hi. apply/(cong_hom kp). exact: C. }
  split=> //.
  - move=> g /HenselProofs5.In_mem /(nthP [::]) [i Hi <-]. rewrite Sz in Hi. by have [_ []] := HF i Hi.
  - rewrite -EM. exact: A4.
  - move=> i. rewrite Sz => Hi. rewrite -/(modp pn _) Em //. by have [] := mon_fs (mem_nth [::] Hi).
  - move=> i j. rewrite Sz => Hi Hj Hij. rewrite -!/(modp pn _) !Em //. exact: cop_fs.
Qed.
Lemma nap_ones : exists S, NAP = Some (Some S) /\ state_ok S.
Proof. have := size_fs. rewrite leq_eqVlt => /orP [/eqP /esym|]; [exact: nap_single|exact: nap_many]. Qed.
End Ones.
(* both outcomes *)
Lemma nap_ok : NAP = Some None \/ exists S, NAP = Some (Some S) /\ state_ok S.
Proof.
  have [l [u [E1 E2 E3 _]]] := nap_step. case H : (has (fun x => ~~ N.eqb x.2 1%num) l).
  - left. apply: nap_repeat. exists l. split=> //. have /hasP [x Hx Hn] := H. exists x. split=> // E. move: Hn. by rewrite E.
  - right. apply: (nap_ones E1 E2 E3). move=> x Hx. apply/N.eqb_eq. move/negbT/hasPn: H => /(_ x Hx). by rewrite negbK.
Qed.
Lemma nap_sep : separable_poly (modp pn f) -> exists S, NAP = Some (Some S) /\ state_ok S.
Proof.
  move=> Sep. have [l [u [E1 E2 E3 _]]] := nap_step. apply: (nap_ones E1 E2 E3) => x Hx. have Ix := irr_l E3 Hx. have [u0 Ef] := irf_expands E3.
  have [_ _ X0] := irf_irreducible E3 (map_f (fun x => (modp pn x.1, N.to_nat x.2)) Hx). rewrite [_.2]/= in X0.
  case: (ltnP 1 (N.to_nat x.2)) => X1; last by move: X0 X1; clear; move: (x.2) => e; lia. exfalso. have Hd : modp pn x.1 ^+ 2 %| modp pn f.
  { rewrite Ef dvdpZr // (big_rem (modp pn x.1, N.to_nat x.2)) /=; last by apply/mapP; exists x. apply: dvdp_mulr. exact: dvdp_exp2l. }
  case/dvdpP: Hd => h Eh. move: Sep. rewrite Eh expr2 mulrA separable_mul => /and3P [_ _]. rewrite coprimep_sym => Hc. have := coprimep_dvdl (dvdp_mull h (dvdpp (modp pn x.1))) Hc. rewrite coprimepp. case: Ix => H _ /eqP E. by move: H; rewrite E.
Qed.
End Poly.
End AtPrime.
