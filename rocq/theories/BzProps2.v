(* C68: the whole Berlekamp-Zassenhaus algorithm (rings/src/number/integer/berlekamp_zassenhaus.rs l.76-151, 352-487), from the factoriser of
   polynomials modulo a prime (contract: BzSpec.mfactor_right) and of integers (contract: FacProps.factors_right) to the factorisation over the integers. *)
From Coq Require Import List NArith ZArith QArith Bool Sorted.
From mathcomp Require Import all_ssreflect all_fingroup all_algebra all_solvable all_field.
From mathcomp Require Import zify.
From Coq Require Import Lia.
From Verif Require Import RingSpec RingModel RingProofs RingProofs2 FactoredSpec FactoredModel FactoredProofs PermModel MatModel MatSpec ZRing MatInst LatModel PolyModel PolySpec PolyProofs PolyProofs2 PolyProofs3 PolyProofs11 PolyProofs12 PolyProps PolyProps2 PolyProps3 FacModel FacModel2 FacProofs FacProofs2 FacProofs3 FacProofs4 FacProofs5 FacProofs6 FacProps FfModel FfSpec FfProps FfProps2 HenselSpec HenselModel HenselProofs HenselProofs2 BoundModel BoundProofs BoundProofs2 BoundProps BzModel BzSpec BzProofs1 BzProofs2 BzProofs3 BzProofs5 BzProofs6 BzProofs7 BzProofs8 BzProofs9 BzProofs10 BzProps BzProofs11 BzProofs12.
Close Scope rs_scope. Close Scope Q_scope.
Set Implicit Arguments.
Unset Strict Implicit.
Unset Printing Implicit Defensive.
Import GRing.Theory.
Local Open Scope ring_scope.

(* is_irr stands for the primality test of the naturals (only its being true of primes matters: a failure panics) *)
Definition accepts_primes (is_irr : Z -> bool) : Prop := forall p : nat, prime p -> is_irr (Z.of_nat p).

Section Whole.
Variables (is_irr : Z -> bool) (mf : Z -> list Z -> option (list (list Z * N))) (zfactor : Z -> option (factored ZO)).
Hypothesis IR : accepts_primes is_irr.
Hypothesis MF : mfactor_right mf.
Hypothesis ZF : @factors_right ZO Zffa zfactor.
(* one primitive squarefree polynomial of degree below 2^64 - 1: the search for a prime ends, nothing panics, and the result is a factorisation into
   primes of f or of -f *)
Theorem C68_squarefree_partial (f : list Z) : primitive (ZP f) -> coprimep (ZP f) (ZP f)^`() -> Z.lt (Z.of_nat (size (ZP f))) (Z.of_N W) ->
  exists F0, forall fuel, (F0 <= fuel)%N -> exists r, [/\ bz_sqfree is_irr mf fuel f = Some r, is_factorization (@pffar ZO Zdiv Zffa) r &
    ZP (@expand PZ r) = ZP f \/ ZP (@expand PZ r) = - ZP f].
Proof. move=> Pf Cf HW. have [F0 H] := sqfree_total IR MF Pf Cf HW. exists F0 => fuel /H [r [H1 H2 H3]]. by exists r. Qed.
(* any nonzero integer polynomial of degree below 2^64 - 1 *)
Theorem C68_berlekamp_zassenhaus_partial (f : list Z) : ZP f != 0 -> Z.lt (Z.of_nat (size (ZP f))) (Z.of_N W) ->
  exists F0, forall fuel, (F0 <= fuel)%N -> exists r, [/\ factorize_by_berlekamp_zassenhaus_algorithm is_irr mf zfactor fuel f = Some (Some r),
    is_factorization (@pffar ZO Zdiv Zffa) r & ZP (@expand PZ r) = ZP f \/ ZP (@expand PZ r) = - ZP f].
Proof.
  move=> f0 HW. have [as_ [A1 A2]] := @yun_args Z_idomainType Zdiv Zidom Zffa Zffa_ok Zgcd Zgcd_ok Z_char0 _ (fun u v H => gcdps_PG Zidom Zgcd_ok v H) zfactor (right_FA ZF) f f0.
  have [F0 HF] : exists F0, forall a, List.In a as_ -> forall fuel, (F0 <= fuel)%N -> exists r, [/\ bz_sqfree is_irr mf fuel a = Some r, okf Zdiv Zffa r & ZP (@expand PZ r) = ZP a \/ ZP (@expand PZ r) = - ZP a].
  { elim: as_ A1 {A2} => [|a l IH] A1; first by exists 0%N. have [|F1 H1] := IH; first by move=> b Hb; apply: A1; right.
    have [B1 B2 B3] := A1 a (or_introl erefl). have [|F2 H2] := sqfree_total IR MF B1 B2. { move: B3 HW. change (Poly a) with (ZP a). change (Poly f) with (ZP f). clear. move: (size _) (size _) => x y. lia. }
    exists (maxn F1 F2) => b Hb fuel. rewrite geq_max => /andP[L1 L2]. case: Hb => [<-|Hb]; [exact: H2|exact: H1]. }
  exists F0 => fuel Hfu. have [|r [w [E1 E2 E3 E4]]] := A2 (bz_sqfree is_irr mf fuel).
  { move=> a Ha. have [r [H1 H2 [H3|H3]]] := HF a Ha fuel Hfu; [exists r, 1|exists r, (-1)]; split=> //.
    - by rewrite polyC1 mulr1. - by rewrite polyCN mulrN mulr1 [X in - X]H3 opprK. }
  exists r. rewrite /factorize_by_berlekamp_zassenhaus_algorithm -[ZO]/(mc_ops Z_idomainType) p_is_zeroE (negPf f0). cbn [obind]. split=> //; first by rewrite E1.
  move/Zunits_ok: E3 E4 => [<-|[<-|[]]] E; [left|right]; move: E.
  - by rewrite -[X in X%:P]/(1 : Z_idomainType) mulr1.
  - by move=> <-; rewrite -[X in X%:P]/(- 1 : Z_idomainType) polyCN mulrN mulr1 opprK.
Qed.
Theorem C68_zero (f : list Z) fuel : ZP f = 0 -> factorize_by_berlekamp_zassenhaus_algorithm is_irr mf zfactor fuel f = Some None.
Proof. move=> E. by rewrite /factorize_by_berlekamp_zassenhaus_algorithm -[ZO]/(mc_ops Z_idomainType) p_is_zeroE E eqxx. Qed.
End Whole.
Print Assumptions C68_squarefree_partial. Print Assumptions C68_berlekamp_zassenhaus_partial. Print Assumptions C68_zero.

(* ------------------------------------------------------------------ the hypotheses can be met *)
(* the algorithms of C65 and C66 over 'F_p, transported to integer representatives *)
Definition Fp_coeffs (p : nat) (f : seq 'F_p) : list Z := [seq Z.of_nat (nat_of_ord x) | x <- polyseq (Poly f)].
Definition mf_Fp (z : Z) (f : list Z) : option (list (list Z * N)) :=
  let p := Z.to_nat z in let K := [finFieldType of 'F_p] in let O := mc_ops [idomainType of K] in
  match @factorize_monic O (@Fdiv _) (@Fffa _) [seq zin [ringType of 'F_p] x | x <- f] with
  | Some (Some m) => match @factorize_squarefree_top O (@Fdiv _) (@Fffa _) (N.of_nat #|K|) m with
      | Some s => match @factorize_berlekamps O (@Fdiv _) (@Fffa _) (@Fxgcd _) (enum K) s with
          | Some r => Some [seq (@Fp_coeffs p x.1, x.2) | x <- f_factors r]
          | None => None end
      | None => None end
  | _ => None end.
Lemma zin_coeffs p (f : seq 'F_p) : prime p -> map_poly (zin [ringType of 'F_p]) (ZP (Fp_coeffs f)) = Poly f.
Proof.
  move=> Hp. apply/polyP => i. rewrite coef_map_id0 // /ZP /Fp_coeffs coef_Poly. 
  have [Hi|Hi] := ltnP i (size (Poly f)); first by rewrite (nth_map 0) // zin_nat natr_Zp. by rewrite nth_default ?size_map // nth_default.
Qed.
Lemma map_coeffs p (f : list Z) : prime p -> modp p f = Poly [seq zin [ringType of 'F_p] x | x <- f].
Proof.
  move=> Hp. apply/polyP => i. rewrite coef_map_id0 // !coef_Poly. have [Hi|Hi] := ltnP i (size f); first by rewrite (nth_map (0 : Z_idomainType)). by rewrite !nth_default ?size_map.
Qed.
Theorem C68_modular_factoriser : mfactor_right mf_Fp.
Proof.
  move=> p f Hp Hf. rewrite map_coeffs // in Hf. rewrite /mf_Fp Nat2Z.id.
  have [m [s [r [E1 E2 E3 E4 E5]]]] := C66_Fp_instance Hp (f := [seq zin [ringType of 'F_p] x | x <- f]) (eq_ind_r (fun n => prime n) Hp (C65_hyp Hp)) Hf. rewrite E1 E2 E3.
  have K : [seq (modp p x.1, N.to_nat x.2) | x <- [seq (Fp_coeffs x.1, x.2) | x <- f_factors r]] = FfProps.factor_list (F := [finFieldType of 'F_p]) (f_factors r).
  { rewrite -map_comp. apply: eq_map => x /=. by rewrite /modp zin_coeffs. }
  do 2 eexists. split; [reflexivity| |rewrite K map_coeffs //; exact: E5].
  move=> y /(HenselProofs5.In_mem) /mapP [x Hx ->] /=. have [|M _ _] := irf_irreducible E5 (x := (Poly x.1, N.to_nat x.2)); first by apply/mapP; exists x.
  cbn [fst] in M. rewrite monicE lead_coefE /ZP. have Hs : (0 < size (Poly (x.1 : seq 'F_p)))%N by rewrite size_poly_gt0 monic_neq0.
  have En : nth (0 : Z_idomainType) (Fp_coeffs x.1) (size (Poly (x.1 : seq 'F_p))).-1 = 1.
  { rewrite /Fp_coeffs (nth_map 0) ?prednK // -lead_coefE (monicP M). by rewrite -[nat_of_ord _]/(1 %% (Zp_trunc (prime.pdiv p)).+2)%N modn_small. }
  have Es : size (Poly (Fp_coeffs x.1 : seq Z_idomainType)) = size (Poly (x.1 : seq 'F_p)).
  { apply/eqP. rewrite eqn_leq. apply/andP. split; first by apply: leq_trans (size_Poly _) _; rewrite size_map. rewrite -{1}(prednK Hs). rewrite ltnNge. apply/negP => /leq_sizeP /(_ _ (leqnn _)). by rewrite coef_Poly En. }
  by rewrite Es coef_Poly En.
Qed.
Print Assumptions C68_modular_factoriser.
(* so all the hypotheses of C68_berlekamp_zassenhaus_partial hold together: *)
Corollary C68_instance nf (f : list Z) : nat_factor_right nf -> ZP f != 0 -> Z.lt (Z.of_nat (size (ZP f))) (Z.of_N W) ->
  exists F0, forall fuel, (F0 <= fuel)%N -> exists r, [/\ factorize_by_berlekamp_zassenhaus_algorithm (fun x => prime (Z.to_nat x)) mf_Fp (Zfactor_unwrap nf) fuel f = Some (Some r),
    is_factorization (@pffar ZO Zdiv Zffa) r & ZP (@expand PZ r) = ZP f \/ ZP (@expand PZ r) = - ZP f].
Proof.
  move=> H. apply: C68_berlekamp_zassenhaus_partial; [|exact: C68_modular_factoriser|exact: (proj1 (C22_integer_factor H))]. move=> p Hp. by rewrite Nat2Z.id.
Qed.
(* ------------------------------------------------------------------ the sign of the whole result is wrong *)
(* x (x-1) (x+1) (x-2) (x+2) (x-3), its factorisations modulo 2, 3, 5 and 7, and the trivial factorisation of the content 1 *)
Definition f6 := [:: Z0; Zneg 12; Zpos 4; Zpos 15; Zneg 5; Zneg 3; Zpos 1].
Definition mf6 (p : Z) (_ : list Z) : option (list (list Z * N)) :=
  let x a := [:: Zpos a; Zpos 1] in let x0 := [:: Z0; Zpos 1] in
  if Z.eqb p (Zpos 7) then Some [:: (x0, 1%num); (x 6%positive, 1%num); (x 1%positive, 1%num); (x 5%positive, 1%num); (x 2%positive, 1%num); (x 4%positive, 1%num)]
  else if Z.eqb p (Zpos 5) then Some [:: (x0, 1%num); (x 4%positive, 1%num); (x 1%positive, 1%num); (x 3%positive, 1%num); (x 2%positive, 2%num)]
  else if Z.eqb p (Zpos 3) then Some [:: (x0, 2%num); (x 1%positive, 2%num); (x 2%positive, 2%num)]
  else if Z.eqb p (Zpos 2) then Some [:: (x0, 3%num); (x 1%positive, 3%num)] else None.
Lemma mf6_expands : forallb (fun p => match mf6 p f6 with
  | Some l => @p_equal (ZQ p) f6 (fold_right (fun x acc => @p_mul ZO (@nat_pow PZ x.1 x.2) acc) [:: Zpos 1] l) | None => false end) [:: Zpos 2; Zpos 3; Zpos 5; Zpos 7] = true.
Proof. by vm_compute. Qed.
Definition one_factor (c : Z) : option (factored ZO) := Some (@Factored ZO c nil).
(* The squarefree factoriser is handed -f6 (the gcd of f6 and its derivative comes out as -1), finds the six linear factors and forgets the remaining
   quotient; the result is -1 times the six factors: not f6 but -f6. *)
Theorem C68_refuted : exists r, [/\ factorize_by_berlekamp_zassenhaus_algorithm (fun _ => true) mf6 one_factor 40 f6 = Some (Some r),
  f_unit r = [:: Zneg 1] & [/\ length (f_factors r) = 6%N, @p_equal ZO (@expand PZ r) f6 = false & @p_equal ZO (@expand PZ r) (map Z.opp f6) = true]].
Proof.
  have K (o : option (option (factored PZ))) (P Q : factored PZ -> Prop) : match o with Some (Some r) => P r /\ Q r | _ => False end -> exists r, [/\ o = Some (Some r), P r & Q r].
  { case: o => [[r|]|] // [H1 H2]. by exists r. }
  refine (K (factorize_by_berlekamp_zassenhaus_algorithm (fun _ => true) mf6 one_factor 40 f6) (fun r => f_unit r = [:: Zneg 1]) 
    (fun r => [/\ length (f_factors r) = 6%N, @p_equal ZO (@expand PZ r) f6 = false & @p_equal ZO (@expand PZ r) (map Z.opp f6) = true]) _).
  lazy. split; [reflexivity|split; reflexivity].
Qed.
Print Assumptions C68_refuted.
(* a run with the right sign: 6 f1234 = -2 * 3 * (x - 1)(x - 2)(x - 3)(x - 4) *)
Definition zf6 (_ : Z) : option (factored ZO) := Some (@Factored ZO (Zpos 1) [:: (Zpos 2, 1%num); (Zpos 3, 1%num)]).
Example C68_ex : exists r, [/\ factorize_by_berlekamp_zassenhaus_algorithm (fun _ => true) mf zf6 40 (map (Z.mul (Zpos 6)) f1234) = Some (Some r), length (f_factors r) = 6%N &
  @expand PZ r = map (Z.mul (Zpos 6)) f1234].
Proof.
  have K (o : option (option (factored PZ))) (P Q : factored PZ -> Prop) : match o with Some (Some r) => P r /\ Q r | _ => False end -> exists r, [/\ o = Some (Some r), P r & Q r].
  { case: o => [[r|]|] // [H1 H2]. by exists r. }
  refine (K (factorize_by_berlekamp_zassenhaus_algorithm (fun _ => true) mf zf6 40 (map (Z.mul (Zpos 6)) f1234)) (fun r => length (f_factors r) = 6%N) (fun r => @expand PZ r = map (Z.mul (Zpos 6)) f1234) _). vm_compute. split; reflexivity.
Qed.
