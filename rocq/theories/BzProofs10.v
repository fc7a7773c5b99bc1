(* factor_by_try_all_subsets returns the factorisation. *)
From Coq Require Import List NArith ZArith QArith Bool Sorted.
From mathcomp Require Import all_ssreflect all_algebra.
From mathcomp Require Import zify.
From Coq Require Import Lia.
From Verif Require HenselProofs5.
From Verif Require Import SetsModel SetsSpec SetsProofs1 SetsProofs2.
From Verif Require Import RingSpec RingModel RingProofs RingProofs2 FactoredSpec FactoredModel FactoredProofs PermModel MatModel MatSpec ZRing MatInst PolyModel PolySpec PolyProofs PolyProofs2 PolyProofs3 PolyProofs11 PolyProofs12 PolyProps PolyProps3 FacModel FacProofs FacProofs2 FacProofs3 FacProofs4 HenselSpec HenselModel HenselProofs HenselProofs2 BoundModel BoundProofs BoundProofs2 BoundProps BzModel BzProofs1 BzProofs2 BzProofs3 BzProofs5 BzProofs6 BzProofs7 BzProofs8 BzProofs9.
Close Scope rs_scope. Close Scope Q_scope.
Set Implicit Arguments.
Unset Strict Implicit.
Unset Printing Implicit Defensive.
Import GRing.Theory.
Local Open Scope ring_scope.

Lemma Zdv1 (w : ZR) : dv w 1 -> w = 1 \/ w = -1.
Proof. case=> q E. have {}E : Z.mul q w = Zpos 1 by exact: esym E. have : Z.divide w (Zpos 1) by exists q. case/Z.divide_1_r => ->; [left|right]; reflexivity. Qed.
Lemma prim_const (A : {poly ZR}) : prim A -> (size A <= 1)%N -> A = 1 \/ A = -1.
Proof.
  move=> HA /size1_polyC E. move: (A`_0) E => c E. have : dv c 1. { apply: HA => i. rewrite E coefC. case: (i == 0%N); [exists 1; by rewrite mul1r|exists 0; by rewrite mul0r]. }
  move/Zdv1 => [Z|Z]; rewrite E Z; [by left|right]. by rewrite polyCN.
Qed.
Section Loop.
Variables (f : list Z) (gs : list (list Z)) (pn t : nat).
Hypothesis LI : lifted f gs pn t.
Notation K := [fieldType of 'F_pn].
Notation phi := (zin_rmorph K).
Notation G := (ZPs gs).
Notation F0 := (ZP f).
Notation L := (lead_coef F0).
Notation M := (Z.pow (Z.of_nat pn) (Z.of_nat t)).
Notation rset := (@rset ZR K phi G).
Notation n := (size gs).
Hypothesis HW : Z.lt (Z.of_nat (size F0)) (Z.of_N W).
Hypothesis PR : prim F0.
Hypothesis S0 : (1 < size F0)%N.
Variable b : N.
Hypothesis MB : mignotte_factor_coefficient_bound f = Some (Some b).
Hypothesis Hb : Z.le (Z.mul 2 (Z.of_N b)) M.
Variable beta : Q.
Hypothesis EB : cauchys_root_bound f = Some (Some beta).
Variables (cf dg : nat).
Hypothesis Hcf : forall k, (length (subsets n k) + 2 <= cf)%coq_nat.
Notation S := (AtPrime f L dg M gs).
Notation vals := (map (dmv M L) gs).
Notation dmb := (dm_bound M L beta).
Notation good := (@good f gs pn t).
Lemma n_pos : (0 < n)%N.
Proof. have := rset_nonconst (Lp LI) (Lp LI) (fE LI) (Irr LI) (Cop LI) (mulr1 F0). rewrite (rset_f (Lp LI) (fE LI)) S0 size_map. by case: (size gs). Qed.
Lemma m_le k st : good k st -> (bz_m st <= n)%N.
Proof. move=> [_ _ _ _ -> _ _ _]. have -> : n = size (iota 0 n) by rewrite size_iota. apply: uniq_leq_size; first exact: rset_uniq. move=> i. rewrite mem_rset size_map mem_iota => /andP []. by []. Qed.
Lemma loop_ok : forall fuel k st, (0 < k)%N -> good k st -> (0 < fuel)%coq_nat -> (Nat.div n 2 + 1 < fuel + k)%coq_nat -> exists st' k', [/\ bz_loop cf S dmb vals fuel k st = Some st', good k' st' & (Nat.div (bz_m st') 2 < k')%coq_nat].
Proof.
  elim=> [|fuel IH] k st k0 HG Hf0 Hfu; first lia. have Hml := m_le HG. have Hd : (Nat.div (bz_m st) 2 <= Nat.div n 2)%coq_nat by apply: Nat.div_le_mono => //; apply/ssrnat.leP.
  cbn [bz_loop]. case: Nat.leb_spec => Hk; last by exists st, k.
  have Hk2 : (2 * k <= bz_m st)%coq_nat. { have := Nat.mul_div_le (bz_m st) 2. lia. }
  have kn : (k < n)%N by lia. rewrite [ap_factors _]/= -/(size gs). have n0 := n_pos.
  have [I0 P0] := @comb_new_inv n k (elimT ssrnat.ltP kn).
  set h := Nat.eqb (2 * k) (bz_m st).
  have [c1 [L1 [E1 I1 P1 H1 Hl1]]] : exists c1 L1, [/\ (if h then comb_exclude cf (n - 1) (comb_new n k) else Some (comb_new n k)) = Some c1, Inv n k c1, Pend k c1 L1, (forall s, List.In s L1 <-> is_k_subset n k s /\ (h -> ~ List.In (n - 1)%N s)) & (length L1 + 2 <= cf)%coq_nat].
  { case: (h).
    - have [|c1 [E1 [I1 P1]]] := @exclude_refines n k (comb_new n k) (subsets n k) (n - 1)%N cf _ I0 P0 (Hcf k); first lia. exists c1, (List.filter (avoids (n - 1)%N) (subsets n k)). split=> //.
      + move=> s. rewrite filter_In /subsets subsets_in. split=> [[A /avoids_spec B]|[A B]]; split=> //. apply/avoids_spec. exact: B.
      + have := Hcf k. have : (length (List.filter (avoids (n - 1)) (subsets n k)) <= length (subsets n k))%coq_nat by elim: (subsets n k) => [|x y IHl] //=; case: avoids => /=; lia. lia.
    - exists (comb_new n k), (subsets n k). split=> //. move=> s. rewrite /subsets subsets_in. by split=> [|[]]. }
  have -> : (if (k + (k + 0) =? bz_m st)%coq_nat then comb_exclude cf (length gs - 1) (comb_new (length gs) k) else Some (comb_new (length gs) k)) = Some c1 by exact: E1.
  cbn [obind]. case: (HG) => G1 G2 G3 G3' G4 G5 G6 G7.
  have [c2 [L2 [E2 I2 P2 H2 Hl2]]] := exclude_all_ok f pn t b G3' I1 P1 Hl1. rewrite E2. cbn [obind].
  have [||||||||| st' [E3 HG']] := @round_ok f gs pn t LI HW PR b MB Hb beta EB cf dg h (n - 1)%N k k0 kn (length L2) L2 c2 st cf => //.
  - move=> s /H2 [/H1 [A1 A2] A3]. split=> // i Hi. have [[_ _ A4] _] := sub_gs k0 A1. rewrite G3; last exact: A4. apply/negP => Hi2. apply: (A3 i); exact/HenselProofs5.In_mem.
  - move=> s B1 B2 B3 B4. left. apply/H2. split.
    + apply/H1. split; last by move=> /B4 /negP B5 /HenselProofs5.In_mem. split; [by rewrite lengthE|split; first exact/sorted_SS]. apply/Forall_forall => i /HenselProofs5.In_mem /B3. rewrite mem_rset size_map => /andP [/ssrnat.ltP]. by [].
    + move=> i /HenselProofs5.In_mem Hi /HenselProofs5.In_mem /B3 Hi2. move: Hi2 (Hi2). rewrite {1}mem_rset size_map => /andP [Hi3 _]. by rewrite G3 // Hi.
  - rewrite -G4 /h => /Nat.eqb_eq E. left. rewrite -E. lia.
  - lia. - lia.
  - rewrite E3. cbn [obind]. have [|||| st'' [k'' [E4 HG'' Hx]]] := IH (k + 1)%coq_nat st'; [lia|by rewrite plusE addn1|lia|lia|]. by exists st'', k''.
Qed.
Lemma start_ok : good 1 (BzState (factored_one (R := PZ)) [::] f n [::] [::]).
Proof.
  have [O1 X1] : okf Zdiv Zffa (factored_one (R := PZ)) /\ zex (factored_one (R := PZ)) = 1.
  { split; last first. { have E : @expand PZ (factored_one (R := PZ)) = [:: Zpos 1] by vm_compute. rewrite E. exact: (@Poly1 ZR). } split; [|by split; constructor|by constructor]. exists (@r1 PZ). by vm_compute. }
  split=> //; cbn [bz_f bz_factored bz_excluded bz_m bz_dmem bz_pmem].
  - by rewrite X1 mulr1.
  - move=> i Hi. by rewrite (rset_f (Lp LI) (fE LI)) size_map mem_iota Hi.
  - by rewrite (rset_f (Lp LI) (fE LI)) size_iota size_map.
  - by exists [::]. - by exists [::].
  - exact: (J1 (Lp LI) (Lp LI) (fE LI) (Irr LI) (Cop LI) (mulr1 F0)).
Qed.
Lemma search_ok : exists r, [/\ factor_by_try_all_subsets cf S = Some r, okf Zdiv Zffa r & zex r = F0 \/ zex r = - F0].
Proof.
  rewrite /factor_by_try_all_subsets [ap_modulus _]/= [ap_poly _]/= [ap_factors _]/=.
  have [|beta' [EB' Edm]] := @dm_new_ok M f gs (M0 LI) S0. { move=> g /(nthP [::]) [i Hi <-]. by have [] := mon_gt LI Hi. }
  have {EB'}Ebb : beta' = beta by move: EB'; rewrite EB => -[]. rewrite Edm Ebb. cbn [obind fst snd].
  have [||st [k [E1 HG Hk]]] := loop_ok (fuel := (length gs + 1)%coq_nat) (ltn0Sn 0) start_ok. { lia. } { have := Nat.div_le_upper_bound (length gs) 2 (length gs). rewrite lengthE. lia. }
  rewrite E1. cbn [obind]. case: HG => G1 G2 G3 G3' G4 G5 G6 G7. have Pf : prim (ZP (bz_f st)) by apply: (prim_dv PR) G2.
  case: Nat.ltb_spec => Hm.
  - have Hir : irrp (ZP (bz_f st)). { apply: (exit_irr (k := k) (Lp LI) (Lp LI) (fE LI) (Irr LI) (Cop LI) G2 G7). - have := Nat.div_mod (bz_m st) 2. have := Nat.mod_upper_bound (bz_m st) 2. rewrite -G4. lia. - move: Hm. rewrite G4. case: (rset _) => //=. lia. }
    have [O2 X2] := Zirr_fact Pf Hir. have [O3 X3] := ex_mul Zidom Zffa_ok G1 O2. eexists. split; [reflexivity|exact: O3|]. left. by rewrite X3 X2 mulrC.
  - exists (bz_factored st). split=> //. have /size0nil Z : size (rset (ZP (bz_f st))) = 0%N by rewrite -G4; lia.
    have := prim_const Pf (exit_unit (Lp LI) (Lp LI) (fE LI) (Irr LI) (Cop LI) G2 Z). move: G2 => <-. case=> ->; [left|right]; by rewrite ?mul1r ?mulN1r ?opprK.
Qed.
End Loop.
