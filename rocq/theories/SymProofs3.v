(* Symmetric polynomials: the symmetry test. *)
From Coq Require Import List Arith NArith Bool.
From mathcomp Require Import all_ssreflect all_algebra all_fingroup.
From mathcomp Require Import zify.
From Coq Require Import Lia.
From Verif Require Import RingSpec RingModel PermModel MatModel MatSpec PolyModel PolyProofs PolyProofs2 PolyHom SetsModel SetsProps MpModel FinSupp MpRing MpRing2 MpRing3 MpRing4 MpProofs MpProofs2 MpSpec MpProofs3 MpProps MpProps2 MpProps3 SymModel SymRing SymProofs SymProofs2.
Close Scope rs_scope.
Set Implicit Arguments. Unset Strict Implicit. Unset Printing Implicit Defensive.
Import GRing.Theory.
Local Open Scope ring_scope.

Section Test.
Variable R : comRingType.
Notation O := (mc_ops R).
Notation K := (mpoly R predT).
Notation tm := (seq (mon * R)).
Notation X := (kvar R predT).
Notation V := (ofl predT).
Implicit Types (p q : tm) (x y : K).
Lemma nth_errorE (A : Type) (d : A) (l : seq A) i : List.nth_error l i = if (i < size l)%N then Some (nth d l i) else None.
Proof. elim: l i => [|a l IH] [|i] //=. by rewrite IH. Qed.
Lemma mapM_in (A : eqType) (B : Type) (f : A -> option B) (g : A -> B) (l : seq A) : (forall a, a \in l -> f a = Some (g a)) -> mapM f l = Some (map g l).
Proof. elim: l => //= a l IH H. rewrite H ?mem_head //= IH // => b Hb. apply: H. by rewrite inE Hb orbT. Qed.
Lemma perm_pairsE (vars pm : seq nat) : size pm = size vars -> all (fun j => j < size vars)%N pm ->
  perm_pairs vars pm = Some [seq (nth 0%N vars i, nth 0%N vars (nth 0%N pm i)) | i <- iota 0 (size vars)].
Proof.
  move=> S A. rewrite /perm_pairs. have C i0 (l : seq nat) : List.combine (List.seq i0 (length l)) l = [seq (i, nth 0%N l (i - i0)) | i <- iota i0 (size l)].
  { elim: l i0 => //= a l IH i0. rewrite IH subnn /=. congr cons. apply/eq_in_map => i. rewrite mem_iota => /andP[Hi _]. by rewrite -[(i - i0)%N]prednK ?subn_gt0 //= subnS. }
  rewrite C S mapM_map. apply: mapM_in => i. rewrite mem_iota /= add0n subn0 => Hi. rewrite !(nth_errorE 0%N) Hi /=. have -> : (nth 0%N pm i < size vars)%N by apply: (allP A); rewrite mem_nth ?S. by [].
Qed.
Section P.
Variables (vars : seq nat) (p : tm).
Hypothesis U : uniq vars.
Hypothesis W : wf p.
Hypothesis Oc : forall v, occurs v p -> v \in vars.
Lemma V_in : varsin (fun v => v \in vars) (V p : K).
Proof.
  rewrite okm_all mvV //. have : all (fun t => okm (fun v => v \in vars) t.1) p. { apply/allP => t Ht. rewrite /okm (allP (wf_mcan W) t Ht) /=. apply/allP => z Hz. apply: Oc. apply/hasP. exists t => //. apply/hasP. by exists z. }
  by move=> H; case/andP: (valid_nf H).
Qed.
Lemma perm_step pm : size pm = size vars -> all (fun j => j < size vars)%N pm -> uniq pm ->
  exists h, (forall i, (i < size vars)%N -> h (nth 0%N vars i) = nth 0%N vars (nth 0%N pm i)) /\ perm_eq [seq h v | v <- vars] vars /\
  (do prs <- perm_pairs vars pm; do q <- mp_apply_map_vars (lookup_last prs) p; Some (@mp_equal O p q)) = Some ((V p : K) == ren h (V p)).
Proof.
  move=> S A Up. rewrite perm_pairsE //=. pose h v := nth 0%N vars (nth 0%N pm (index v vars)). exists h.
  have hn i : (i < size vars)%N -> h (nth 0%N vars i) = nth 0%N vars (nth 0%N pm i) by move=> Hi; rewrite /h index_uniq.
  have Am i : (i < size vars)%N -> (nth 0%N pm i < size vars)%N by move=> Hi; apply: (allP A); rewrite mem_nth ?S.
  have inj : {in vars &, injective h}.
  { move=> a b Ha Hb. have Ia : (index a vars < size vars)%N by rewrite index_mem. have Ib : (index b vars < size vars)%N by rewrite index_mem. rewrite /h => /eqP. rewrite nth_uniq ?Am // nth_uniq ?S // => /eqP E. by rewrite -(nth_index 0%N Ha) E nth_index. }
  have Pm : perm_eq [seq h v | v <- vars] vars.
  { apply: uniq_perm => //; first by rewrite map_inj_in_uniq. have Uh : uniq [seq h v | v <- vars] by rewrite map_inj_in_uniq. have Sb : {subset [seq h v | v <- vars] <= vars} by move=> v /mapP[u Hu ->]; rewrite /h mem_nth // Am // index_mem. have [] := uniq_min_size Uh Sb; by rewrite ?size_map. }
  split=> //. split=> //. set prs := [seq _ | i <- _].
  have Lk v : v \in vars -> lookup_last prs v = Some (h v).
  { move=> Hv. rewrite lookup_lastE; last first. { rewrite /prs -map_comp (_ : [seq _ | i <- _] = vars) //. rewrite -[RHS](mkseq_nth 0%N). by []. }
    rewrite /h. have Hi : (index v vars < size vars)%N by rewrite index_mem. rewrite /prs.
    have G (l : seq nat) : index v vars \in l -> all (fun i => i < size vars)%N l -> List.find (fun z : nat * nat => Nat.eqb z.1 v) [seq (nth 0%N vars i, nth 0%N vars (nth 0%N pm i)) | i <- l] = Some (v, nth 0%N vars (nth 0%N pm (index v vars))).
    { elim: l => //= i l IH Hm /andP[Hi' Al]. rewrite eqbE. have [E|N] := eqVneq (nth 0%N vars i) v; first by rewrite -E index_uniq. apply: IH => //. move: Hm. rewrite inE => /orP[/eqP E|] //. case/negP: N. by rewrite -E nth_index. }
    rewrite G //; first by rewrite mem_iota. by apply/allP => i; rewrite mem_iota. }
  have := (C29_apply_map_vars (lookup_last prs) W).2 h (fun v Hv => Lk v (Oc Hv)). case: mp_apply_map_vars => //= q [Eq Wq].
  have {}Wq : wf q by apply: Wq => a b Ha Hb; apply: inj; apply: Oc. rewrite V_equal //. congr (Some (_ == _)).
  rewrite -[LHS]sub_id. rewrite /ren /sub !V_ev //. exact: Eq.
Qed.
Lemma symm_of h : (forall x, symm vars x -> ren h x = x) -> symm vars (V p : K) -> ren h (V p : K) = V p. Proof. by move=> H1 H2; apply: H1. Qed.
Lemma occ_false : @is_symmetric O vars p = if all (fun v => v \in vars) (mp_free_vars p) then forallM (fun pm => do prs <- perm_pairs vars pm; do q <- mp_apply_map_vars (lookup_last prs) p; Some (@mp_equal O p q)) (sym_gens (size vars)) else Some false.
Proof.
  rewrite /is_symmetric. have E : List.forallb (fun v => List.existsb (Nat.eqb v) vars) (mp_free_vars p) = all (fun v => v \in vars) (mp_free_vars p).
  { rewrite forallbE. apply: eq_all => v. elim: (vars) => //= a l ->. by rewrite eqbE inE. }
  by rewrite E; case: all.
Qed.
End P.
Lemma swap01E n : swap01 n.+2 = [:: 1, 0 & iota 2 n]%N.
Proof. rewrite /swap01 seqE mapE /=. congr [:: _, _ & _]. rewrite -[RHS]map_id. apply/eq_in_map => i. rewrite mem_iota. by case: i => [|[|i]]. Qed.
Lemma cycle_permE n : cycle_perm n.+1 = rcons (iota 1 n) 0%N.
Proof.
  rewrite /cycle_perm seqE mapE -[in iota 0 _]addn1 iotaD map_cat [iota _ 1]/= [map _ [:: _]]/map cats1 add0n. have -> : ((Nat.add n 1) mod n.+1)%coq_nat = 0%N by rewrite Nat.add_1_r Nat.mod_same. congr rcons.
  rewrite -[in RHS](addn0 1%N) iotaDl. apply/eq_in_map => i. rewrite mem_iota => /andP[_ H]. rewrite Nat.mod_small; [lia|lia].
Qed.
Lemma nth_cycle n i : (i < n.+1)%N -> nth 0%N (cycle_perm n.+1) i = (if i == n then 0 else i.+1)%N.
Proof. move=> H. rewrite cycle_permE nth_rcons size_iota. case: eqP => [->|N]; first by rewrite ltnn. have -> : (i < n)%N by lia. by rewrite nth_iota ?add1n //; lia. Qed.
Lemma nth_swap n i : (i < n.+2)%N -> nth 0%N (swap01 n.+2) i = (if i is 0 then 1 else if i is 1 then 0 else i)%N.
Proof. move=> H. rewrite swap01E. case: i H => [|[|i]] //= H. by rewrite nth_iota. Qed.
Lemma is_symmetricE vars p : uniq vars -> wf p -> exists2 b, @is_symmetric O vars p = Some b & b <-> (forall v, occurs v p -> v \in vars) /\ symm vars (V p : K).
Proof.
  move=> U W. rewrite occ_false. case: ifP => [A|/negP N]; last first.
  { exists false => //. split=> // -[Oc _]. case: N. apply/allP => v. rewrite free_varsE. exact: Oc. }
  have Oc v : occurs v p -> v \in vars by rewrite -free_varsE => /(allP A).
  have Vi := V_in W Oc.
  have sw n : size vars = n.+2 -> size (swap01 n.+2) = size vars /\ all (fun j => j < size vars)%N (swap01 n.+2) /\ uniq (swap01 n.+2).
  { move=> ->. rewrite swap01E. split; first by rewrite /= size_iota. split. - rewrite /=. apply/allP => j. rewrite mem_iota. lia. - rewrite /= !inE !mem_iota iota_uniq. by []. }
  have cy n : size vars = n.+1 -> size (cycle_perm n.+1) = size vars /\ all (fun j => j < size vars)%N (cycle_perm n.+1) /\ uniq (cycle_perm n.+1).
  { move=> ->. rewrite cycle_permE. split; first by rewrite size_rcons size_iota. split. - rewrite all_rcons. apply/andP. split=> //. apply/allP => j. rewrite mem_iota. lia. - by rewrite rcons_uniq mem_iota iota_uniq. }
  case Sz: (size vars) => [|[|n]].
  - exists true => //. split=> // _. split=> //. apply: sym_small => //. by rewrite Sz.
  - rewrite /sym_gens /=. have [|||h [_ [Pm E]]] := @perm_step vars p U W Oc [:: 0%N]; rewrite ?Sz //. 
    have S0 : symm vars (V p : K) by apply: sym_small => //; rewrite Sz.
    rewrite E. exists true => //=. by rewrite (S0.2 h Pm) eqxx.
  - case: (sw n Sz) => S1 [S2 S3]. case: (cy n.+1 Sz) => T1 [T2 T3].
    have [h1 [H1 [P1 E1]]] := @perm_step vars p U W Oc _ S1 S2 S3. have [h2 [H2 [P2 E2]]] := @perm_step vars p U W Oc _ T1 T2 T3.
    have G1 i : (i < n.+2)%N -> h1 (nth 0%N vars i) = nth 0%N vars (if i is 0 then 1 else if i is 1 then 0 else i)%N by move=> Hi; rewrite H1 ?Sz // nth_swap.
    have G2 i : (i < n.+2)%N -> h2 (nth 0%N vars i) = nth 0%N vars (if i == n.+1 then 0 else i.+1)%N by move=> Hi; rewrite H2 ?Sz // nth_cycle.
    have Fin b : (b <-> ren h1 (V p : K) = V p /\ ren h2 (V p : K) = V p) -> (b <-> (forall v, occurs v p -> v \in vars) /\ symm vars (V p : K)).
    { move=> ->. split=> [[Q1 Q2]|[_ [_ S]]]; last by split; apply: S. split=> //. exact: (sym_gen Sz U Vi G1 G2 Q1 Q2). }
    case: n Sz S1 S2 S3 T1 T2 T3 H1 H2 E1 E2 G1 G2 Fin => [|n] Sz S1 S2 S3 T1 T2 T3 H1 H2 E1 E2 G1 G2 Fin.
    + rewrite /sym_gens /forallM E1 /=. exists ((V p : K) == ren h1 (V p)); first by case: eqP. apply: Fin. have E : ren h2 (V p : K) = ren h1 (V p).
      { apply: ren_eq Vi _ => v Hv. have Hi : (index v vars < 2)%N by rewrite -Sz index_mem. rewrite -(nth_index 0%N Hv) G1 // G2 //. by case: (index v vars) Hi => [|[|i]]. }
      rewrite E. split=> [/eqP <- //|[-> _]]. exact: eqxx.
    + rewrite /sym_gens [forallM _ _]/= E1 E2 /=. exists (((V p : K) == ren h1 (V p)) && ((V p : K) == ren h2 (V p))); first by case: eqP => //= _; case: eqP. apply: Fin. 
      split=> [/andP[/eqP Q1 /eqP Q2]|[-> ->]]; last by rewrite !eqxx. by split; symmetry.
Qed.
End Test.
