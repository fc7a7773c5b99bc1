(* Symmetric polynomials: homogeneous parts, divisibility by the product of the variables. *)
From Coq Require Import List Arith NArith Bool.
From mathcomp Require Import all_ssreflect all_algebra all_fingroup.
From mathcomp Require Import zify.
From Coq Require Import Lia.
From Verif Require Import RingSpec RingModel PermModel MatModel MatSpec PolyModel PolyProofs PolyProofs2 PolyHom SetsModel SetsProps MpModel FinSupp MpRing MpRing2 MpRing3 MpRing4 MpProofs MpProofs2 MpSpec MpProofs3 MpProps MpProps2 MpProps3 SymModel SymRing SymProofs SymProofs2 SymProofs3.
Close Scope rs_scope.
Set Implicit Arguments. Unset Strict Implicit. Unset Printing Implicit Defensive.
Import GRing.Theory.
Local Open Scope ring_scope.

Section Hg.
Variable R : comRingType.
Notation K := (mpoly R predT).
Notation tm := (seq (mon * R)).
Notation X := (kvar R predT).
Notation V := (ofl predT).
Notation w1 := (fun _ : nat => 1%N).
Implicit Types (p q : tm).
Lemma wt1 m : wt w1 m = total_degree m. Proof. apply: eq_bigr => z _. by rewrite mul1n. Qed.
(* all terms of degree d *)
Definition hg (d : nat) (x : K) : Prop := forall m, cf x m != 0 -> wt w1 m = d.
Lemma hgD d (x y : K) : hg d x -> hg d y -> hg d (x + y).
Proof. move=> Hx Hy m. rewrite cfD. have [->|N] := eqVneq (cf x m) 0; first by rewrite add0r; apply: Hy. by move=> _; apply: Hx. Qed.
Lemma hg0 d : hg d 0. Proof. move=> m. by rewrite cf0 eqxx. Qed.
Lemma hg_sum (I : Type) (l : seq I) (P : pred I) (F : I -> K) d : (forall i, P i -> hg d (F i)) -> hg d (\sum_(i <- l | P i) F i).
Proof. move=> H. apply: big_ind => //; [exact: hg0|exact: hgD]. Qed.
Lemma hgC c : hg 0 (kconst predT c : K).
Proof. move=> m. rewrite cfC [_ == m]eq_sym. case: (m =P [::]) => [->|]; last by rewrite ?eqxx. by rewrite /wt big_nil. Qed.
Lemma hgM a b (x y : K) : hg a x -> hg b y -> hg (a + b) (x * y).
Proof.
  move=> Hx Hy m. rewrite cfM => N. have : has (fun s => has (fun t => mm s.1 t.1 == m) (y : tm)) (x : tm).
  { apply: contraR N => /hasPn H. rewrite big1_seq // => s /andP[_ Hs]. rewrite big1_seq // => t /andP[_ Ht]. have /hasPn/(_ _ Ht) := H s Hs. by case: eqP. }
  have C (z : K) t : t \in (z : tm) -> cf z t.1 != 0. { move=> Ht. have /and3P[U _ Z] := mv_can z. rewrite (coef_uniq _ U Ht). exact: (allP Z). }
  case/hasP => s Hs /hasP[t Ht /eqP <-]. rewrite wt_mm. by rewrite (Hx _ (C _ _ Hs)) (Hy _ (C _ _ Ht)).
Qed.
Lemma hgX v : hg 1 (X v).
Proof. move=> m. rewrite cf_km ?ok_vmon //. case: (vmon v 1 =P m) => [<-|]; last by rewrite eqxx. by rewrite /wt /vmon /= big_seq1. Qed.
Lemma hg_exp d (x : K) k : hg d x -> hg (d * k) (x ^+ k).
Proof. move=> H. elim: k => [|k IH]; first by rewrite expr0 muln0; apply: (@hgC 1). rewrite exprS mulnS. exact: hgM. Qed.
Lemma hg_sub d th (x : K) : (forall v, hg 1 (th v)) -> hg d x -> hg d (sub th x).
Proof.
  move=> Ht Hx. rewrite /sub /evk /evl big_seq. apply: hg_sum => t Hin. have N : cf x t.1 != 0. { have /and3P[U _ Z] := mv_can x. rewrite (coef_uniq _ U Hin). exact: (allP Z). }
  rewrite -(Hx _ N). rewrite -[wt _ _]add0n. apply: hgM; first exact: hgC. rewrite /mev /wt. elim: (t.1) => [|z m IH]; first by rewrite !big_nil; apply: (@hgC 1). rewrite !big_cons. apply: hgM => //. exact: hg_exp.
Qed.
Lemma hg_uniq (l : seq nat) (F G : nat -> K) : uniq l -> (forall d, hg d (F d)) -> (forall d, hg d (G d)) -> \sum_(d <- l) F d = \sum_(d <- l) G d -> forall d, d \in l -> F d = G d.
Proof.
  move=> U HF HG E d Hd. apply: mp_ext => m.
  have cs (H : nat -> K) : cf (\sum_(d <- l) H d : K) m = \sum_(d <- l) cf (H d) m by elim: (l) => [|a b IH]; rewrite ?big_nil ?cf0 // !big_cons cfD IH.
  have S (H : nat -> K) : (forall d, hg d (H d)) -> cf (H d) m = if wt w1 m == d then cf (\sum_(d <- l) H d : K) m else 0.
  { move=> HH. case: eqP => [Ed|N]; last by apply/eqP; apply/negPn/negP => /HH. rewrite cs (big_rem d) //= big1_seq ?addr0 // => i /andP[_ Hi]. apply/eqP/negPn/negP => /HH Ei. move: Hi. by rewrite rem_filter // mem_filter /= -Ei Ed eqxx. }
  by rewrite (S F HF) (S G HG) E.
Qed.
(* the components of a symmetric polynomial are symmetric *)
Lemma parts_symm vs (h : seq (nat * tm)) (x : K) : uniq [seq z.1 | z <- h] -> (forall z, z \in h -> wf z.2 /\ all (fun t => total_degree t.1 == z.1) z.2 /\ forall v, occurs v z.2 -> v \in vs) ->
  x = \sum_(z <- h) V z.2 -> symm vs x -> forall z, z \in h -> symm vs (V z.2 : K).
Proof.
  move=> U Hh Ex [_ S] z Hz. split; first by case: (Hh z Hz) => W [_ Oc]; apply: V_in. move=> g Pg.
  pose at_ d := (nth (d, [::]) h (index d [seq y.1 | y <- h])).2. have at_in y : y \in h -> at_ y.1 = y.2.
  { move=> Hy. rewrite /at_. have Hi : (index y h < size h)%N by rewrite index_mem. have -> : index y.1 [seq y0.1 | y0 <- h] = index y h. { rewrite -[in LHS](nth_index (0%N, [::]) Hy) -(nth_map _ 0%N (fun u : nat * tm => u.1)) // index_uniq ?size_map //. } by rewrite nth_index. }
  have hgV y : y \in h -> hg y.1 (V y.2 : K).
  { move=> Hy m. have [W [A _]] := Hh y Hy. rewrite cf_ofl; last exact/okmT/wf_mcan. move=> N. rewrite wt1. have : m \in [seq t.1 | t <- y.2]. { apply: contraR N => H. rewrite /coef big1_seq // => t /andP[/eqP Et Ht]. case/negP: H. apply/mapP. by exists t. } case/mapP => t Ht ->. by apply/eqP; apply: (allP A). }
  pose F d : K := if d \in [seq y.1 | y <- h] then V (at_ d) else 0.
  have HF d : hg d (F d). { rewrite /F. case: ifP => [/mapP[y Hy ->]|_]; last exact: hg0. rewrite at_in //. exact: hgV. }
  have SF : x = \sum_(d <- [seq y.1 | y <- h]) F d. { rewrite Ex big_map. apply: eq_big_seq => y Hy. by rewrite /F map_f // at_in. }
  have E : ren g (F z.1) = F z.1.
  { apply: (@hg_uniq [seq y.1 | y <- h] (fun d => ren g (F d)) F U _ HF _ z.1 (map_f _ Hz)) => [d|]; first by apply: hg_sub => // v; apply: hgX. rewrite -SF -[RHS](S g Pg) [in RHS]SF. by rewrite [in RHS](rmorph_sum (@ren_rmorphism R g)). }
  move: E. by rewrite /F map_f // at_in.
Qed.
End Hg.
Section Idom.
Variable R : idomainType.
Notation K := (mpoly R predT).
Notation X := (kvar R predT).
Implicit Types (x y : K).
Lemma X_neq0 v : X v != 0.
Proof. apply/negP => /eqP E. have H : cf (X v) (vmon v 1) = 1 by rewrite cf_km ?ok_vmon // eqxx. move: H. rewrite E cf0 => /esym/eqP. by rewrite oner_eq0. Qed.
Lemma zrX v u : zr v (X u) = if u == v then 0 else X u. Proof. exact: subX. Qed.
Lemma zr_prod (vs : seq nat) x : uniq vs -> (forall v, v \in vs -> zr v x = 0) -> exists y, x = (\prod_(v <- vs) X v) * y.
Proof.
  elim: vs x => [|a vs IH] x /=; first by move=> _ _; exists x; rewrite big_nil mul1r. case/andP => Na U H. have [y E] := zr_div (H a (mem_head _ _)).
  case: (IH y U) => [v Hv|z Ez]; last by exists z; rewrite big_cons E Ez mulrA.
  have := H v _. rewrite inE Hv orbT => /(_ isT). rewrite E /zr (rmorphM (@sub_rmorphism R _)) /= -/(zr v _) zrX. case: eqP => [Ev|_]; first by case/negP: Na; rewrite Ev. move=> /eqP. rewrite mulf_eq0 (negbTE (X_neq0 a)) /=. by move/eqP.
Qed.
Lemma prod_neq0 (vs : seq nat) : \prod_(v <- vs) X v != 0. Proof. rewrite prodf_seq_neq0. apply/allP => v _. exact: X_neq0. Qed.
Lemma zr_symm vs l v x : l \in vs -> v \in vs -> uniq vs -> symm vs x -> zr l x = 0 -> zr v x = 0.
Proof.
  move=> Hl Hv U [Vx S] Z. pose g u := if u == l then v else if u == v then l else u.
  have gi u : (g u == v) = (u == l). { rewrite /g. have [_|N1] := eqVneq u l; first by rewrite eqxx. have [Euv|N2] := eqVneq u v; [|by apply/negbTE]. by apply/negbTE; rewrite eq_sym -Euv. }
  have gg u : g (g u) = u. { rewrite /g. have [->|N1] := eqVneq u l; first by rewrite eqxx; case: (v =P l). have [->|N2] := eqVneq u v; first by rewrite eqxx. by rewrite (negbTE N1) (negbTE N2). }
  have Pg : perm_eq [seq g u | u <- vs] vs. { apply: uniq_perm => //; first by rewrite map_inj_uniq //; apply: can_inj gg. have gin u : u \in vs -> g u \in vs by rewrite /g; case: eqP => // _; case: eqP. move=> u. apply/mapP/idP => [[t Ht ->]|Hu]; [exact: gin|]. exists (g u); rewrite ?gg //. exact: gin. }
  rewrite -(S g Pg) /zr /ren sub_sub. have : ren g (zr l x) = 0 by rewrite Z /ren (rmorph0 (@sub_rmorphism R _)). rewrite /zr /ren sub_sub => Z2. rewrite -[RHS]Z2. apply: (@sub_eq _ predT) => [|u _]; first by apply/allP => t _; apply/allP.
  rewrite subX gi. case: ifP => _; by rewrite ?subX ?(rmorph0 (@sub_rmorphism R _)).
Qed.
Lemma dle_prod (vs : seq nat) x d : wle (fun _ => 1%N) ((\prod_(v <- vs) X v) * x) d -> x = 0 \/ (size vs <= d)%N /\ wle (fun _ => 1%N) x (d - size vs).
Proof.
  elim: vs d => [|a vs IH] d; first by rewrite big_nil mul1r subn0; right. rewrite big_cons -mulrA => /wle_varM[/eqP|[H1 H2]].
  - rewrite mulf_eq0 (negbTE (prod_neq0 vs)) /= => /eqP ->. by left.
  - case: (IH _ H2) => [->|[H3 H4]]; [by left|right]. rewrite /= . split; first lia. by rewrite -[(size vs).+1]add1n subnDA.
Qed.
End Idom.
