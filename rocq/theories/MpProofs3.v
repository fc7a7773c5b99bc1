(* The words of MpSpec in terms of the ring, and the remaining functions. *)
From Coq Require Import List Arith NArith Bool.
From mathcomp Require Import all_ssreflect all_algebra.
From mathcomp Require Import zify.
From Coq Require Import Lia.
From Verif Require Import RingSpec RingModel PermModel MatModel MatSpec PolyModel PolyProofs PolyHom MpModel FinSupp MpRing MpRing2 MpRing3 MpRing4 MpProofs MpProofs2 MpSpec.
Close Scope rs_scope.
Set Implicit Arguments. Unset Strict Implicit. Unset Printing Implicit Defensive.
Import GRing.Theory.
Local Open Scope ring_scope.

Lemma mono_okE m : mono_ok m = mcan m.
Proof.
  rewrite /mono_ok /mcan /canon ltn_sorted_uniq_leq -andbA. congr [&& _, _ & _]. apply: eq_all => x. by rewrite lt0n.
Qed.
Lemma powerE m v : power m v = expo m v. Proof. by []. Qed.
Lemma beforeE a b : before a b = lexd a b. Proof. by []. Qed.
Lemma lexE a b : mcan a -> mcan b -> (lex a b = Lt <-> lexd a b) /\ (lex a b = Eq <-> a = b) /\ (lex a b = Gt <-> lexd b a).
Proof.
  move=> Ca Cb. have S : lex b a = CompOpp (lex a b).
  { elim: a b {Ca Cb} => [|x a IH] [|y b] //=. case: (Nat.ltb_spec x.1 y.1) => H1; case: (Nat.ltb_spec y.1 x.1) => H2 //; try lia. case: (Nat.ltb_spec y.2 x.2) => H3; case: (Nat.ltb_spec x.2 y.2) => H4 //; lia. }
  have Q c : lex c c = Eq by elim: c => //= x c ->; rewrite !Nat.ltb_irrefl.
  have E : lex a b = Eq -> a = b by move=> E; apply: lexle_anti; rewrite /lex_le S E.
  have L c d : mcan c -> mcan d -> lex c d = Lt -> lexd c d.
  { move=> Hc Hd H. apply: lex_lexd => //; first by rewrite /lex_le H. apply/eqP => Z. by rewrite Z Q in H. }
  have L' c d : mcan c -> mcan d -> lexd c d -> lex c d = Lt.
  { move=> Hc Hd H. have /andP[H1 H2] := lexd_lex Hc Hd H. move: H1. rewrite /lex_le. case X: (lex c d) => // _. move/eqP: H2. case. apply: lexle_anti. have -> : lex_le c d by rewrite /lex_le X.
    have : lex d c = Eq. { have : lex d c = CompOpp (lex c d). { clear. elim: c d => [|x a IH] [|y b] //=. case: (Nat.ltb_spec x.1 y.1) => H1; case: (Nat.ltb_spec y.1 x.1) => H2 //; try lia. case: (Nat.ltb_spec y.2 x.2) => H3; case: (Nat.ltb_spec x.2 y.2) => H4 //; lia. } by rewrite X. } by rewrite /lex_le => ->. }
  split; first by split; [exact: L|exact: L']. split; first by split=> [|->].
  split=> H; first by apply: L => //; rewrite S H. by rewrite -[lex a b]CompOpp_involutive -S (L' b a).
Qed.
Lemma degree_mm a b : total_degree (mm a b) = (total_degree a + total_degree b)%N.
Proof.
  have G (m : mon) n : (forall x, x \in m -> x.1 < n)%N -> total_degree m = (\sum_(v < n) expo m v)%N.
  { move=> H. rewrite /total_degree /expo /coef. rewrite (eq_bigr (fun v : 'I_n => \sum_(x <- m) (if x.1 == v then x.2 else 0))%N); last by move=> v _; rewrite big_mkcond.
    rewrite exchange_big /=. apply: eq_big_seq => x Hx. by rewrite -big_mkcond /= (big_pred1 (Ordinal (H x Hx))) // => v; rewrite /= eq_sym. }
  set n := (\max_(x <- a ++ b) x.1).+1. have Hn x : x \in a ++ b -> (x.1 < n)%N by move=> H; rewrite ltnS; apply: leq_bigmax_seq.
  rewrite (G (mm a b) n); last first.
  { move=> x Hx. have : x.1 \in [seq y.1 | y <- mm a b] by exact: map_f. rewrite nf_keys /keys mem_filter mem_sort mem_undup => /andP[_ /mapP[y Hy ->]]. exact: Hn. }
  rewrite (G a n) ?(G b n); try by move=> x Hx; apply: Hn; rewrite mem_cat Hx ?orbT. rewrite -big_split /=. apply: eq_bigr => v _. by rewrite expo_mm.
Qed.

Section P.
Variable R : comRingType.
Notation O := (mc_ops R).
Notation tm := (seq (mon * R)).
Implicit Types (a b p : tm).
Lemma wfE p : wf p = wfb p. Proof. rewrite /wf /wfb. congr (_ && _). apply: eq_all => t. exact: mono_okE. Qed.
Lemma in_orderE (l : seq mon) : all mcan l -> uniq l -> sorted lex_le l <-> in_order l.
Proof.
  elim: l => //= m l IH /andP[Cm Cl] /andP[Nm Ul]. have {}IH := IH Cl Ul. split.
  - move=> H. rewrite (path_sortedE lexle_tr) in H. case/andP: H => H1 H2. split; last exact/IH. move=> b Hb. apply: lex_lexd => //; [exact: (allP Cl)|exact: (allP H1)|]. apply/eqP => E. by move: Nm; rewrite E Hb.
  - case=> H1 /IH H2. rewrite (path_sortedE lexle_tr) H2 andbT. apply/allP => b Hb. by case/andP: (lexd_lex Cm (allP Cl _ Hb) (H1 b Hb)).
Qed.
Lemma normalE p : normal p <-> tcan p /\ all (fun t => mcan t.1) p.
Proof.
  rewrite /normal wfE /wfb /tcan /canon. split.
  - case=> /andP[H1 H2] H3 H4. rewrite H1 H2 H3 andbT /=. split=> //. apply/in_orderE => //. by rewrite all_map.
  - case=> /and3P[H1 H2 H3] H4. rewrite H1 H4. split=> //. apply/in_orderE => //. by rewrite all_map.
Qed.
Lemma rnf_normal p : all (fun t => mcan t.1) p -> normal (rnf p).
Proof. move=> H. apply/normalE. split; [exact: tcan_nf|exact: rnf_mcan]. Qed.
Lemma wf_mcan p : wf p -> all (fun t => mcan t.1) p. Proof. by rewrite wfE => /andP[]. Qed.
Lemma wf_uniq p : wf p -> uniq [seq t.1 | t <- p]. Proof. by rewrite wfE => /andP[]. Qed.
Lemma normal_wf p : normal p -> wf p. Proof. by case. Qed.
Lemma okmT p : all (fun t => mcan t.1) p -> all (fun t => okm predT t.1) p.
Proof. apply: sub_all => t H. rewrite /okm H /=. exact/allP. Qed.
Lemma valueE (A : comRingType) (f : {rmorphism R -> A}) th p : value f th p = evl f th p. Proof. by []. Qed.
Lemma mapME (A B : Type) (f : A -> option B) l : mapM f l = if all (fun x => f x) l then Some (pmap f l) else None.
Proof. elim: l => //= x l IH. case: (f x) => //= y. rewrite IH. by case: ifP. Qed.
Lemma rsumE (l : seq R) : @sum O l = \sum_(x <- l) x.
Proof. rewrite /sum. have L : forall s, List.fold_left (@radd O) l s = s + \sum_(x <- l) x. { elim: l => [|x l IH] s /=; first by rewrite big_nil addr0. by rewrite IH big_cons addrA. } by rewrite L add0r. Qed.
Lemma rprodE (l : seq R) : @product O l = \prod_(x <- l) x.
Proof. rewrite /product. have L : forall s, List.fold_left (@rmul O) l s = s * \prod_(x <- l) x. { elim: l => [|x l IH] s /=; first by rewrite big_nil mulr1. by rewrite IH big_cons mulrA. } by rewrite L mul1r. Qed.
Lemma mono_evalE (vals : nat -> option R) m : @mono_evaluate O vals m = if all (fun x : nat * nat => vals x.1) m then Some (mev (fun v => odflt 0 (vals v)) m) else None.
Proof.
  rewrite /mono_evaluate. have -> : mapM (fun x : nat * nat => do c <- vals x.1; Some (@nat_pow O c (N.of_nat x.2))) m = if all (fun x : nat * nat => vals x.1) m then Some [seq odflt 0 (vals x.1) ^+ x.2 | x <- m] else None.
  { elim: m => //= x m IH. case: (vals x.1) => //= c. rewrite IH. case: ifP => //= _. by rewrite nat_powE Nnat.Nat2N.id. }
  case: ifP => //= _. by rewrite rprodE /mev big_map.
Qed.
Lemma mp_evalE (vals : nat -> option R) p : @mp_evaluate O vals p = if all (fun t : mon * R => all (fun x : nat * nat => vals x.1) t.1) p then Some (evl [rmorphism of idfun] (fun v => odflt 0 (vals v)) p) else None.
Proof.
  rewrite /mp_evaluate. set F := fun t : mon * R => match _ with Some x => _ | None => None end.
  have -> : mapM F p = if all (fun t : mon * R => all (fun x : nat * nat => vals x.1) t.1) p then Some [seq t.2 * mev (fun v => odflt 0 (vals v)) t.1 | t <- p] else None.
  { elim: p => //= t p IH. rewrite {1}/F mono_evalE. case: ifP => //= _. rewrite IH. by case: ifP. }
  case: ifP => //= _. by rewrite rsumE /evl big_map.
Qed.
Lemma free_varsE p u : (u \in mp_free_vars p) = occurs u p.
Proof.
  rewrite /mp_free_vars mem_hset. elim: p => //= t p IH. rewrite mem_cat IH. congr (_ || _). rewrite /mono_free_vars mem_hset. elim: t.1 => //= x m IHm. by rewrite inE IHm eq_sym.
Qed.
End P.
