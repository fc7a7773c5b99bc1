(* The packed product is the product modulo x^r - 1 and n *)
From Coq Require Import NArith ZArith.
From mathcomp Require Import all_ssreflect all_algebra.
From Coq Require Import Lia.
From Verif Require Import RingModel NatModel NatProofs AksModel AksProofs NatBridge NatBridge2 ZRing.
Set Implicit Arguments.
Unset Strict Implicit.
Unset Printing Implicit Defensive.
Import GRing.Theory.
Local Open Scope ring_scope.

Section Ev.
Variables (R : comRingType) (x : R).
Definition psi (c : N) : R := (N.to_nat c)%:R.
Fixpoint ev (l : list N) : R := match l with nil => 0 | cons c l' => psi c + x * ev l' end.
Lemma psiM a b : psi (a * b)%num = psi a * psi b. Proof. by rewrite /psi to_nat_mul natrM. Qed.
Lemma psiD a b : psi (a + b)%num = psi a + psi b. Proof. by rewrite /psi to_nat_add natrD. Qed.
Lemma ev_upd_add l i v : (i < length l)%N -> ev (upd_add l i v) = ev l + psi v * x ^+ i.
Proof.
  elim: l i => [|y l IH] [|i] //=.
  - by rewrite psiD expr0 mulr1 addrAC.
  - move=> H. by rewrite (IH i) // mulrDr addrA exprS mulrCA.
Qed.
Lemma ev_sum l : ev l = \sum_(i <- iota 0 (length l)) psi (List.nth i l N0) * x ^+ i.
Proof.
  elim: l => [|c l IH]; first by rewrite big_nil. change (psi c + x * ev l = \sum_(i <- 0%N :: iota 1 (length l)) psi (List.nth i (c :: l)%list N0) * x ^+ i).
  rewrite IH big_cons expr0 mulr1 mulr_sumr. congr (_ + _).
  have -> : iota 1 (length l) = [seq (1 + i)%N | i <- iota 0 (length l)] by rewrite -iotaDl. rewrite big_map. apply: eq_bigr => i _. by rewrite exprS mulrCA.
Qed.
Lemma ev_ups U s : List.Forall (fun u => fst u < length s)%N U ->
  ev (List.fold_left (fun s u => upd_add s (fst u) (snd u)) U s) = ev s + \sum_(u <- U) psi (snd u) * x ^+ (fst u).
Proof.
  elim: U s => [|u U IH] s H /=; first by rewrite big_nil addr0. inversion H as [|? ? H1 H2]; subst. rewrite IH; last by rewrite length_upd_add.
  by rewrite ev_upd_add // big_cons addrA.
Qed.
Lemma ev_zero r : ev (zero_poly r) = 0. Proof. elim: r => [|r IH] //=. by rewrite /zero_poly /= in IH *; rewrite IH mulr0 addr0 /psi. Qed.
Lemma ev_conv0 r a b : (0 < r)%N -> ev (conv r a b) = \sum_(i <- iota 0 r) \sum_(j <- iota 0 r) psi (List.nth i a N0 * List.nth j b N0)%num * x ^+ ((i + j) %% r).
Proof.
  move=> Hr. rewrite /conv.
  have G : forall l s, length s = r -> ev (List.fold_left (fun s i => List.fold_left (fun s u => upd_add s (fst u) (snd u)) (ups r a b i) s) l s)
     = ev s + \sum_(i <- l) \sum_(j <- iota 0 r) psi (List.nth i a N0 * List.nth j b N0)%num * x ^+ ((i + j) %% r).
  { elim=> [|i l IH] s Hs /=; first by rewrite big_nil addr0. rewrite IH; last by rewrite length_ups_fold. rewrite ev_ups.
    - rewrite big_cons addrA. congr (_ + _ + _). rewrite /ups seq_iota. elim: (iota 0 r) => [|j m IHm] /=; first by rewrite !big_nil. by rewrite !big_cons IHm modn_mod.
    - apply List.Forall_forall => u. rewrite /ups => /List.in_map_iff [j [<- _]] /=. by rewrite Hs -modn_mod ltn_mod. }
  rewrite seq_iota G ?ev_zero ?add0r // /zero_poly. by apply List.repeat_length.
Qed.
(* x^m = x^(m mod r) modulo x^r - 1 *)
Definition cong (r : nat) (u v : R) : Prop := exists w, u = v + w * (x ^+ r - 1).
Lemma cong_refl r u : cong r u u. Proof. exists 0. by rewrite mul0r addr0. Qed.
Lemma cong_sym r u v : cong r u v -> cong r v u. Proof. case=> w ->. exists (- w). by rewrite mulNr addrK. Qed.
Lemma cong_trans r u v w : cong r u v -> cong r v w -> cong r u w. Proof. case=> a -> [b ->]. exists (b + a). by rewrite -addrA mulrDl. Qed.
Lemma cong_add r u v u' v' : cong r u v -> cong r u' v' -> cong r (u + u') (v + v').
Proof. case=> a -> [b ->]. exists (a + b). by rewrite mulrDl addrACA. Qed.
Lemma cong_mull r c u v : cong r u v -> cong r (c * u) (c * v).
Proof. case=> a ->. exists (c * a). by rewrite -mulrA -mulrDr. Qed.
Lemma cong_mul r u v u' v' : cong r u v -> cong r u' v' -> cong r (u * u') (v * v').
Proof. move=> H1 H2. apply: (@cong_trans _ _ (u * v')); first exact: cong_mull. rewrite ![_ * v']mulrC. exact: cong_mull. Qed.
Lemma cong_exp r u v k : cong r u v -> cong r (u ^+ k) (v ^+ k).
Proof. move=> H. elim: k => [|k IH]; first exact: cong_refl. rewrite !exprS. exact: cong_mul. Qed.
Lemma cong_sum r (I : Type) (s : seq I) (F G : I -> R) : (forall i, cong r (F i) (G i)) -> cong r (\sum_(i <- s) F i) (\sum_(i <- s) G i).
Proof. move=> H. elim: s => [|i s IH]; rewrite ?big_nil ?big_cons; [exact: cong_refl|exact: cong_add]. Qed.
Lemma cong_one r : cong r (x ^+ r) 1. Proof. exists 1. by rewrite mul1r addrC subrK. Qed.
Lemma cong_pow r m : cong r (x ^+ m) (x ^+ (m %% r)).
Proof.
  rewrite {1}(divn_eq m r) exprD mulnC exprM -[X in cong _ _ X]mul1r -[X in cong _ _ (X * _)](expr1n _ (m %/ r)). apply: cong_mul; last exact: cong_refl. apply: cong_exp. exact: cong_one.
Qed.
Lemma ev_conv r a b : (0 < r)%N -> length a = r -> length b = r -> cong r (ev a * ev b) (ev (conv r a b)).
Proof.
  move=> Hr Ha Hb. rewrite ev_conv0 // !ev_sum Ha Hb mulr_suml. apply: cong_sum => i. rewrite mulr_sumr. apply: cong_sum => j. rewrite psiM mulrACA -exprD. apply: cong_mull. exact: cong_pow.
Qed.
End Ev.

(* the integers: enc *)
Local Open Scope Z_scope.
Delimit Scope Z_scope with ZZ.
Lemma Z_natr k : (k%:R : Z_ringType)%R = Z.of_nat k.
Proof. elim: k => [|k IH] //. rewrite mulrS IH. change (1 + Z.of_nat k = Z.of_nat (S k))%ZZ. lia. Qed.
Lemma ev_enc cs l : ev (R := Z_comRingType) (Z.of_N (2 ^ cs)) l = Z.of_N (enc cs l).
Proof.
  elim: l => [|c l IH] //=. rewrite IH /psi Z_natr. change (Z.of_nat (N.to_nat c) + Z.of_N (2 ^ cs) * Z.of_N (enc cs l) = Z.of_N (c + 2 ^ cs * enc cs l))%ZZ. lia.
Qed.
Lemma Z_exp (z : Z) k : ((z : Z_ringType) ^+ k)%R = Z.pow z (Z.of_nat k).
Proof. elim: k => [|k IH] //. rewrite exprS IH Nat2Z.inj_succ Z.pow_succ_r; last lia. by []. Qed.
Lemma packed_mod cs r a b : (0 < r)%N -> length a = r -> length b = r -> (enc cs (conv r a b) + 1 < (2 ^ cs) ^ N.of_nat r)%num ->
  ((enc cs a * enc cs b) mod ((2 ^ cs) ^ N.of_nat r - 1) = enc cs (conv r a b))%num.
Proof.
  move=> Hr Ha Hb Hlt. have [w Hw] := ev_conv (R := Z_comRingType) (Z.of_N (2 ^ cs)) Hr Ha Hb.
  rewrite !ev_enc Z_exp in Hw. set E := enc cs (conv r a b) in Hw Hlt *. set A := enc cs a in Hw *. set B' := enc cs b in Hw *.
  have Hw' : (Z.of_N A * Z.of_N B' = Z.of_N E + w * (Z.of_N ((2 ^ cs) ^ N.of_nat r) - 1))%ZZ.
  { rewrite N2Z.inj_pow nat_N_Z. exact Hw. }
  clear Hw. set M := ((2 ^ cs) ^ N.of_nat r)%num in Hlt Hw' *. apply N2Z.inj. rewrite N2Z.inj_mod. rewrite N2Z.inj_mul Hw' N2Z.inj_sub; [|lia].
  change (Z.of_N 1) with 1%ZZ. rewrite Z.mod_add; last lia. apply Z.mod_small. lia.
Qed.
