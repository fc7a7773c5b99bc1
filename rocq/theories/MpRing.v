(* The ring of multivariate polynomials over R in the variables satisfying ok, as canonical term lists, and the order on monomials. *)
From Coq Require Import List Arith Bool.
From mathcomp Require Import all_ssreflect all_algebra.
From mathcomp Require Import zify.
From Coq Require Import Lia.
From Verif Require Import MpModel FinSupp.
Set Implicit Arguments. Unset Strict Implicit. Unset Printing Implicit Defensive.
Import GRing.Theory.
Local Open Scope ring_scope.

Notation mon := (seq (nat * nat)).
(* ------------------------------------------------------------------ the lexicographic order *)
Definition plt (x y : nat * nat) : bool := ((x.1 < y.1) || ((x.1 == y.1) && (y.2 < x.2)))%N.
Lemma lexle0 (b : mon) : lex_le [::] b = (b == [::]). Proof. by case: b. Qed.
Lemma lexle_nil x (a : mon) : lex_le (x :: a) [::]. Proof. by []. Qed.
Lemma lexleS x y (a b : mon) : lex_le (x :: a) (y :: b) = plt x y || ((x == y) && lex_le a b).
Proof.
  case: x y => [v k] [w l]. rewrite /lex_le /plt /=. rewrite xpair_eqE.
  case: (Nat.ltb_spec v w) => [H|H]; first by have -> : (v < w)%N by lia. have -> : (v < w)%N = false by lia.
  case: (Nat.ltb_spec w v) => [H1|H1]; first by have -> : (v == w) = false by lia.
  have -> : (v == w) by lia. case: (Nat.ltb_spec l k) => [H2|H2]; first by have -> : (l < k)%N by lia. have -> : (l < k)%N = false by lia.
  case: (Nat.ltb_spec k l) => [H3|H3]; first by have -> : (k == l) = false by lia. by have -> : (k == l) by lia.
Qed.
Lemma lexle_total : total lex_le.
Proof.
  elim=> [|x a IH] [|y b] //. rewrite !lexleS. case: (x =P y) => [->|H]; first by rewrite eqxx /= orbCA !orbA; case/orP: (IH b) => ->; rewrite ?orbT.
  suff : plt x y || plt y x by case/orP=> ->; rewrite ?orbT. move: H. case: x y => [v k] [w l] H. rewrite /plt /=. have : (v != w) || (k != l) by rewrite -negb_and -xpair_eqE; apply/eqP. lia.
Qed.
Lemma plt_irr x : plt x x = false. Proof. rewrite /plt. lia. Qed.
Lemma plt_tr : transitive plt. Proof. move=> y x z. rewrite /plt. lia. Qed.
Lemma lexle_anti : antisymmetric lex_le.
Proof.
  elim=> [|x a IH] [|y b] //. rewrite !lexleS. case: (x =P y) => [->|H]; first by rewrite eqxx plt_irr /= => /IH ->. rewrite [y == x]eq_sym. move/eqP: (H) => /negbTE ->. rewrite !orbF.
  move=> /andP[H1 H2]. have := plt_tr H1 H2. by rewrite plt_irr.
Qed.
Lemma lexle_refl a : lex_le a a. Proof. by case/orP: (lexle_total a a). Qed.
Lemma lexle_tr : transitive lex_le.
Proof.
  move=> b a. elim: a b => [|x a IH] [|y b] [|z c] //. rewrite !lexleS. case/orP=> [H1|/andP[/eqP -> H1]]; case/orP=> [H2|/andP[/eqP <- H2]]; rewrite ?H1 ?H2 ?eqxx ?orbT //.
  - by rewrite (plt_tr H1 H2).
  - by rewrite (IH _ _ H1 H2) orbT.
Qed.
(* ------------------------------------------------------------------ monomials *)
Notation expo := (coef addn_comoid).
Definition mcan (m : mon) : bool := canon leq 0%N m.
Notation mnf := (nf leq addn_comoid).
Lemma mcan_nf m : mcan (mnf m). Proof. apply: nf_canon => //; [exact: leq_total|exact: leq_trans]. Qed.
Lemma mnf_id m : mcan m -> mnf m = m. Proof. apply: canon_nf; [exact: leq_total|exact: leq_trans|exact: anti_leq]. Qed.
Lemma mnf_ext m m' : expo m =1 expo m' -> mnf m = mnf m'. Proof. apply: nf_ext; [exact: leq_total|exact: leq_trans|exact: anti_leq]. Qed.
Lemma expo_nf m v : expo (mnf m) v = expo m v. Proof. exact: coef_nf. Qed.
Lemma mcan_ext m m' : mcan m -> mcan m' -> expo m =1 expo m' -> m = m'.
Proof. move=> H1 H2. apply: canon_ext H1 H2; [exact: leq_total|exact: leq_trans|exact: anti_leq]. Qed.
Definition mm (a b : mon) : mon := mnf (a ++ b).
Lemma expo_mm a b v : expo (mm a b) v = (expo a v + expo b v)%N. Proof. by rewrite expo_nf coef_cat. Qed.
Lemma mcan_mm a b : mcan (mm a b). Proof. exact: mcan_nf. Qed.
Lemma mmC a b : mm a b = mm b a. Proof. apply: mnf_ext => v. by rewrite !coef_cat /= addnC. Qed.
Lemma mmA a b c : mm a (mm b c) = mm (mm a b) c. Proof. apply: mnf_ext => v. by rewrite !coef_cat !expo_nf !coef_cat /= addnA. Qed.
Lemma mm1 a : mcan a -> mm [::] a = a. Proof. exact: mnf_id. Qed.
Lemma mem_vars (m : mon) v : mcan m -> (v \in [seq x.1 | x <- m]) = (expo m v != 0%N).
Proof.
  move=> /and3P[H1 H2 H3]. apply/idP/idP; last by apply: contraR => /coef_out ->.
  move=> /mapP[x Hx ->]. rewrite (coef_uniq _ H1 Hx). exact: (allP H3 x Hx).
Qed.
Lemma all_vars (ok : pred nat) (m : mon) : mcan m -> all (fun x => ok x.1) m <-> (forall v, expo m v != 0%N -> ok v).
Proof.
  move=> H. split.
  - move=> /allP A v. rewrite -mem_vars // => /mapP[x Hx ->]. exact: A.
  - move=> A. apply/allP => x Hx. apply: A. rewrite -mem_vars //. exact: map_f.
Qed.
Lemma mm_vars (ok : pred nat) a b : mcan a -> mcan b -> all (fun x => ok x.1) (mm a b) = all (fun x => ok x.1) a && all (fun x => ok x.1) b.
Proof.
  move=> Ha Hb. apply/idP/andP.
  - move/(all_vars ok (mcan_mm a b)) => H. split; apply/all_vars => // v Hv; apply: H; rewrite expo_mm addn_eq0; by rewrite (negbTE Hv) ?andbF.
  - move=> [/(all_vars ok Ha) H1 /(all_vars ok Hb) H2]. apply/(all_vars ok (mcan_mm a b)) => v. rewrite expo_mm addn_eq0 negb_and => /orP[/H1|/H2] //.
Qed.
Lemma expo0_nil m : mcan m -> (forall v, expo m v = 0%N) -> m = [::].
Proof. move=> H1 H2. apply: mcan_ext => // v. by rewrite H2 coef_nil. Qed.
(* the order in terms of exponents *)
Definition lexd (a b : mon) : Prop := exists v, (forall u, (u < v)%N -> expo a u = expo b u) /\ (expo b v < expo a v)%N.
Lemma mcan_cons v k m : mcan ((v, k) :: m) -> [/\ (0 < k)%N, mcan m & forall u, (u <= v)%N -> expo m u = 0%N].
Proof.
  rewrite /mcan /canon /= => /and3P[/andP[H1 H2] H3 /andP[H4 H5]]. split; first by rewrite lt0n.
  - rewrite H2 H5 andbT /=. exact: path_sorted H3.
  - move=> u Hu. apply: coef_out. apply/negP => Hin. have := order_path_min leq_trans H3 => /allP /(_ _ Hin) H. move: H1. have -> : v = u by apply/eqP; rewrite eqn_leq H Hu. by rewrite Hin.
Qed.
Lemma lex_lexd a b : mcan a -> mcan b -> lex_le a b -> a != b -> lexd a b.
Proof.
  elim: a b => [|[v k] a IH] [|[w l] b] // Ha Hb.
  - move=> _ _. have [k0 Ha' Hv] := mcan_cons Ha. exists v. rewrite coef_nil coef_cons /= eqxx Hv // addn0. split=> // u Hu. rewrite coef_nil coef_cons /=. case: eqP => [|_]; first lia. apply: Hv. lia.
  - have [k0 Ha' Hv] := mcan_cons Ha. have [l0 Hb' Hw] := mcan_cons Hb. rewrite lexleS. case/orP.
    + rewrite /plt /= => H _. exists v. rewrite !coef_cons /= eqxx Hv //. split.
      * move=> u Hu. rewrite !coef_cons /=. case: eqP => [|_]; first lia. case: eqP => [|_]; first lia. rewrite Hv ?Hw //; lia.
      * case: eqP => [E|E]; rewrite ?addn0 Hw; lia.
    + rewrite xpair_eqE => /andP[/andP[/eqP Ev /eqP Ek] H]. subst w l. rewrite eqseq_cons eqxx /= => /(IH _ Ha' Hb' H) [u [H1 H2]]. exists u. split.
      * move=> x Hx. rewrite !coef_cons /=. case: eqP => _; by rewrite H1.
      * rewrite !coef_cons /=. case: eqP => _ //. by rewrite ltn_add2l.
Qed.
Lemma lexd_asym a b : lexd a b -> lexd b a -> False.
Proof. move=> [v [H1 H2]] [w [H3 H4]]. case: (ltngtP v w) => H; [have := H3 _ H|have := H1 _ H|subst w]; lia. Qed.
Lemma lexd_lex a b : mcan a -> mcan b -> lexd a b -> lex_le a b && (a != b).
Proof.
  move=> Ha Hb H. have N : a != b by apply/eqP => E; subst; case: H => v [_]; rewrite ltnn. rewrite N andbT. case/orP: (lexle_total a b) => // H'.
  case: (lexd_asym H). apply: lex_lexd => //. by rewrite eq_sym.
Qed.
Lemma lexd_mm a b c : lexd a b -> lexd (mm a c) (mm b c).
Proof. move=> [v [H1 H2]]. exists v. split=> [u Hu|]; rewrite !expo_mm; [by rewrite H1|by rewrite ltn_add2r]. Qed.
Lemma lexd_tr a b c : lexd a b -> lexd b c -> lexd a c.
Proof.
  move=> [v [H1 H2]] [w [H3 H4]]. case: (ltngtP v w) => H.
  - exists v. split=> [u Hu|]; first by rewrite H1 // H3 //; lia. by rewrite -H3.
  - exists w. split=> [u Hu|]; last by rewrite H1. by rewrite H1 ?H3 //; lia.
  - subst w. exists v. split=> [u Hu|]; first by rewrite H1 // H3. lia.
Qed.
Lemma mm_mono a b c d : mcan a -> mcan b -> mcan c -> mcan d -> lex_le a b -> lex_le c d -> mm a c = mm b d -> a = b /\ c = d.
Proof.
  move=> Ha Hb Hc Hd H1 H2 E. case: (a =P b) => [E1|/eqP N1].
  - subst b. split=> //. apply: mcan_ext => // v. have := expo_mm a c v. rewrite E expo_mm. lia.
  - have L1 := lex_lexd Ha Hb H1 N1. have L : lexd (mm a c) (mm b d).
    { case: (c =P d) => [->|/eqP N2]; first exact: lexd_mm. apply: lexd_tr (lexd_mm c L1) _. rewrite ![mm b _]mmC. apply: lexd_mm. exact: lex_lexd. }
    rewrite E in L. by case: (lexd_asym L L).
Qed.
