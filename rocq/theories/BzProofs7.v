(* The subset search, abstractly: divisors of f correspond to sets of modular factors. *)
From Coq Require Import List NArith ZArith Bool.
From mathcomp Require Import all_ssreflect all_algebra.
From mathcomp Require Import zify.
From Coq Require Import Lia.
From Verif Require Import HenselSpec BzProofs1.
Set Implicit Arguments.
Unset Strict Implicit.
Unset Printing Implicit Defensive.
Import GRing.Theory.
Local Open Scope ring_scope.

Section Search.
Variables (R : idomainType) (K : fieldType) (phi : {rmorphism R -> K}).
Notation red := (map_poly phi).
Variables (f : {poly R}) (G : seq {poly R}).
Notation n := (size G).
Notation L := (lead_coef f).
Hypothesis Lp : phi L != 0.
Variable u : K.
Hypothesis u0 : u != 0.
Hypothesis fE : red f = u *: \prod_(g <- G) red g.
Notation q := (fun i => red G`_i).
Hypothesis Irr : forall i, (i < n)%N -> irreducible_poly (q i).
Hypothesis Cop : forall i j, (i < n)%N -> (j < n)%N -> i != j -> coprimep (q i) (q j).
Notation rset := (@rset R K phi G).
Definition J (k : nat) (fc : {poly R}) := forall F H : {poly R}, F * H = fc -> (1 < size F)%N -> (size (rset F) < k)%N -> rset F =i rset fc.
Definition bad fc (s : seq nat) := forall F H : {poly R}, F * H = fc -> rset F =i s -> False.
Definition irrp (g : {poly R}) := (1 < size g)%N /\ forall A B, A * B = g -> (size A <= 1)%N || (size B <= 1)%N.
Let mulE F1 F2 H := @rset_mul R K phi f G Irr F1 F2 H.
Let disjE := rset_disj u0 fE Irr Cop.
Let nonc := rset_nonconst Lp u0 fE Irr Cop.
Lemma rsub F H fc : F * H = fc -> {subset rset F <= rset fc}.
Proof. move=> <- i. exact: rset_dvd. Qed.
Lemma rperm F H fc X : F * H = fc -> fc * X = f -> perm_eq (rset fc) (rset F ++ rset H).
Proof.
  move=> E1 E2. rewrite -E1 in E2 *. apply: uniq_perm; first exact: rset_uniq.
  - rewrite cat_uniq !rset_uniq andbT /=. apply/hasPn => i Hi. apply/negP => Hj. exact: (disjE E2 Hj Hi).
  - move=> i. by rewrite mem_cat (mulE E2).
Qed.
Lemma rsize F H fc X : F * H = fc -> fc * X = f -> size (rset fc) = (size (rset F) + size (rset H))%N.
Proof. move=> E1 E2. by rewrite (perm_size (rperm E1 E2)) size_cat. Qed.
Lemma dvf F H fc X : F * H = fc -> fc * X = f -> F * (H * X) = f. Proof. by move=> <- <-; rewrite mulrA. Qed.
Lemma J1 fc X : fc * X = f -> J 1 fc.
Proof. move=> E F H E1 HF. rewrite ltnS leqn0 size_eq0 => Z. move: HF. by rewrite (nonc (dvf E1 E)) Z. Qed.
Lemma rset_full F H fc X : F * H = fc -> fc * X = f -> rset F =i rset fc -> (size H <= 1)%N.
Proof.
  move=> E1 E2 E. have E3 : H * F = fc by rewrite mulrC. rewrite leqNgt (nonc (dvf E3 E2)) negbK. case Es: (rset H) => [|i s] //. exfalso. have Hi : i \in rset H by rewrite Es mem_head.
  apply: (disjE (F1 := F) (F2 := H) (H := X) _ (i := i)) => //; first by rewrite E1. by rewrite E (rsub E3).
Qed.
Lemma J_found k g h fc X : g * h = fc -> fc * X = f -> J k fc -> rset g != [::] -> J k h.
Proof.
  move=> E1 E2 HJ Hg F H E3 HF Hk. exfalso. have E4 : F * (H * g) = fc by rewrite mulrA E3 mulrC. have HE := HJ _ _ E4 HF Hk.
  case Es: (rset g) Hg => [|i s] // _. have Hi : i \in rset g by rewrite Es mem_head. apply: (disjE (F1 := g) (F2 := h) (H := X) _ Hi); first by rewrite E1. apply: (rsub E3). rewrite HE. exact: (rsub E1).
Qed.
Lemma irr_found k g h fc X : g * h = fc -> fc * X = f -> J k fc -> size (rset g) = k -> (0 < k)%N -> irrp g.
Proof.
  move=> E1 E2 HJ Hk k0. split; first by rewrite (nonc (dvf E1 E2)) -size_eq0 Hk -lt0n.
  move=> A B E3. case HA: (size A <= 1)%N => //=. case HB: (size B <= 1)%N => //. exfalso. move/negbT: HA. rewrite -ltnNge => HA. move/negbT: HB. rewrite -ltnNge => HB.
  have E4 : g * (h * X) = f by exact: dvf E1 E2. have E5 : B * A = g by rewrite mulrC. have sB : (0 < size (rset B))%N by move: HB; rewrite (nonc (dvf E5 E4)) -size_eq0 lt0n.
  have sA : (size (rset A) < k)%N by have := rsize E3 E4; rewrite Hk; lia. have E6 : A * (B * h) = fc by rewrite mulrA E3. have E := HJ _ _ E6 HA sA.
  have := rset_full E6 E2 E. have h0 : h != 0. { apply/eqP => Z. have : f != 0 by apply/eqP => Z'; move: Lp; rewrite Z' lead_coef0 rmorph0 eqxx. by rewrite -E4 Z mul0r mulr0 eqxx. }
  have B0 : B != 0 by rewrite -size_poly_gt0; exact: ltn_trans HB. rewrite size_mul //. move: h0. rewrite -size_poly_gt0. lia.
Qed.
Lemma J_next k fc : J k fc -> (forall F H, F * H = fc -> size (rset F) = k -> rset F =i rset fc) -> J k.+1 fc.
Proof. move=> HJ H F Q E HF. rewrite ltnS leq_eqVlt => /orP [/eqP Hk|Hk]; [exact: H E Hk|exact: HJ E HF Hk]. Qed.
Lemma exit_irr k fc X : fc * X = f -> J k fc -> (size (rset fc) < k.*2)%N -> rset fc != [::] -> irrp fc.
Proof.
  move=> E HJ Hk Hr. split; first by rewrite (nonc E).
  move=> A B E3. case HA: (size A <= 1)%N => //=. case HB: (size B <= 1)%N => //. exfalso. move/negbT: HA. rewrite -ltnNge => HA. move/negbT: HB. rewrite -ltnNge => HB.
  have E4 : B * A = fc by rewrite mulrC. have Es := rsize E3 E. have : (size (rset A) < k)%N || (size (rset B) < k)%N. { move: Hk Es. clear. rewrite -addnn. move: (size _) (size _) (size _) => x y z. lia. }
  case/orP => Hs; [have := rset_full E3 E (HJ _ _ E3 HA Hs); move: HB|have := rset_full E4 E (HJ _ _ E4 HB Hs); move: HA]; rewrite ltnNge => /negbTE -> //.
Qed.
Lemma exit_unit fc X : fc * X = f -> rset fc = [::] -> (size fc <= 1)%N.
Proof. move=> E Z. by rewrite leqNgt (nonc E) Z. Qed.
Lemma round_end (h : bool) a k fc X : fc * X = f ->
  (forall s, sorted ltn s -> size s = k -> {subset s <= rset fc} -> (h -> a \notin s) -> bad fc s) -> (h -> size (rset fc) = k.*2 \/ (size (rset fc) <= k)%N) ->
  forall F H, F * H = fc -> size (rset F) = k -> rset F =i rset fc.
Proof.
  move=> E Hb Hh F H E1 Hk. have Sor P : sorted ltn (rset P) by apply: sorted_filter; [exact: ltn_trans|exact: iota_ltn_sorted].
  have triv : (size (rset fc) <= k)%N -> rset F =i rset fc. { move=> Hs. have HM : {subset rset F <= rset fc} by exact: rsub E1. have Hle : (size (rset fc) <= size (rset F))%N by rewrite Hk. by have [_ Hm] := uniq_min_size (rset_uniq phi G F) HM Hle. }
  case Eh: h Hh => Hh; last by exfalso; apply: (Hb (rset F) (Sor F) Hk (rsub E1) _ _ _ E1 (fun i => erefl)); rewrite Eh.
  case: (Hh isT) => [Hs|]; last exact: triv.
  case Ha: (a \in rset F); last by exfalso; apply: (Hb (rset F) (Sor F) Hk (rsub E1) _ _ _ E1 (fun i => erefl)); rewrite Ha.
  exfalso. have E2 : H * F = fc by rewrite mulrC. have Es := rsize E1 E. have Hk2 : size (rset H) = k by move: Es; rewrite Hs Hk -addnn; clear; move: (size _) => x; lia. apply: (Hb (rset H) (Sor H) Hk2 (rsub E2) _ _ _ E2 (fun i => erefl)).
  move=> _. apply/negP => Ha2. apply: (disjE (F1 := F) (F2 := H) (H := X) _ Ha Ha2). by rewrite E1.
Qed.
End Search.
