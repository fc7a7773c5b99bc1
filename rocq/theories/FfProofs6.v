(* Irreducible polynomials over a finite field with q elements and x^(q^i) - x. *)
From mathcomp Require Import all_ssreflect all_fingroup all_algebra all_solvable all_field separable.
From mathcomp Require Import zify.
From Coq Require Import Lia.
From Verif Require Import FfProofs.
Set Implicit Arguments.
Unset Strict Implicit.
Unset Printing Implicit Defensive.
Import GRing.Theory.
Local Open Scope ring_scope.

Section X.
Variable F : finFieldType.
Notation q := #|F|.
Implicit Types (A B P : {poly F}).

Lemma irr_coprime' P B : irreducible_poly P -> coprimep P B = ~~ (P %| B).
Proof. have [p _ Cp] := finCharP F. exact: (irr_coprime). Qed.
Section Ext.
Variables (P : {poly F}) (L : fieldExtType F) (z : L).
Hypothesis Hi : irreducible_poly P.
Hypothesis Hz : root (map_poly (in_alg L) P) z.
Notation ev := (fun A : {poly F} => (map_poly (in_alg L) A).[z]).
Lemma ev_dvd B : ev B = 0 <-> P %| B.
Proof.
  split=> [E|/dvdpP [Q ->]]; last by rewrite rmorphM hornerM (rootP Hz) mulr0. apply: contraT => ND.
  have : coprimep P B by rewrite irr_coprime'. case/Bezout_eq1_coprimepP => -[u v] /= Euv. have := congr1 ev Euv. cbn beta. rewrite rmorphD !rmorphM !hornerE /= (rootP Hz) E !mulr0 addr0 rmorph1 hornerC => /eqP. by rewrite eq_sym oner_eq0.
Qed.
End Ext.
Lemma charL (L : fieldExtType F) p : p \in [char F] -> p \in [char L].
Proof. by move=> Cp; rewrite char_lalg. Qed.
Lemma frobL (L : fieldExtType F) i (x y : L) : (x + y) ^+ (q ^ i) = x ^+ (q ^ i) + y ^+ (q ^ i).
Proof.
  have [p _ Cp] := finCharP F. have CL := charL L Cp. have [n ->] : exists n, #|F| = (p ^ n)%N by eexists; exact: (card_primeChar Cp). rewrite -expnM. elim: (n * i)%N => [|k IH]; first by rewrite expn0 !expr1.
  by rewrite expnSr !exprM IH -[LHS]/(Frobenius_aut CL _) rmorphD.
Qed.
Lemma pow_qi i (a : F) : a ^+ (q ^ i) = a.
Proof. elim: i => [|i IH]; first by rewrite expn0 expr1. by rewrite expnSr exprM IH expf_card. Qed.
Lemma cardL (L : fieldExtType F) : #|FinFieldExtType L| = (q ^ \dim {:L})%N.
Proof. by rewrite -(@card_vspace F (FinFieldExtType L) (FieldExt.base (FieldExt.class L))) (@card_vspacef F (FinFieldExtType L)). Qed.
Lemma irr_dvd_Xq P : irreducible_poly P -> P %| 'X^(q ^ (size P).-1) - 'X.
Proof.
  move=> Hi. have [L dL [z Hz _]] := irredp_FAdjoin Hi. apply/(ev_dvd Hi Hz). rewrite -dL rmorphB /= map_polyXn map_polyX !hornerE -cardL. rewrite hornerXn.
  have -> : z ^+ #|FinFieldExtType L| = z := @expf_card (FinFieldExtType L) z. by rewrite subrr.
Qed.
Lemma dvd_Xq_deg P i : irreducible_poly P -> (0 < i)%N -> P %| 'X^(q ^ i) - 'X -> ((size P).-1 <= i)%N.
Proof.
  move=> Hi i0 HP. have [L dL [z Hz HL]] := irredp_FAdjoin Hi. have := (ev_dvd Hi Hz _).2 HP. rewrite rmorphB /= map_polyXn map_polyX !hornerE hornerXn => /eqP. rewrite subr_eq0 => /eqP Ez.
  have q1 : (1 < q)%N := finRing_gt1 _.
  have all_roots (x : L) : x ^+ (q ^ i) = x.
  { have : x \in <<1; z>>%VS by rewrite HL memvf. case/Fadjoin_polyP => A /polyOver1P [B ->] ->.
    have s_pow (C : {poly F}) : (map_poly (in_alg L) C).[z] ^+ (q ^ i) = (map_poly (in_alg L) C).[z].
    { elim/poly_ind: C => [|C c IH]; first by rewrite rmorph0 horner0 expr0n expn_eq0 eqn0Ngt (ltnW q1).
      rewrite rmorphD rmorphM /= map_polyX map_polyC !hornerE frobL exprMn IH Ez. congr (_ + _). rewrite -(rmorphX [rmorphism of in_alg L]). by rewrite pow_qi. }
    exact: s_pow. }
  rewrite -(leq_exp2l _ _ q1) -dL -cardL.
  have S : size ('X^(q ^ i) - 'X : {poly L}) = (q ^ i).+1.
  { rewrite size_addl ?size_polyXn // size_opp size_polyX !ltnS. case: i i0 {HP Ez all_roots} => // i _. rewrite (leq_trans q1) // expnS leq_pmulr // expn_gt0 (ltnW q1). done. }
  rewrite -ltnS -S cardE. apply: (@max_poly_roots L ('X^(q ^ i) - 'X) (enum (FinFieldExtType L)) _ _ (enum_uniq _)); first by rewrite -size_poly_eq0 S.
  apply/allP => x _. by rewrite /root !hornerE hornerXn all_roots subrr.
Qed.
End X.
