(* Cantor-Zassenhaus: polynomials that separate two irreducible factors exist, so no prefix of the random stream blocks termination. *)
From Coq Require Import List Arith NArith Bool.
From mathcomp Require Import all_ssreflect all_fingroup all_algebra all_solvable all_field separable.
From mathcomp Require Import zify.
From Coq Require Import Lia.
From Verif Require Import RingSpec MatSpec PolyModel PolyProofs FfModel FfProofs FfProofs6 FfProofs8 FfProofs9 FfProofs10.
Close Scope rs_scope.
Set Implicit Arguments.
Unset Strict Implicit.
Unset Printing Implicit Defensive.
Import GRing.Theory.
Local Open Scope ring_scope.

Section M.
Variable F : finFieldType.
Notation q := #|F|.
Implicit Types (A B C H : {poly F}).
Lemma crt A B C : coprimep A B -> A != 0 -> B != 0 -> exists H, [/\ (size H < size (A * B)%R)%N, A %| H - C & B %| H].
Proof.
  move=> /Bezout_eq1_coprimepP [[u v] /= E] A0 B0. exists ((C * v * B) %% (A * B)). have AB : A * B != 0 by rewrite mulf_neq0. split; first by rewrite ltn_modp.
  - set X := C * v * B. have H1 : A %| X %% (A * B) - X. { rewrite {2}(divp_eq X (A * B)) opprD addrCA subrr addr0 dvdpNr mulrA mulrAC. exact: dvdp_mulIr. }
    have H2 : A %| X - C. { rewrite /X -mulrA. have -> : v * B = 1 - u * A by rewrite -E addrC addKr. by rewrite mulrBr mulr1 addrC addKr dvdpNr mulrA dvdp_mulIr. }
    have := dvdp_add H1 H2. by rewrite addrA subrK.
  - by rewrite -dvdp_mod ?dvdp_mulIr.
Qed.
Lemma pow_cong A X Y e : A %| X - Y -> A %| X ^+ e - Y ^+ e.
Proof. move=> H. rewrite subrXX. exact: dvdp_mulr. Qed.
(* some polynomial has nonzero trace modulo A *)
Lemma trace_ex A m : irreducible_poly A -> (0 < m)%N -> (q ^ (size A).-1 = 2 ^ m)%N -> exists C, ~~ (A %| \sum_(j < m) C ^+ (2 ^ j)).
Proof.
  move=> IA m0 Em. have [L dL [z Hz HL]] := irredp_FAdjoin IA. pose T : {poly L} := \sum_(j < m) 'X^(2 ^ j).
  have ST : size T = (2 ^ m.-1).+1.
  { rewrite /T. case: m m0 {Em T} => // m _. elim: m => [|m IH]; first by rewrite big_ord1 expn0 expr1 size_polyX.
    rewrite big_ord_recr /= addrC size_addl size_polyXn // ltnS IH /= expnS. have : (0 < 2 ^ m)%N by rewrite expn_gt0. clear. move: (2 ^ m)%N => x. lia. }
  have T0 : T != 0 by rewrite -size_poly_eq0 ST.
  have [x Hx] : exists x : FinFieldExtType L, ~~ root T x.
  { apply/existsP. apply: contraT. rewrite negb_exists => /forallP Hr. have K : (#|FinFieldExtType L| < size T)%N by rewrite cardE; apply: (@max_poly_roots L T (enum (FinFieldExtType L)) T0 _ (enum_uniq _)); apply/allP => x _; have := Hr x; rewrite negbK.
    move: K. rewrite cardL dL Em ST. case: (m) m0 => // k _. rewrite /= expnS. have : (0 < 2 ^ k)%N by rewrite expn_gt0. clear. move: (2 ^ k)%N => y. lia. }
  have : (x : L) \in <<1; z>>%VS by rewrite HL memvf. case/Fadjoin_polyP => B /polyOver1P [C ->] Ex. exists C. apply/negP => /(ev_dvd IA Hz). rewrite rmorph_sum horner_sum => E0. move/negP: Hx; apply. apply/rootP. rewrite /T horner_sum -[RHS]E0.
  apply: eq_bigr => j _. by rewrite hornerXn rmorphX horner_exp Ex.
Qed.
Variables pchar pexp : N.
Hypothesis Cp : N.to_nat pchar \in [char F].
Hypothesis qE : N.to_nat (N.pow pchar pexp) = #|F|.
Notation G := (@GG [idomainType of F] pchar pexp).
Lemma natpow a b : Nat.pow a b = (a ^ b)%N.
Proof. elim: b => [|b IH] //=. by rewrite expnS IH. Qed.
Lemma separator d A B : irreducible_poly A -> irreducible_poly B -> ~~ (A %= B) -> (size A).-1 = d -> (0 < d)%N -> exists H, (size H < size (A * B)%R)%N /\ (A %| G d H) != (B %| G d H).
Proof.
  move=> IA IB NE dA d0. have A0 : A != 0 by case: IA => H _; rewrite -size_poly_gt0 ltnW. have B0 : B != 0 by case: IB => H _; rewrite -size_poly_gt0 ltnW.
  have C : coprimep A B. { rewrite irr_coprime' //. apply/negP => H. case: IB => _ /(_ A) K. move/negP: NE; apply. apply: K => //. case: IA => H1 _. by rewrite neq_ltn H1 orbT. }
  have q1 : (1 < q)%N := finRing_gt1 _. have qE' := qE. rewrite N2Nat.inj_pow natpow in qE'.
  rewrite /GG. case E2: (N.eqb pchar 2).
  - move/N.eqb_eq: E2 => E2. rewrite E2 in qE'. have [||X HX] := @trace_ex A (N.to_nat pexp * d) IA.
    + rewrite muln_gt0 d0 andbT. move: q1. rewrite -qE'. by case: (N.to_nat pexp).
    + by rewrite dA -qE' expnM.
    + have [H [SH H1 H2]] := crt X C A0 B0. exists H. split=> //. have -> : B %| \sum_(j < N.to_nat pexp * d) H ^+ (2 ^ j).
      { apply: (big_ind (fun Y => B %| Y)) => [||j _]; [exact: dvdp0|exact: dvdp_add|]. case E: (2 ^ j)%N (expn_gt0 2 j) => [|k] // _. by rewrite exprS dvdp_mulr. }
      have -> : A %| \sum_(j < N.to_nat pexp * d) H ^+ (2 ^ j) = false; last by [].
      apply/negP => K. move/negP: HX; apply. have K' : A %| \sum_(j < N.to_nat pexp * d) H ^+ (2 ^ j) - \sum_(j < N.to_nat pexp * d) X ^+ (2 ^ j).
      { rewrite -sumrB. apply: (big_ind (fun Y => A %| Y)) => [||j _]; [exact: dvdp0|exact: dvdp_add|exact: pow_cong]. }
      by rewrite -(dvdp_subr _ K).
  - set e := half _. have e0 : (0 < e)%N.
    { rewrite /e /q_of N2Nat.inj_pow natpow qE'. have q2 : (2 < q)%N.
      { rewrite -qE' in q1 *. have Pp := charf_prime Cp. have p2 : (2 < N.to_nat pchar)%N. { have := prime_gt1 Pp. move/N.eqb_neq: E2. clear. lia. }
        apply: leq_trans p2 _. case: (N.to_nat pexp) q1 => // k _. by rewrite expnS leq_pmulr // expn_gt0 prime_gt0. } have : (q <= q ^ d)%N by rewrite -{1}[q]expn1 leq_exp2l. move: q2. clear. move: (q) (q ^ d)%N => x y. lia. }
    have [H [SH H1 H2]] := crt 1 C A0 B0. exists H. split=> //. have -> : A %| H ^+ e - 1 by have := pow_cong e H1; rewrite expr1n.
    have -> // : (B %| H ^+ e - 1) = false. have He : B %| H ^+ e by case: (e) e0 => // k _; rewrite exprS dvdp_mulr. apply/negP. rewrite dvdp_subr // dvdp1 => /eqP S1. case: IB => K _. by rewrite S1 in K.
Qed.
End M.
