(* The loop of Cantor-Zassenhaus over a finite field (FfModel: cz_loop, cz_one). *)
From Coq Require Import List Arith NArith Bool.
From mathcomp Require Import all_ssreflect all_fingroup all_algebra all_solvable all_field separable.
From mathcomp Require Import zify.
From Coq Require Import Lia.
From Verif Require Import RingSpec RingModel RingProofs RingProofs2 FactoredSpec FactoredModel FactoredProofs PermModel MatModel MatSpec MatProofs2 LatModel PolyModel PolyProofs PolyProofs2 PolyProofs3 PolyProofs9 PolyProofs11 PolyProofs12 FacModel FacProofs FacProofs2 FacProofs3 FacProofs4 FfModel FfProofs FfProofs2 FfProofs5 FfProofs6 FfProofs7 FfProofs8 FfProofs9.
Close Scope rs_scope.
Set Implicit Arguments.
Unset Strict Implicit.
Unset Printing Implicit Defensive.
Import GRing.Theory.
Local Open Scope ring_scope.

Section S.
Variable F : finFieldType.
Notation R := [idomainType of F].
Notation O := (mc_ops R).
Notation P := (poly_ops O).
Variable div : div_op O.
Hypothesis D : idom_laws O div.
Hypothesis FD : forall x y : R, y != 0 -> exists q, div x y = DivOk q.
Variable ffa : ffa_op O.
Hypothesis FA : ffa_laws O ffa.
Variables pchar pexp : N.
Variable rnd : nat -> F.
Notation fact := (factored P).
Notation ex := (fun f : fact => Poly (@expand P f)).
Implicit Types (g a b h u : seq F) (A B C : {poly F}).

Variables (f : seq F) (d : nat) (mult : N).
Hypothesis Mf : Poly f \is monic.
Hypothesis mult0 : (0 < N.to_nat mult)%N.
Notation n := (size (Poly f)).-1.
Definition HH (k : nat) : seq F := List.map (fun i => rnd (k * n + i)%N) (List.seq 0 n).
Notation Gk k := (@GG R pchar pexp d (Poly (HH k))).
Definition St (k : nat) (u : seq F) : Prop := [/\ Poly u \is monic, (1 < size (Poly u))%N, sep (Poly u), irr_eq d (Poly u) & Poly u %| Poly f /\
  forall A B j, (j < k)%N -> irreducible_poly A -> irreducible_poly B -> A %| Poly u -> B %| Poly u -> (A %| Gk j) = (B %| Gk j)].
Definition separated (K : nat) : Prop := forall A B, irreducible_poly A -> irreducible_poly B -> A %| Poly f -> B %| Poly f -> ~~ (A %= B) -> exists2 j, (j < K)%N & (A %| Gk j) != (B %| Gk j).

Lemma irr_deg A : (1 < size A)%N -> irr_eq d A -> (size A).-1 = d -> forall B C, A = B * C -> (size B <= 1)%N \/ (size C <= 1)%N.
Proof.
  move=> S1 H E B C EA. have [|B1] := leqP (size B) 1; first by left. have [|C1] := leqP (size C) 1; first by right. exfalso.
  have [X [IX _ DX]] := irr_divisor B1 (leqnn _). have [Y [IY _ DY]] := irr_divisor C1 (leqnn _). have B0 : B != 0 by rewrite -size_poly_gt0 ltnW. have C0 : C != 0 by rewrite -size_poly_gt0 ltnW.
  have HX : (size X).-1 = d by apply: H => //; rewrite EA dvdp_mulr. have HY : (size Y).-1 = d by apply: H => //; rewrite EA dvdp_mull.
  have := size_mul B0 C0. rewrite -EA. move: (dvdp_leq B0 DX) (dvdp_leq C0 DY) HX HY E S1 B1 C1. clear. move: (size A) (size B) (size C) (size X) (size Y) => x y z v w. lia.
Qed.
Lemma deg_mul A : A != 0 -> irr_eq d A -> exists m, (size A).-1 = (m * d)%N.
Proof.
  have [k] := ubnP (size A). elim: k A => // k IH A Lk A0 HA. have [S1|S1] := leqP (size A) 1. { exists 0%N. by case: (size A) S1 => [|[]]. }
  have [X [IX MX /dvdpP [Q E]]] := irr_divisor S1 (leqnn _). have Q0 : Q != 0 by apply/eqP => Z; move: A0; rewrite E Z mul0r eqxx. have X0 := monic_neq0 MX.
  have := size_mul Q0 X0. rewrite -E => Es. have SX : (1 < size X)%N by case: IX. have HX : (size X).-1 = d by apply: HA => //; rewrite E dvdp_mulIr.
  have [||m Em] := IH Q _ Q0. { move: Es SX Lk. clear. move: (size A) (size Q) (size X) => x y z. lia. } { move=> C IC DC. apply: HA => //. by rewrite E dvdp_mulr. }
  exists m.+1. move: Q0 Es SX HX Em. rewrite mulSnr -size_poly_gt0. clear. move: (m * d)%N (size A) (size Q) (size X) => e x y z. lia.
Qed.
Lemma single_irr k u : St k u -> separated k -> (size (Poly u)).-1 = d.
Proof.
  case=> M S1 Su Hd [Du HN] HS. have [A [IA MA DA]] := irr_divisor S1 (leqnn _). rewrite -(Hd A IA DA). congr predn. have /dvdpP [Q EQ] := DA.
  have u0 := monic_neq0 M. have A0 := monic_neq0 MA. have Q0 : Q != 0 by apply/eqP => Z; move: u0; rewrite EQ Z mul0r eqxx.
  have [Q1|Q1] := leqP (size Q) 1. { have := size_mul Q0 A0. rewrite -EQ => ->. have -> : size Q = 1%N by apply/eqP; rewrite eqn_leq Q1 size_poly_gt0. by []. }
  exfalso. have [B [IB MB DB]] := irr_divisor Q1 (leqnn _). have DBu : B %| Poly u by rewrite EQ dvdp_mulr.
  have [E|NE] := boolP (A %= B).
  - have : A * A %| Poly u. { rewrite EQ. apply: dvdp_mul => //. by rewrite (eqp_dvdl _ E). } move/(sep_sq Su). case: IA => H _. by rewrite leqNgt H.
  - have [j Hj] := HS A B IA IB (dvdp_trans DA Du) (dvdp_trans DBu Du) NE. by rewrite (HN A B j) // eqxx.
Qed.
Lemma St_sub k u v C : St k u -> Poly u = Poly v * C -> Poly v \is monic -> (1 < size (Poly v))%N -> (forall A B, irreducible_poly A -> irreducible_poly B -> A %| Poly v -> B %| Poly v -> (A %| Gk k) = (B %| Gk k)) -> St k.+1 v.
Proof.
  case=> M S1 Su Hd [Du HN] E Mv Sv HG. have Dv : Poly v %| Poly u by rewrite E dvdp_mulIl. split=> //.
  - rewrite E in Su. exact: sep_l Su.
  - move=> A IA DA. apply: Hd => //. exact: dvdp_trans DA Dv.
  - split; first exact: dvdp_trans Dv Du. move=> A B j. rewrite ltnS leq_eqVlt => /orP [/eqP -> |Hj] IA IB DA DB; first exact: HG. apply: HN => //; [exact: dvdp_trans DA Dv|exact: dvdp_trans DB Dv].
Qed.
Lemma split_St k u : St k u -> exists l, [/\ @cz_split O div ffa (@cz_g O div pchar pexp f (HH k) d) u = Some l, forall v, v \in l -> St k.+1 v & \prod_(v <- l) Poly v = Poly u].
Proof.
  move=> Hu. have [M S1 Su Hd [Du HN]] := Hu. have [l [El Hl]] := cz_split_ok D FD FA (@cz_g O div pchar pexp f (HH k) d) M S1. set g := cz_g _ _ _ _ _ _ in El Hl.
  have gE A : A %| Poly u -> (A %| Poly g) = (A %| Gk k).
  { move=> DA. have H : A %| Poly g - Gk k. { apply: (dvdp_trans (dvdp_trans DA Du)). exact: (@cz_gE R div D FD pchar pexp f (HH k) d (monic_neq0 Mf)). }
    by rewrite -{1}[Poly g](subrK (Gk k)) dvdp_addr. }
  exists l. split=> //.
  - case: Hl => [[-> Hc] v|[v [w [-> Euv Ew [Mv Sv] [Mw Sw]]] x]].
    + rewrite inE => /eqP ->. apply: (@St_sub k u u 1 Hu); rewrite ?mulr1 // => A B IA IB DA DB. rewrite -!gE //. case: Hc => [C|C]; last by rewrite !(dvdp_trans _ C).
      have K X : irreducible_poly X -> X %| Poly u -> (X %| Poly g) = false. { move=> [X1 X2] DX. apply/negP => DX'. have := coprimepP _ _ C X DX DX'. rewrite -size_poly_eq1 => /eqP E. by rewrite E in X1. }
      by rewrite !K.
    + have Dw : Poly w %| Poly u by rewrite Euv dvdp_mulIr. have Dg : Poly w %| Poly g by rewrite (eqp_dvdl _ Ew) dvdp_gcdr.
      rewrite !inE => /orP [] /eqP ->.
      * have Dv : Poly v %| Poly u by rewrite Euv dvdp_mulIl. apply: (St_sub Hu Euv Mv Sv) => A B IA IB DA DB. rewrite -!gE ?(dvdp_trans _ Dv) //.
        have K X : irreducible_poly X -> X %| Poly v -> (X %| Poly g) = false. { move=> IX DX. apply/negP => DX'. have : X * X %| Poly u. { rewrite Euv. apply: dvdp_mul => //. by rewrite (eqp_dvdr _ Ew) dvdp_gcd DX' (dvdp_trans DX). }
          move/(sep_sq Su). case: IX => H _. by rewrite leqNgt H. }
        by rewrite !K.
      * apply: (@St_sub k u w (Poly v) Hu) => //; first by rewrite mulrC. move=> A B IA IB DA DB. rewrite -!gE ?(dvdp_trans _ Dw) //. by rewrite !(dvdp_trans _ Dg).
  - case: Hl => [[-> _]|[v [w [-> -> _ _ _]]]]; first by rewrite big_seq1. by rewrite big_cons big_seq1.
Qed.
Lemma splits_St k (l : seq (seq F)) : (forall u, u \in l -> St k u) -> exists ls, [/\ mapM (@cz_split O div ffa (@cz_g O div pchar pexp f (HH k) d)) l = Some ls, forall v, v \in List.concat ls -> St k.+1 v &
  forall e, \prod_(v <- List.concat ls) Poly v ^+ e = \prod_(u <- l) Poly u ^+ e].
Proof.
  elim: l => [|u l IH] Hl. { exists [::]. by split=> // e; rewrite !big_nil. }
  have [l1 [E1 H1 P1]] := split_St (Hl u (mem_head _ _)). have [|ls [E2 H2 P2]] := IH; first by move=> v Hv; apply: Hl; rewrite inE Hv orbT.
  exists (l1 :: ls). cbn [mapM]. rewrite E1 E2. split=> // [v|e].
  - cbn [List.concat]. rewrite mem_cat => /orP [/H1|/H2] //.
  - cbn [List.concat]. by rewrite big_cat big_cons /= P2 -P1 prodrXl.
Qed.
Lemma cz_loop_ok fuel : forall k (l : seq (seq F)) (fs : fact), okf div ffa fs -> (forall u, u \in l -> St k u) ->
  exists o, [/\ @cz_loop O div ffa pchar pexp rnd fuel f n d mult (k * n)%N l fs = Some o,
    forall r, o = Some r -> okf div ffa r /\ ex r = ex fs * \prod_(u <- l) Poly u ^+ N.to_nat mult &
    (0 < fuel)%N -> separated (k + fuel.-1) -> o <> None].
Proof.
  elim: fuel => [|fuel IH] k l fs Of Hl. { exists None. by split. }
  cbn [cz_loop]. have [|l' [fs' [-> O' X' H']]] := @cz_filter_ok R div D FD ffa FA d mult mult0 l fs Of. { move=> u /Hl [M S1 _ Hd _]. split=> // Hs. exact: irr_deg S1 Hd Hs. }
  cbn [obind fst snd]. have Hl' u : u \in l' -> St k u by move=> /H' [/Hl].
  case El: l' => [|u0 l0]. { exists (Some fs'). split=> // r [<-]. split=> //. by rewrite -X' El big_nil mulr1. }
  rewrite -El -[List.map _ _]/(HH k). have [ls [-> H2 P2]] := splits_St Hl'. cbn [obind]. have -> : (k * n + n)%coq_nat = (k.+1 * n)%N by rewrite plusE mulSnr.
  have [o [E1 E2 E3]] := IH k.+1 (List.concat ls) fs' O' H2. exists o. split=> //.
  - move=> r /E2 [H3 ->]. by rewrite P2.
  - move=> _ /=. case: fuel E3 {IH E1} => [|fuel] E3.
    + rewrite addn0 => HS. exfalso. have H0 : u0 \in l' by rewrite El mem_head. have [_] := H' _ H0. by rewrite (single_irr (Hl' _ H0) HS) eqxx.
    + rewrite -addSnnS. exact: E3.
Qed.
(* one distinct degree factor *)
Lemma cz_one_ok fuel (fs : fact) : (0 < d)%N -> (1 < size (Poly f))%N -> sep (Poly f) -> irr_eq d (Poly f) -> okf div ffa fs ->
  exists o, [/\ @cz_one O div ffa pchar pexp rnd fuel (@Ddf O d f, mult) fs = Some o,
    forall r, o = Some r -> okf div ffa r /\ ex r = ex fs * Poly f ^+ N.to_nat mult &
    (0 < fuel)%N -> separated fuel.-1 -> o <> None].
Proof.
  move=> d0 S1 Sf Hd Of. rewrite /cz_one. cbn [dd_poly dd_degree fst snd]. rewrite p_degreeE. case Es: (size (Poly f)) => [|n]; first by rewrite Es in S1. cbn [obind].
  have -> : Nat.eqb d 0 = false by case: (d) d0. cbn [negb]. cbn match.
  have [m Em] : exists m, n = (m * d)%N.
  { have [m Hm] := deg_mul (monic_neq0 Mf) Hd. exists m. by rewrite -Hm Es. }
  have -> : Nat.eqb (Nat.modulo n d) 0 by rewrite Em Nat.mod_mul; case: (d) d0. cbn match.
  have H0 : forall u, u \in [:: f] -> St 0 u by move=> u; rewrite inE => /eqP ->; split=> //; split.
  have [o [E1 E2 E3]] := @cz_loop_ok fuel 0 [:: f] fs Of H0. rewrite Es /= in E1. exists o. split=> //. move=> r /E2. by rewrite big_seq1.
Qed.
End S.
