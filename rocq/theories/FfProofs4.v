(* Berlekamp's algorithm (FfModel) against {poly F}. *)
From Coq Require Import List Arith NArith Bool.
From mathcomp Require Import all_ssreflect all_fingroup all_algebra all_solvable all_field separable.
From mathcomp Require Import zify.
From Coq Require Import Lia.
From Verif Require Import RingSpec RingModel RingProofs FactoredSpec FactoredModel FactoredProofs PermModel MatModel MatSpec MatProofs2 LatModel LatSpec LatProofs LatProofs2 LatProofs3 PolyModel PolyProofs PolyProofs2 PolyProofs3 PolyProofs10 PolyProofs11 PolyProofs12 FacModel FacProofs FacProofs2 FacProofs3 FacProofs4 FfModel FfProofs FfProofs2.
Close Scope rs_scope.
Set Implicit Arguments.
Unset Strict Implicit.
Unset Printing Implicit Defensive.
Import GRing.Theory.
Local Open Scope ring_scope.

Section S.
Variable R : idomainType.
Notation O := (mc_ops R).
Notation P := (poly_ops O).
Variable div : div_op O.
Variable ffa : ffa_op O.
Variable xgcd : R -> R -> R * R * R.
Hypothesis BZ : bezout_laws div ffa xgcd.
Hypothesis FD : forall x y : R, y != 0 -> exists q, div x y = DivOk q.
Let D : idom_laws O div := bz_idom BZ.
Let FA : ffa_laws O ffa := bz_ffa BZ.
Variable elems : seq R.
Hypothesis EL : forall x : R, List.In x elems.
Notation q := (length elems).
Hypothesis Hq1 : forall a : R, a ^+ q = a.
Hypothesis Hq2 : forall A B : {poly R}, (A + B) ^+ q = A ^+ q + B ^+ q.
Implicit Types (f g h a b c : seq R) (A B Q H : {poly R}).
Let FU : forall x : R, x != 0 -> x \is a GRing.unit := field_unit D FD.

(* ------------------------------------------------------------------ h^q = h modulo f *)
Lemma q_pos : (0 < q)%N.
Proof. have := EL 0. by case: elems. Qed.
Lemma sum_q (I : Type) (r : seq I) (G : I -> {poly R}) : (\sum_(i <- r) G i) ^+ q = \sum_(i <- r) G i ^+ q.
Proof. elim: r => [|i r IH]; first by rewrite !big_nil expr0n; case: (q) q_pos. by rewrite !big_cons Hq2 IH. Qed.
Lemma neg_q A : (- A) ^+ q = - A ^+ q.
Proof. apply/eqP. rewrite -subr_eq0 opprK addrC -Hq2 subrr expr0n. by case: (q) q_pos. Qed.
Lemma frob_lin A : A ^+ q - A = \sum_(i < size A) A`_i *: ('X^(i * q) - 'X^i).
Proof.
  rewrite -{1 2}[A]coefK poly_def sum_q -sumrB. apply: eq_bigr => i _. by rewrite exprZn Hq1 -exprM scalerBr.
Qed.
Section Ker.
Variable f : {poly R}.
Notation n := (size f).-1.
Variables qp rp : nat -> {poly R}.
Hypothesis f0 : f != 0.
Hypothesis Hrp : forall i, (i < n)%N -> 'X^(i * q) - 'X^i = qp i * f + rp i /\ (size (rp i) < size f)%N.
Definition Bm : 'M[R]_n := \matrix_(i, j) (rp i)`_j.
Lemma rowsE (v : 'rV[R]_n) : v *m Bm = poly_rV (\sum_(i < n) v 0 i *: rp i).
Proof. apply/rowP => j. rewrite !mxE coef_sum. apply: eq_bigr => i _. by rewrite !mxE coefZ. Qed.
Lemma size_rows (v : 'rV[R]_n) : (size (\sum_(i < n) v 0 i *: rp i)%R <= n)%N.
Proof.
  apply: leq_trans (size_sum _ _ _) _. apply/bigmax_leqP => i _. apply: leq_trans (size_scale_leq _ _) _. have [_] := Hrp (ltn_ord i). move: f0. rewrite -size_poly_gt0. move: (size f) (size (rp i)) => x y. lia.
Qed.
Lemma frob_rV (v : 'rV[R]_n) : (rVpoly v) ^+ q - rVpoly v = \sum_(i < n) v 0 i *: ('X^(i * q) - 'X^i).
Proof.
  have -> : rVpoly v = \sum_(i < n) v 0 i *: 'X^i.
  { apply/polyP => j. rewrite coef_rVpoly coef_sum. case: insubP => [i _ Ei|Hj].
    - rewrite (bigD1 i) //= coefZ coefXn Ei eqxx mulr1 big1 ?addr0 // => k Hk. rewrite coefZ coefXn -Ei. case: eqP => [E|_]; last by rewrite mulr0. case/eqP: Hk. by apply/val_inj.
    - rewrite big1 // => i _. rewrite coefZ coefXn. case: eqP => [E|_]; last by rewrite mulr0. by rewrite E ltn_ord in Hj. }
  rewrite sum_q -sumrB. apply: eq_bigr => i _. by rewrite exprZn Hq1 -exprM scalerBr.
Qed.
Lemma kerE (v : 'rV[R]_n) : v *m Bm = 0 <-> f %| (rVpoly v) ^+ q - rVpoly v.
Proof.
  rewrite rowsE frob_rV. set S := \sum_(i < n) v 0 i *: rp i.
  have [Qt EQ] : exists Qt, \sum_(i < n) v 0 i *: ('X^(i * q) - 'X^i) = Qt * f + S.
  { exists (\sum_(i < n) v 0 i *: qp i). rewrite mulr_suml -big_split /=. apply: eq_bigr => i _. rewrite -scalerAl -scalerDr. by have [-> _] := Hrp (ltn_ord i). }
  rewrite EQ dvdp_addr ?dvdp_mulIr //. split=> [E|Hd].
  - have -> : S = 0. { apply/polyP => i. rewrite coef0. case: (ltnP i n) => Hi; last by rewrite nth_default // (leq_trans (size_rows v)). have := congr1 (fun w : 'rV_n => w 0 (Ordinal Hi)) E. by rewrite !mxE. } exact: dvdp0.
  - have -> : S = 0; last by rewrite linear0. apply/eqP. apply: contraTT Hd => S0. apply/negP => /(dvdp_leq S0). rewrite leqNgt => /negP; apply. apply: leq_ltn_trans (size_rows v) _. move: f0. rewrite -size_poly_gt0. move: (size f) => x. lia.
Qed.
End Ker.

(* ------------------------------------------------------------------ a splitting h exists unless f is irreducible *)
Lemma sep_coprime A B : coprimep (A * B) (A * B)^`() -> coprimep A B.
Proof.
  move=> C. apply/coprimepP => G HA HB. have [A' EA] := dvdE D FD HA. have [B' EB] := dvdE D FD HB.
  move/coprimepP: C => /(_ G); apply; first by rewrite EA dvdp_mulr // dvdp_mulIr.
  rewrite derivM dvdp_add //; [exact: dvdp_mull|exact: dvdp_mulr].
Qed.
Lemma bezout A B : coprimep A B -> exists U V, U * A + V * B = 1.
Proof.
  case/Bezout_coprimepP => [[U V]] /=. rewrite -size_poly_eq1 => /size_poly1P [c c0 E]. exists (c^-1 *: U), (c^-1 *: V).
  by rewrite -!scalerAl -scalerDr E -mul_polyC -polyCM mulVr // FU.
Qed.
Lemma pow_q_dvd A B : A %| B -> A %| B ^+ q.
Proof. move=> H. case: (q) q_pos => // k _. by rewrite exprS dvdp_mulr. Qed.
Lemma idem_dvd A B U V : coprimep A B -> U * A + V * B = 1 -> A * B %| (U * A) ^+ q - U * A.
Proof.
  move=> C E. rewrite Gauss_dvdp //. apply/andP. split.
  - by rewrite dvdp_sub ?pow_q_dvd ?dvdp_mulIr.
  - have -> : U * A = 1 + - (V * B) by rewrite -E addrK. rewrite Hq2 expr1n neg_q. rewrite [1 - _ ^+ q]addrC addrKA opprK. apply: dvdp_add; last exact: dvdp_mulIr. rewrite dvdpNr pow_q_dvd //. exact: dvdp_mulIr.
Qed.
Lemma modp_ex A B : B != 0 -> exists Q r : {poly R}, A = Q * B + r /\ (size r < size B)%N.
Proof.
  move=> B0. have := pquoremP D FD (polyseq A) (polyseq B). case: pquorem => [[qq r]|]; rewrite !polyseqK; last by move=> E; rewrite E eqxx in B0.
  case=> _ E S. by exists (Poly qq), (Poly r).
Qed.
Lemma split_ex A B : coprimep (A * B) (A * B)^`() -> (1 < size A)%N -> (1 < size B)%N ->
  exists h : {poly R}, [/\ (size h < size (A * B)%R)%N, A * B %| h ^+ q - h, (1 < size (gcdp h (A * B)))%N & (size (gcdp h (A * B)) < size (A * B)%R)%N].
Proof.
  move=> C SA SB. have C' := sep_coprime C. have [U [V E]] := bezout C'. have A0 : A != 0 by rewrite -size_poly_gt0; apply: ltn_trans SA. have B0 : B != 0 by rewrite -size_poly_gt0; apply: ltn_trans SB.
  have AB0 : A * B != 0 by rewrite mulf_neq0. have [Q [h [Eh Sh]]] := modp_ex (U * A) AB0. exists h.
  have Eh' : h = U * A + - (Q * (A * B)) by rewrite Eh addrAC subrr add0r.
  have Ah : A %| h by rewrite Eh' dvdp_add ?dvdp_mulIr // dvdpNr dvdp_mull // dvdp_mulIl.
  split=> //.
  - rewrite Eh' Hq2 neg_q opprD opprK addrACA dvdp_add //; first exact: idem_dvd C' E. by rewrite dvdp_add ?dvdp_mulIr // dvdpNr pow_q_dvd // dvdp_mulIr.
  - apply: leq_trans SA _. apply: dvdp_leq; first by rewrite gcdp_eq0 negb_and AB0 orbT. by rewrite dvdp_gcd Ah dvdp_mulIl.
  - rewrite ltnNge. apply/negP => Hs. have : B %| h.
    { have H1 : gcdp h (A * B) %| A * B := dvdp_gcdr _ _. have H2 : gcdp h (A * B) %= A * B. { rewrite -(dvdp_size_eqp H1). by rewrite eqn_leq Hs dvdp_leq. }
      apply: dvdp_trans (dvdp_gcdl h (A * B)). rewrite (eqp_dvdr _ H2). exact: dvdp_mulIr. }
    rewrite Eh' dvdp_addl; last by rewrite dvdpNr dvdp_mull // dvdp_mulIr. have -> : U * A = 1 - V * B by rewrite -E addrK. rewrite dvdp_addl ?dvdpNr ?dvdp_mulIr // => /(dvdp_leq (oner_neq0 _)). rewrite size_poly1. by rewrite leqNgt SB.
Qed.

(* ------------------------------------------------------------------ the search *)
Lemma p_sumE (l : seq (seq R)) : Poly (@p_sum O l) = \sum_(x <- l) Poly x.
Proof.
  rewrite /p_sum. have main : forall (s : seq R), Poly (List.fold_left (fun s x => @p_add O s x) l s) = Poly s + \sum_(x <- l) Poly x.
  { elim: l => [|x l IH] s /=; first by rewrite big_nil addr0. by rewrite IH big_cons p_addE Poly_polyseq addrA. }
  by rewrite main /= add0r.
Qed.
Lemma try_ok f k (basis : seq (seq R)) (b : nat -> seq R) (cands : seq (seq R)) :
  Poly f != 0 -> (forall i, (i < k)%N -> List.nth_error basis i = Some (b i)) -> (forall c, List.In c cands -> size c = k) ->
  exists r, @berlekamp_try O div ffa f (size (Poly f)).-1 k basis cands = Some r /\ match r with
    | FFComposite g h => [/\ Poly f = Poly (g : seq R) * Poly (h : seq R), (1 < size (Poly (g : seq R)))%N & (1 < size (Poly (h : seq R)))%N]
    | FFIrreducible => forall c : seq R, List.In c cands -> let H := \sum_(0 <= i < k) c`_i *: Poly (b i) in size (gcdp H (Poly f)) = 1%N \/ size (gcdp H (Poly f)) = size (Poly f) end.
Proof.
  move=> f0 Hb. elim: cands => [|c cs IH] Hc; first by exists FFIrreducible.
  cbn [berlekamp_try]. have Hck : size c = k by apply: Hc; left.
  rewrite (@mapM_range _ k (fun i => @p_mul O [:: c`_i] (b i))); last by move=> i Hi; rewrite (@nth_errorE _ _ _ 0) ?Hck //= Hb.
  cbn [obind]. set hs := List.map _ _.
  have Eh : Poly (@p_sum O hs) = \sum_(0 <= i < k) c`_i *: Poly (b i).
  { rewrite p_sumE /hs mapE big_map /range seqE /index_iota Nat.sub_0_r subn0. apply: eq_bigr => i _. by rewrite p_mulE Poly_polyseq Poly1 mul_polyC. }
  have [g [Eg Hg Mg]] := pgcd_ok D FD FA (@p_sum O hs) f. rewrite Eg. cbn [obind]. rewrite Eh in Hg. set H := \sum_(0 <= i < k) _ in Eh Hg.
  have g0 : Poly g != 0 by apply: monic_neq0; apply: Mg; rewrite f0 orbT. rewrite p_degreeE. have Sg := eqp_size Hg. move: (g0). rewrite -size_poly_gt0. case Es: (size (Poly g)) => [|d] // _. cbn [obind].
  have [Q EQ] : exists Q, Poly f = Q * Poly g by apply: (dvdE D FD); rewrite (eqp_dvdl _ Hg) dvdp_gcdr.
  have Q0 : Q != 0 by apply/eqP => Z; move: f0; rewrite EQ Z mul0r eqxx.
  case: ifP => [/andP [/negPf H1 /negPf H2]|HN].
  - have [g' [Eg' EQ']] := div_unwrap_ok D g0 EQ. rewrite Eg'. cbn [obind]. exists (FFComposite (R := P) g g'). split=> //. split; first by rewrite EQ' mulrC.
    + rewrite Es. by case: (d) H1.
    + rewrite EQ'. have := size_mul Q0 g0. rewrite -EQ Es => Ef. move/Nat.eqb_neq: H2. move/Nat.eqb_neq: H1. move: (Q0). rewrite -size_poly_gt0. move: Ef. move: (size (Poly f)) (size Q) => x y Ef Q1 H1 H2. lia.
  - have [r [Er Hr]] : exists r, @berlekamp_try O div ffa f (size (Poly f)).-1 k basis cs = Some r /\ match r with
    | FFComposite g h => [/\ Poly f = Poly (g : seq R) * Poly (h : seq R), (1 < size (Poly (g : seq R)))%N & (1 < size (Poly (h : seq R)))%N]
    | FFIrreducible => forall c : seq R, List.In c cs -> let H := \sum_(0 <= i < k) c`_i *: Poly (b i) in size (gcdp H (Poly f)) = 1%N \/ size (gcdp H (Poly f)) = size (Poly f) end by apply: IH => x Hx; apply: Hc; right.
    exists r. rewrite Er. split=> //. case: r Hr {Er} => // Hr x [<-|Hx]; last exact: Hr. rewrite -Sg Es. move: HN. rewrite -negb_or => /negbFE /orP [/Nat.eqb_eq ->|/Nat.eqb_eq ->]; first by left. right. rewrite prednK // size_poly_gt0. exact: f0.
Qed.
Lemma in_cart_el n (l : seq R) : List.In l (cartesian (List.repeat elems n)) <-> size l = n.
Proof.
  elim: n l => [|n IH] l. { cbn [List.repeat cartesian]. split; [by case=> // <-|move/size0nil ->; by left]. }
  cbn [List.repeat]. rewrite in_cart. split; first by case=> x [c' [-> _ /IH /= ->]]. case: l => // x l [/IH H]. exists x, l. by split=> //; exact: EL.
Qed.
Lemma berl_ok f : (1 < size (Poly f))%N -> coprimep (Poly f) (Poly f)^`() ->
  exists r, @find_factor_by_berlekamps_algorithm O div ffa xgcd elems f = Some r /\ match r with
    | FFComposite g h => [/\ Poly f = Poly (g : seq R) * Poly (h : seq R), (1 < size (Poly (g : seq R)))%N & (1 < size (Poly (h : seq R)))%N]
    | FFIrreducible => forall A B : {poly R}, Poly f = A * B -> (size A <= 1)%N \/ (size B <= 1)%N end.
Proof.
  move=> Sf Cf. have f0 : Poly f != 0 by rewrite -size_poly_gt0; apply: ltn_trans Sf.
  rewrite /find_factor_by_berlekamps_algorithm (sqfree_ok D) (negPf f0). cbn [obind]. rewrite Cf. rewrite p_degreeE. set n := (size (Poly f)).-1.
  have -> : (if size (Poly f) is m.+1 then Some m else None) = Some n by rewrite /n; case: (size (Poly f)) Sf. cbn [obind].
  pose qr i := pquorem div (@p_add O (@p_var_pow O (i * q)) (@p_neg O (@p_var_pow O i))) f.
  pose rp i := if qr i is Some (_, r) then r else [::]. pose qp i := if qr i is Some (u, _) then u else [::].
  have Hqr i : [/\ qr i = Some (qp i, rp i), 'X^(i * q) - 'X^i = Poly (qp i) * Poly f + Poly (rp i) & (size (Poly (rp i)) < size (Poly f))%N].
  { rewrite /qp /rp. have := pquoremP D FD (@p_add O (@p_var_pow O (i * q)) (@p_neg O (@p_var_pow O i))) f. rewrite -/(qr i). case: (qr i) => [[u r]|] H; last by rewrite H eqxx in f0.
    case: H => _ E S. split=> //. by rewrite -E p_addE ?Poly_polyseq p_negE ?Poly_polyseq !p_var_powE. }
  rewrite (@mapM_range _ n rp); last first. { move=> i _. rewrite /pquoremr (p_quorem_total D FD). have [E _ _] := Hqr i. by rewrite -/(qr i) E. }
  cbn [obind]. 
  have [mat [Em Hm]] : exists m, construct n n (fun i j => do row <- List.nth_error (List.map rp (range 0 n)) i; Some (@p_coeff O row j)) = Some m /\ represents m (Bm (Poly f) (fun i => Poly (rp i))).
  { apply: construct_repr => i j. rewrite mxE mapE (@nth_errorE _ _ _ [::]) ?size_map /range ?seqE ?size_iota ?Nat.sub_0_r //. rewrite (nth_map 0%N) ?size_iota // nth_iota // add0n. cbn [obind]. by rewrite p_coeffE. }
  rewrite Em. cbn [obind]. have [ker [Ek [k [Bs [HB HP]]]]] := row_kernel_ok BZ Hm. rewrite Ek. cbn [obind]. rewrite (lrank_ok HB).
  have [ms [Ems [Lms Hms]]] := basis_matrices_ok HB. rewrite Ems. cbn [obind].
  pose b (i : nat) : seq R := if (insub i : option 'I_k) is Some j then [seq Bs j 0 t | t <- enum 'I_n] else [::].
  have [kb [Ekb Hkb]] : exists kb, mapM (fun m => mapM (fun c : nat => get (m : matrix R) 0%N c) (range 0 n)) ms = Some kb /\ forall i, (i < k)%N -> List.nth_error kb i = Some (b i).
  { have Hrow (i : 'I_k) m : represents m (Bs i) -> mapM (fun c : nat => get (m : matrix R) 0%N c) (range 0 n) = Some [seq Bs i 0 t | t <- enum 'I_n].
    { move=> Hmi. have [l [-> Ll Hl]] := @mapM_fam _ n (fun t => Bs i 0 t) (fun c : nat => get m 0%N c) (fun t => repr_getE 0 t Hmi). congr Some. apply: (@eq_from_nth _ 0); first by rewrite size_map size_enum_ord; exact: Ll.
      move=> t Ht. have Ht' : (t < n)%N by rewrite -[n]Ll. have := Hl (Ordinal Ht'). rewrite (@nth_errorE _ _ _ 0) // => -[->]. by rewrite (nth_map (Ordinal Ht')) ?size_enum_ord // (nth_ord_enum _ (Ordinal Ht')). }
    have [kb [H1 [H2 H3]]] : exists kb, mapM (fun m => mapM (fun c : nat => get (m : matrix R) 0%N c) (range 0 n)) ms = Some kb /\ length kb = length ms /\ forall i m, List.nth_error ms i = Some m -> List.nth_error kb i = mapM (fun c : nat => get (m : matrix R) 0%N c) (range 0 n).
    { have Ht : forall m, List.In m ms -> exists r, mapM (fun c : nat => get (m : matrix R) 0%N c) (range 0 n) = Some r. { move=> m /(lrepr_in (conj Lms Hms)) [i Hi]. exists [seq Bs i 0 t | t <- enum 'I_n]. exact: Hrow. }
      elim: (ms) Ht => [|m ms' IH] Ht; first by exists [::]; split=> //; split=> // -[]. have [r Er] := Ht m (or_introl erefl). have [kb [E1 [E2 E3]]] := IH (fun m' z => Ht m' (or_intror z)).
      exists (r :: kb). cbn [mapM]. rewrite Er. cbn [obind]. rewrite E1. split=> //. split; first by rewrite /= E2. move=> [|i] m' /=; [by case=> <-; rewrite Er|exact: E3]. }
    exists kb. split=> // i Hi. have [m [Em' Rm]] := Hms (Ordinal Hi). rewrite (H3 _ _ Em') (Hrow _ _ Rm) /b insubT /=. by []. }
  rewrite Ekb. cbn [obind].
  have Hsz : forall c, List.In c (cartesian (List.repeat elems k)) -> size c = k by move=> c /in_cart_el.
  have [r [Er Hr]] := try_ok f0 Hkb Hsz. exists r. split; first exact: Er. case: r Hr {Er} => // Hr A B EAB.
  case: (leqP (size A) 1) => SA; first by left. case: (leqP (size B) 1) => SB; first by right. exfalso.
  rewrite EAB in Cf. have [h [Sh Dh G1 G2]] := split_ex Cf SA SB. rewrite -EAB in Sh Dh G1 G2.
  have Hk : forall v, v *m Bm (Poly f) (fun i => Poly (rp i)) = 0 <-> Poly f %| (rVpoly v) ^+ q - rVpoly v.
  { apply: (@kerE (Poly f) (fun i => Poly (qp i)) (fun i => Poly (rp i))) => // i _. by have [_ E1 E2] := Hqr i. }
  have Eh : rVpoly (poly_rV h : 'rV_n) = h. { apply: poly_rV_K. move: Sh. rewrite /n. move: (size h) (size (Poly f)) => x y. lia. }
  have : poly_rV h *m Bm (Poly f) (fun i => Poly (rp i)) = 0 by apply/Hk; rewrite Eh.
  move/HP => [c Ec].
  have /Hr : List.In [seq c i | i <- enum 'I_k] (cartesian (List.repeat elems k)) by apply/in_cart_el; rewrite size_map size_enum_ord.
  have -> : \sum_(0 <= i < k) [seq c i | i <- enum 'I_k]`_i *: Poly (b i) = h.
  { rewrite big_mkord -Eh Ec linear_sum. apply: eq_bigr => i _. rewrite (nth_map i) ?size_enum_ord // nth_ord_enum linearZ /=. congr (_ *: _). rewrite /b valK.
    apply/polyP => j. rewrite coef_Poly coef_rVpoly. case: insubP => [u Hu <-|Hj]; last by rewrite nth_default // size_map size_enum_ord leqNgt. rewrite (nth_map u) ?size_enum_ord; last exact: ltn_ord. by rewrite -[val u]/(nat_of_ord u) nth_ord_enum. }
  case=> E; move: G1 G2; rewrite E ?ltnn //.
Qed.
End S.
