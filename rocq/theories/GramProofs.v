(* Gram-Schmidt (matrix.rs l.1477-1613) over a field with an anisotropic Hermitian form. *)
From Coq Require Import List NArith ZArith.
From mathcomp Require Import all_ssreflect all_algebra.
From Coq Require Import Lia.
From Verif Require Import RingSpec RingModel PermModel MatModel GramModel MatSpec MatInst MatProofs MatProofs2 MatProofs3 MatProofs5 MatProofs6 MatProofs7 LatProofs.
Close Scope rs_scope.
Set Implicit Arguments.
Unset Strict Implicit.
Unset Printing Implicit Defensive.
Import GRing.Theory.
Local Open Scope ring_scope.

Lemma forallb_true (A : Type) (l : list A) : List.forallb (fun _ => true) l = true. Proof. by elim: l. Qed.
Lemma forM_opt (S : Type) (body : nat -> S -> option S) (P : nat -> S -> Prop) (Bad : Prop) n s :
  (forall k s, (k < n)%N -> P k s -> match body k s with Some s' => P k.+1 s' | None => Bad end) -> P 0%N s ->
  match forM (range 0 n) body s with Some s' => P n s' | None => Bad end.
Proof.
  elim: n => [|n IH] H P0; first by [].
  rewrite range_succ forM_app. have := IH (fun k s L => H k s (ltnW L)) P0. case: (forM _ _ s) => [s'|] //= Hs.
  have := H n s' (ltnSn n) Hs. by case: (body n s').
Qed.
Section Gram.
Variable K : fieldType.
Variable conj : {rmorphism K -> K}.
Hypothesis CC : involutive conj.
Notation O := (mc_ops [comRingType of K]).
Notation mat := (matrix (T O)).
Definition ip q (u v : 'rV[K]_q) : K := \sum_k u 0 k * conj (v 0 k).
Hypothesis ANI : forall q (v : 'rV[K]_q), ip v v = 0 -> v = 0.
Lemma ipDl q (u v w : 'rV[K]_q) : ip (u + v) w = ip u w + ip v w.
Proof. rewrite /ip -big_split /=. apply: eq_bigr => k _. by rewrite mxE mulrDl. Qed.
Lemma ipZl q a (u w : 'rV[K]_q) : ip (a *: u) w = a * ip u w.
Proof. rewrite /ip big_distrr /=. apply: eq_bigr => k _. by rewrite mxE mulrA. Qed.
Lemma ip_sym q (u v : 'rV[K]_q) : conj (ip u v) = ip v u.
Proof. rewrite /ip rmorph_sum. apply: eq_bigr => k _. by rewrite rmorphM CC mulrC. Qed.
Lemma ip_sym0 q (u v : 'rV[K]_q) : ip u v = 0 -> ip v u = 0.
Proof. move=> H. by rewrite -ip_sym H rmorph0. Qed.
Lemma ip0l q (w : 'rV[K]_q) : ip 0 w = 0.
Proof. by rewrite /ip big1 // => k _; rewrite mxE mul0r. Qed.
Lemma inner_repr q (a b : mat) (u v : 'rV[K]_q) : represents a u -> represents b v -> @inner_product O conj a b = Some (ip u v).
Proof.
  move=> Ha Hb. rewrite /inner_product (dot_repr Ha (repr_apply_map conj Hb)). congr Some. rewrite big_ord1. apply: eq_bigr => k _. by rewrite mxE.
Qed.
Lemma row_repr p q (m : mat) (M : 'M[K]_(p,q)) (i : 'I_p) : represents m M -> exists t, get_row m i = Some t /\ represents t (row i M).
Proof. move=> Hm. rewrite /get_row (repr_cols Hm). exact: sub_one_row. Qed.
Section Mat.
Variables (p q : nat) (A : 'M[K]_(p,q)).
Definition addrow (i j : 'I_p) (x : K) r (M : 'M[K]_(p,r)) : 'M[K]_(p,r) := \matrix_(a, b) if a == i then M i b + x * M j b else M a b.
Lemma addrow_row i j x r (M : 'M[K]_(p,r)) a : row a (addrow i j x M) = if a == i then row i M + x *: row j M else row a M.
Proof. apply/rowP => b. rewrite !mxE. case: eqP => _; by rewrite !mxE. Qed.
Lemma addrow_mul i j x (L : 'M[K]_p) : addrow i j x (L *m A) = addrow i j x L *m A.
Proof.
  apply/row_matrixP => a. rewrite row_mul !addrow_row. case: eqP => _; last by rewrite row_mul.
  by rewrite !row_mul mulmxDl -scalemxAl.
Qed.
Lemma step_repr (lt m : mat) (L : 'M[K]_p) (M : 'M[K]_(p,q)) (i j : 'I_p) : represents lt L -> represents m M -> i != j ->
  let n := ip (row j M) (row j M) in let x := - (ip (row i M) (row j M) / n) in
  if n == 0 then @gs_step O (@Fdiv K) conj i j (lt, m) = None
  else exists lt' m', [/\ @gs_step O (@Fdiv K) conj i j (lt, m) = Some (lt', m'), represents lt' (addrow i j x L) & represents m' (addrow i j x M)].
Proof.
  move=> HL HM Hij. rewrite /=. rewrite /gs_step. case: (row_repr i HM) => ri [-> Hri]. case: (row_repr j HM) => rj [-> Hrj]. cbn [obind].
  rewrite (inner_repr Hri Hrj) (inner_repr Hrj Hrj). cbn [obind]. case: ifP => Hn; rewrite {1}/Fdiv Hn; cbn [obind ok_of]; first by [].
  set x := _ / _. set o := @AddRowMul O _ _ _.
  have Ho : op_ok p o. { split=> /=; last exact: unitr1. split; try exact: ltn_ord. by apply/eqP. }
  case: (opp_apply_row (@Fidom K) HL Ho) => lt' [-> Rl]. cbn [obind]. case: (opp_apply_row (@Fidom K) HM Ho) => m' [-> Rm]. cbn [obind].
  have E r (N : 'M[K]_(p,r)) : opmx p o *m N = addrow i j (- x) N.
  { apply/matrixP => a b. rewrite [RHS]mxE /o /= !valK E2_mul. rewrite mul1r. case: eqP => // _. case: eqP => // ->. by rewrite mul0r mul1r add0r. }
  exists lt', m'. by rewrite -!E.
Qed.
(* ------------------------------------------------------------------ the invariant *)
Definition lower_uni (L : 'M[K]_p) : Prop := forall a b, L a b = if a == b then 1 else if (a < b)%N then 0 else L a b.
Definition dep : Prop := exists c : 'rV[K]_p, [/\ c != 0, forall i : 'I_p, i.+1 = p -> c 0 i = 0 & c *m A = 0].
Definition Inv (n : nat) (s : mat * mat) : Prop := exists L M, [/\ represents s.1 L, represents s.2 M, M = L *m A, lower_uni L &
  (forall a b : 'I_p, (b < a)%N -> (a < n)%N -> ip (row a M) (row b M) = 0) /\ forall b : 'I_p, (b.+1 < n)%N -> ip (row b M) (row b M) != 0].
Definition Inv2 (n : 'I_p) (j : nat) (s : mat * mat) : Prop := exists L M, [/\ represents s.1 L, represents s.2 M, M = L *m A, lower_uni L &
  [/\ (forall a b : 'I_p, (b < a)%N -> (a < n)%N -> ip (row a M) (row b M) = 0), (forall b : 'I_p, (b < j)%N -> ip (row n M) (row b M) = 0),
      (forall b : 'I_p, (b.+1 < n)%N -> ip (row b M) (row b M) != 0) & forall b : 'I_p, (b < j)%N -> ip (row b M) (row b M) != 0]].
Lemma dep_of (L : 'M[K]_p) (M : 'M[K]_(p,q)) (j : 'I_p) : M = L *m A -> lower_uni L -> (j.+1 < p)%N -> ip (row j M) (row j M) = 0 -> dep.
Proof.
  move=> E HL Hj /ANI Z. exists (row j L). split.
  - apply/eqP => /rowP /(_ j). rewrite !mxE HL eqxx. exact/eqP/oner_neq0.
  - move=> i Hi. have Hji : (j < i)%N by rewrite -ltnS Hi. by rewrite mxE HL Hji; case: eqP => // Eji; move: Hji; rewrite Eji ltnn.
  - by rewrite -row_mul -E.
Qed.
Lemma inner_loop (n : 'I_p) s : Inv n s -> match forM (range 0 n) (@gs_step O (@Fdiv K) conj n) s with Some s' => Inv n.+1 s' | None => dep end.
Proof.
  move=> I0. have : match forM (range 0 n) (@gs_step O (@Fdiv K) conj n) s return Prop with Some s' => Inv2 n n s' | None => dep end.
  { apply: (@forM_opt _ _ (Inv2 n) dep n s); last first. { case: I0 => L [M [H1 H2 H3 H4 [H5 H6]]]. exists L, M. by split. }
    move=> k [lt m] Hk [L [M [H1 H2 H3 H4 [H5 H6 H7 H8]]]]. cbn [fst snd] in H1, H2. have Hkp : (k < p)%N by apply: ltn_trans Hk _.
    pose j : 'I_p := Ordinal Hkp. have Hnj : n != j by apply/eqP => E; move: Hk; rewrite E ltnn.
    have := step_repr H1 H2 Hnj. cbv zeta. change (nat_of_ord j) with k. case: ifP => Hn.
    - move=> ->. apply: (dep_of H3 H4 (j := j)); last exact/eqP. exact: leq_ltn_trans Hk (ltn_ord n).
    - set x := - _. case=> lt' [m' [-> R1 R2]]. exists (addrow n j x L), (addrow n j x M). split=> //=; [by rewrite H3 addrow_mul| |split].
      + move=> a b. rewrite mxE. case: (a =P n) => [->|Ha]; last exact: H4.
        rewrite (H4 n b) (H4 j b). case: (n =P b) => [E|_].
        * have -> : (j == b) = false by rewrite -E eq_sym; exact/negbTE. by rewrite -E /= Hk mulr0 addr0.
        * case: ifP => // Hb. have Hjb : (j < b)%N by exact: ltn_trans Hk Hb. rewrite Hjb. case: eqP => [Ej|_]; last by rewrite mulr0 addr0. by move: Hjb; rewrite Ej ltnn.
      + move=> a b Hba Han. rewrite !addrow_row. have Hbn := ltn_trans Hba Han.
        have -> : (a == n) = false by apply/eqP => E; move: Han; rewrite E ltnn. have -> : (b == n) = false by apply/eqP => E; move: Hbn; rewrite E ltnn. exact: H5.
      + move=> b Hb. have Hbn : (b < n)%N by apply: leq_trans Hb Hk. rewrite !addrow_row eqxx. have -> : (b == n) = false by apply/eqP => E; move: Hbn; rewrite E ltnn.
        rewrite ipDl ipZl. move: Hb. rewrite ltnS leq_eqVlt => /orP [/eqP E|Hb].
        * have -> : b = j by apply/val_inj. rewrite /x mulNr divfK ?Hn // subrr //. 
        * by rewrite H6 // (H5 j b Hb Hk) mulr0 addr0.
      + move=> b Hb. rewrite !addrow_row. have -> : (b == n) = false by apply/eqP => E; move: Hb; rewrite E ltnNge leqnSn. exact: H7.
      + move=> b Hb. have Hbn : (b < n)%N by apply: leq_trans Hb Hk. rewrite !addrow_row. have -> : (b == n) = false by apply/eqP => E; move: Hbn; rewrite E ltnn.
        move: Hb. rewrite ltnS leq_eqVlt => /orP [/eqP E|Hb]; last exact: H8. have -> : b = j by apply/val_inj. by rewrite Hn. }
  case: (forM _ _ s) => // s' [L [M [H1 H2 H3 H4 [H5 H6 H7 H8]]]]. exists L, M. split=> //. split.
  - move=> a b Hba. rewrite ltnS leq_eqVlt => /orP [/eqP /val_inj E|Ha]; last exact: H5. rewrite E. apply: H6. by rewrite -E.
  - move=> b. rewrite ltnS => Hb. exact: H8.
Qed.
Lemma outer_loop m : represents m A -> exists lt0, @ident O p = Some lt0 /\
  match forM (range 0 p) (fun i s => forM (range 0 i) (@gs_step O (@Fdiv K) conj i) s) (lt0, m) with Some s' => Inv p s' | None => dep end.
Proof.
  move=> Hm. have [lt0 [E0 R0]] := @ident_repr [comRingType of K] p. exists lt0. split=> //. apply: (@forM_opt _ _ Inv dep p (lt0, m)).
  - move=> k s Hk I. exact: (@inner_loop (Ordinal Hk) s I).
  - exists 1%:M, A. split=> //=; first by rewrite mul1mx. move=> a b. rewrite mxE. by case: eqP => //; case: ifP.
Qed.
Lemma indep L M : M = L *m A -> lower_uni L -> (forall a b : 'I_p, (b < a)%N -> ip (row a M) (row b M) = 0) -> (forall b : 'I_p, (b.+1 < p)%N -> ip (row b M) (row b M) != 0) -> ~ dep.
Proof.
  move=> E HL Or Nz [c [c0 cl Ec]].
  have UL : L \in unitmx.
  { rewrite unitmxE det_trig; last by apply/is_trig_mxP => a b Hab; rewrite HL Hab; case: eqP => // Eab; move: Hab; rewrite Eab ltnn.
    rewrite big1 ?unitr1 // => i _. by rewrite HL eqxx. }
  pose d := c *m invmx L. have Ed : c = d *m L by rewrite mulmxKV.
  have Ed0 : d *m M = 0 by rewrite E mulmxA -Ed.
  have Hlt (j : 'I_p) : (j.+1 < p)%N -> d 0 j = 0.
  { move=> Hj. have : ip (d *m M) (row j M) = 0 by rewrite Ed0 ip0l.
    have -> : d *m M = \sum_k d 0 k *: row k M by rewrite mulmx_sum_row.
    have -> : ip (\sum_k d 0 k *: row k M) (row j M) = \sum_k d 0 k * ip (row k M) (row j M).
    { elim/big_ind2: _ => [|x1 x2 y1 y2 <- <-|i _]; [exact: ip0l|exact: ipDl|exact: ipZl]. }
    rewrite (bigD1 j) //= big1 ?addr0; last first. { move=> i Hi. have [Hij|Hij|Hij] := ltngtP i j; [rewrite (ip_sym0 (Or j i Hij))|rewrite (Or i j Hij)|by move: Hi; rewrite (val_inj Hij) eqxx]; by rewrite mulr0. }
    move/eqP. by rewrite mulf_eq0 (negbTE (Nz j Hj)) orbF => /eqP. }
  have Hall (j : 'I_p) : d 0 j = 0.
  { have [|Hj] := ltnP j.+1 p; first exact: Hlt. have Ej : j.+1 = p by apply/eqP; rewrite eqn_leq Hj andbT. have := cl j Ej. rewrite Ed mxE (bigD1 j) //= HL eqxx mulr1 big1 ?addr0 // => i Hi.
    rewrite Hlt ?mul0r // ltn_neqAle (ltn_ord i) andbT. apply/eqP => E'. move: Hi. have -> : i = j by apply/val_inj/succn_inj; rewrite E' Ej. by rewrite eqxx. }
  move/eqP: c0; apply. rewrite Ed. have -> : d = 0 by apply/rowP => j; rewrite Hall mxE. by rewrite mul0mx.
Qed.
Lemma gram_ok m : represents m A -> match @gram_schmidt_rows O (@Fdiv K) conj m with
  | Some (lt, m') => exists L M, [/\ represents lt L, represents m' M, M = L *m A, lower_uni L & (forall a b : 'I_p, a != b -> ip (row a M) (row b M) = 0) /\ ~ dep]
  | None => dep end.
Proof.
  move=> Hm. rewrite /gram_schmidt_rows (repr_rows Hm). have [lt0 [-> ]] := outer_loop Hm. cbn [obind].
  case: (forM _ _ _) => // [[lt' m']] [L [M [/= H1 H2 H3 H4 [H5 H6]]]]. cbn [obind]. rewrite ?(repr_rows Hm).
  have H5' (a b : 'I_p) : a != b -> ip (row a M) (row b M) = 0.
  { move=> Hab. have [Hij|Hij|Hij] := ltngtP a b; [apply: ip_sym0|..]; try exact: H5. by move: Hab; rewrite (val_inj Hij) eqxx. }
  rewrite (allM_spec _ _ (fun _ => true)); last first.
  { move=> i /in_rangeP /= Hi. rewrite (allM_spec _ _ (fun _ => true)); first by rewrite forallb_true. 
    move=> j /in_rangeP /andP [Hij Hj]. rewrite plusE addn1 in Hij. have [ti [Ei Ri]] := row_repr (Ordinal Hi) H2. have [tj [Ej Rj]] := row_repr (Ordinal Hj) H2.
    rewrite /= in Ei Ej. rewrite Ei Ej. cbn [obind]. rewrite (inner_repr Ri Rj). cbn [obind]. rewrite H5' ?/is_zero /= ?eqxx //. apply/eqP => -[] E. by move: Hij; rewrite E ltnn. }
  rewrite forallb_true. cbn [obind]. have [pr [Ep Rp]] := unwrap_mul H1 Hm. rewrite Ep. cbn [obind]. rewrite (equal_repr H2 Rp) H3 eqxx. cbn [obind].
  exists L, M. split=> //. split=> //. apply: (indep H3 H4) => [a b Hba|b Hb]; [exact: H5|exact: H6].
Qed.
(* ------------------------------------------------------------------ orthonormal rows *)
Variable root : K -> option K.
Hypothesis root_sq : forall x s, root x = Some s -> s * s = x.
Hypothesis root_def : forall r (v : 'rV[K]_r), v != 0 -> exists s, root (ip v v) = Some s /\ conj s = s.
Definition dep_all : Prop := exists c : 'rV[K]_p, c != 0 /\ c *m A = 0.
Definition scaled r (sc : 'I_p -> K) (M : 'M[K]_(p,r)) : 'M[K]_(p,r) := \matrix_(a, b) (sc a * M a b).
Lemma scaled_row r sc (M : 'M[K]_(p,r)) a : row a (scaled sc M) = sc a *: row a M.
Proof. by apply/rowP => b; rewrite !mxE. Qed.
Lemma scaled_mul sc (L : 'M[K]_p) : scaled sc (L *m A) = scaled sc L *m A.
Proof. apply/row_matrixP => a. by rewrite row_mul !scaled_row row_mul scalemxAl. Qed.
Lemma ipZr q' a (u w : 'rV[K]_q') : ip u (a *: w) = conj a * ip u w.
Proof. by rewrite -ip_sym ipZl rmorphM ip_sym. Qed.
Lemma lq_loop (L : 'M[K]_p) (M : 'M[K]_(p,q)) s : represents s.1 L -> represents s.2 M -> M = L *m A -> lower_uni L ->
  match forM (range 0 p) (lq_step (@Fdiv K) conj root) s with
  | Some s' => exists sc, [/\ represents s'.1 (scaled sc L), represents s'.2 (scaled sc M) &
      forall a : 'I_p, [/\ sc a != 0, conj (sc a) = sc a & sc a * sc a * ip (row a M) (row a M) = 1]]
  | None => dep_all end.
Proof.
  move=> H1 H2 E HL.
  pose P n (s : mat * mat) := exists sc, [/\ represents s.1 (scaled sc L), represents s.2 (scaled sc M), forall a : 'I_p, (n <= a)%N -> sc a = 1 &
      forall a : 'I_p, (a < n)%N -> [/\ sc a != 0, conj (sc a) = sc a & sc a * sc a * ip (row a M) (row a M) = 1]].
  have : match forM (range 0 p) (lq_step (@Fdiv K) conj root) s return Prop with Some s' => P p s' | None => dep_all end; last first.
  { case: (forM _ _ _) => // s' [sc [I1 I2 I3 I4]]. exists sc. split=> // a. exact: I4. }
  apply: (@forM_opt _ _ P dep_all p s); last first.
  { have S1 r (N : 'M[K]_(p,r)) : scaled (fun _ => 1) N = N by apply/matrixP => a b; rewrite mxE mul1r. exists (fun _ => 1). rewrite (S1 _ L) (S1 _ M). split=> //. }
  move=> k [lt m] Hk [sc [I1 I2 I3 I4]]. cbn [fst snd] in I1, I2. pose i : 'I_p := Ordinal Hk. rewrite /lq_step. rewrite -[k]/(nat_of_ord i).
  have [t [Et Rt]] := row_repr i I2. rewrite Et. cbn [obind]. rewrite (inner_repr Rt Rt). cbn [obind].
  have Er : row i (scaled sc M) = row i M by rewrite scaled_row I3 // scale1r. rewrite Er.
  have [Z|Nz] := eqVneq (row i M) 0.
  - have B : dep_all. { exists (row i L). split; last by rewrite -row_mul -E. apply/eqP => /rowP /(_ i). rewrite !mxE HL eqxx. exact/eqP/oner_neq0. }
    rewrite Z ip0l. case Eq0: (root 0) => [x|] //. cbn [obind]. have := root_sq Eq0. move/eqP. rewrite mulf_eq0 orbb => /eqP ->. by rewrite {1}/Fdiv eqxx.
  - have [x [Ex Cx]] := root_def Nz. rewrite Ex. cbn [obind]. have Sx := root_sq Ex.
    have x0 : x != 0. { apply/eqP => Zx. move/eqP: Nz; apply. apply: ANI. by rewrite -Sx Zx mulr0. }
    rewrite {1}/Fdiv (negbTE x0). cbn [obind ok_of]. set o := @UnitMul O _ _.
    have Ho : op_ok p o. { split=> /=; first exact: Hk. by rewrite unitfE mulf_neq0 ?oner_neq0 ?invr_eq0. }
    case: (opp_apply_row (@Fidom K) I1 Ho) => lt' [-> Rl]. cbn [obind]. case: (opp_apply_row (@Fidom K) I2 Ho) => m' [-> Rm]. cbn [obind].
    pose sc' a := if a == i then x^-1 else sc a.
    have Eo r (N : 'M[K]_(p,r)) : opmx p o *m scaled sc N = scaled sc' N.
    { apply/matrixP => a b. have Ei : insub k = Some i by exact: (valK i). rewrite /o /opmx Ei E1_mul [RHS]mxE /sc' !mxE. case: (a =P i) => // ->. rewrite I3 // mul1r. rewrite -[LHS]/(N i b * (1 / x)). by rewrite mul1r mulrC. }
    rewrite !Eo in Rl Rm. exists sc'. split=> //.
    + move=> a Ha. rewrite /sc'. have -> : (a == i) = false by apply/eqP => E'; move: Ha; rewrite E' ltnn. apply: I3. exact: ltnW.
    + move=> a. rewrite ltnS leq_eqVlt => /orP [/eqP E'|Ha]; last first. { rewrite /sc'. have -> : (a == i) = false by apply/eqP => E'; move: Ha; rewrite E' ltnn. exact: I4. }
      have -> : a = i by apply/val_inj. rewrite /sc' eqxx. split; [by rewrite invr_eq0|by rewrite fmorphV Cx|]. by rewrite -Sx -invfM mulVf // mulf_neq0.
Qed.
Lemma lq_ok m : represents m A -> match lq_decomposition_algorithm (@Fdiv K) conj root m with
  | Some (lt, m') => exists L M, [/\ represents lt L, represents m' M, M = L *m A, (forall a b : 'I_p, (a < b)%N -> L a b = 0) /\ (forall a : 'I_p, L a a != 0) &
      M *m (map_mx conj M)^T = 1%:M]
  | None => dep_all end.
Proof.
  move=> Hm. rewrite /lq_decomposition_algorithm. have := gram_ok Hm. case: (gram_schmidt_rows _ _ _) => [[lt m']|]; last by move=> [c [c0 _ Hc]]; exists c.
  move=> [L [M [H1 H2 H3 H4 [H5 H6]]]]. cbn [obind snd]. rewrite (repr_rows H2).
  have := @lq_loop L M (lt, m') H1 H2 H3 H4. case: (forM _ _ _) => // [[lt2 m2]] [sc [/= R1 R2 Hs]]. cbn [obind].
  rewrite (repr_rows R2). have [i0 [-> Ri]] := @ident_repr [comRingType of K] p. cbn [obind].
  have [pr [Ep Rp]] := unwrap_mul R2 (repr_apply_map conj (repr_tr R2)). rewrite Ep. cbn [obind]. rewrite (equal_repr Ri Rp).
  have EI : scaled sc M *m map_mx conj (scaled sc M)^T = 1%:M.
  { apply/matrixP => a b. have -> : (scaled sc M *m map_mx conj (scaled sc M)^T) a b = ip (row a (scaled sc M)) (row b (scaled sc M)).
    { rewrite mxE /ip. apply: eq_bigr => k _. by rewrite !mxE. }
    have [_ Cb _] := Hs b. have [_ Ca Na] := Hs a. rewrite !scaled_row ipZl ipZr Cb mxE. case: (eqVneq a b) => [Eab|Hab]; last by rewrite H5 // !mulr0.
    by rewrite -Eab mulrA Na. }
  rewrite EI eqxx. cbn [obind]. exists (scaled sc L), (scaled sc M). split=> //.
  - by rewrite H3 scaled_mul.
  - split=> [a b Hab|a]; rewrite mxE.
    + by rewrite (H4 a b) Hab; case: eqP => [E|_]; rewrite ?mulr0 //; move: Hab; rewrite E ltnn.
    + rewrite (H4 a a) eqxx mulr1. by case: (Hs a).
  - rewrite -[RHS]EI. congr (_ *m _). apply/matrixP => a b. by rewrite !mxE.
Qed.
End Mat.
End Gram.
