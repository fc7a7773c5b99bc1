(* C29: multivariate polynomials (rings/src/polynomial/multipoly.rs). *)
From Coq Require Import List Arith NArith Bool.
From mathcomp Require Import all_ssreflect all_algebra.
From mathcomp Require Import zify.
From Coq Require Import Lia.
From Verif Require Import RingSpec RingModel PermModel MatModel MatSpec PolyModel PolyProofs PolyHom MpModel FinSupp MpRing MpRing2 MpRing3 MpRing4 MpProofs MpProofs2 MpSpec MpProofs3.
From Verif Require Import ZRing MatInst.
Close Scope rs_scope.
Set Implicit Arguments. Unset Strict Implicit. Unset Printing Implicit Defensive.
Import GRing.Theory.
Local Open Scope ring_scope.

(* ------------------------------------------------------------------ monomials *)
(* Monomial::new on distinct variables, and the product *)
Theorem C29_mono_new m : uniq [seq x.1 | x <- m] -> mono_ok (mono_new m) /\ forall v, power (mono_new m) v = power m v.
Proof. move=> U. rewrite mono_okE. split; [exact: mono_new_can|exact: expo_new]. Qed.
Print Assumptions C29_mono_new.
Theorem C29_mono_mul a b : mono_ok (mono_mul a b) /\ (forall v, power (mono_mul a b) v = (power a v + power b v)%N) /\ mono_degree (mono_mul a b) = (total_degree a + total_degree b)%N.
Proof. rewrite mono_okE mono_mulE. split; first exact: mcan_mm. split; first exact: expo_mm. by rewrite mono_degreeE -[LHS]/(total_degree _) degree_mm. Qed.
Print Assumptions C29_mono_mul.
(* a monomial is its powers *)
Theorem C29_mono_unique a b : mono_ok a -> mono_ok b -> (mono_eqb a b = true <-> forall v, power a v = power b v).
Proof. rewrite !mono_okE mono_eqbE => Ha Hb. split; first by move/eqP => ->. move=> H. apply/eqP. exact: mcan_ext. Qed.
Print Assumptions C29_mono_unique.
Theorem C29_get_var_pow m v : mono_ok m -> get_var_pow m v = power m v.
Proof. rewrite mono_okE. exact: get_var_powE. Qed.
Print Assumptions C29_get_var_pow.
Theorem C29_mono_check m : mono_check m = mono_ok m.
Proof.
  rewrite mono_okE /mono_check. have E1 : forallb (fun x : nat * nat => ~~ Nat.eqb x.2 0) m = all (fun x => x.2 != 0%N) m by apply: eq_all => x; rewrite eqbE.
  have E2 : distinct_vars m = uniq [seq x.1 | x <- m]. { elim: m {E1} => //= x m ->. congr (~~ _ && _). elim: m => //= y m ->. by rewrite inE eqbE eq_sym. }
  rewrite E1 E2 /mcan /canon mono_eqbE. set s := isort _ m. case H1: (uniq _); last by rewrite andbF. case H3: (all _ m); last by rewrite /= andbF. rewrite /= andbT.
  have S : sorted leq [seq x.1 | x <- s]. { rewrite /s (map_isort fst (fun a b => Nat.leb a b)). apply: (sub_sorted (e := fun a b => Nat.leb a b)); first by move=> a b; rewrite lebE. apply: sorted_isort => a b. rewrite !lebE. exact: leq_total. }
  apply/eqP/idP => [->|H] //. have P := perm_isort (fun x y : nat * nat => Nat.leb x.1 y.1) m. apply: mcan_ext.
  - by rewrite /mcan /canon H1 H3 H.
  - rewrite /mcan /canon S (perm_uniq (perm_map _ P)) H1 /=. by rewrite (perm_all _ P).
  - move=> v. symmetry. exact: coef_perm P.
Qed.
Print Assumptions C29_mono_check.

(* lexicographic_order: a strict total order, higher powers of smaller variables first, compatible with the product, 1 last *)
Theorem C29_lex a b : mono_ok a -> mono_ok b ->
  (lex a b = Lt <-> before a b) /\ (lex a b = Eq <-> a = b) /\ (lex a b = Gt <-> before b a).
Proof. rewrite !mono_okE. exact: lexE. Qed.
Print Assumptions C29_lex.
Theorem C29_lex_order a b c : mono_ok a -> mono_ok b -> mono_ok c ->
  (lex a b = Lt -> lex b c = Lt -> lex a c = Lt) /\ (lex a b = Lt -> lex b a = Gt) /\ (lex a b = lex (mono_mul a c) (mono_mul b c)) /\ (a <> [::] -> lex a mono_one = Lt).
Proof.
  rewrite !mono_okE !mono_mulE => Ha Hb Hc. have [L [E G]] := lexE Ha Hb. split; last split; last split.
  - move/L => H /(proj1 (lexE Hb Hc)) H'. apply/(proj1 (lexE Ha Hc)). exact: lexd_tr H H'.
  - move/L => H. exact/(proj2 (proj2 (lexE Hb Ha))).
  - have [L' [E' G']] := lexE (mcan_mm a c) (mcan_mm b c). case X: (lex a b).
    + move/E: X => ->. symmetry. have [_ [E2 _]] := lexE (mcan_mm b c) (mcan_mm b c). exact/E2.
    + symmetry. apply/L'. apply: lexd_mm. exact/L.
    + symmetry. apply/G'. apply: lexd_mm. exact/G.
  - by case: a {Ha L E G}.
Qed.
Print Assumptions C29_lex_order.
Lemma gE a b : mcan a -> mcan b -> (graded_lex a b = Lt <-> gbefore a b) /\ (graded_lex a b = Eq <-> a = b) /\ (graded_lex a b = Gt <-> gbefore b a).
Proof.
  move=> Ha Hb. have [L [E G]] := lexE Ha Hb. rewrite /graded_lex /gbefore !mono_degreeE -[(\sum_(x <- a) x.2)%N]/(total_degree a) -[(\sum_(x <- b) x.2)%N]/(total_degree b).
  have ab : a = b -> total_degree a = total_degree b by move=> ->. case: (Nat.ltb_spec (total_degree a) (total_degree b)) => H1.
  - split; last split; split=> //; [by case=> [|[]]; lia|by move/ab; lia|by left; lia].
  - case: (Nat.ltb_spec (total_degree b) (total_degree a)) => H2.
    + split; last split; split=> //; [by left; lia|by move/ab; lia|by case=> [|[]]; lia].
    + have Q : total_degree a = total_degree b by lia. split; last split => //; split.
      * by move/L => H; right.
      * by case=> [|[_ /L]] //; lia.
      * by move/G => H; right.
      * by case=> [|[_ /G]] //; lia.
Qed.
Theorem C29_graded_lex a b c : mono_ok a -> mono_ok b -> mono_ok c ->
  (graded_lex a b = Lt <-> gbefore a b) /\ (graded_lex a b = Eq <-> a = b) /\ (graded_lex a b = Gt <-> gbefore b a) /\
  (graded_lex a b = Lt -> graded_lex b c = Lt -> graded_lex a c = Lt) /\ graded_lex a b = graded_lex (mono_mul a c) (mono_mul b c).
Proof.
  rewrite !mono_okE => Ha Hb Hc. have [L [E G]] := gE Ha Hb. split=> //. split=> //. split=> //. rewrite !mono_mulE. split.
  - move/L => H /(proj1 (gE Hb Hc)) H'. apply/(proj1 (gE Ha Hc)). case: H H' => [H|[H1 H2]] [H'|[H1' H2']]; try (by left; lia). right. split; first lia. exact: lexd_tr H2 H2'.
  - rewrite /graded_lex !mono_degreeE -![(\sum_(x <- _) x.2)%N]/(total_degree _) !degree_mm.
    have -> : Nat.ltb (total_degree a + total_degree c) (total_degree b + total_degree c) = Nat.ltb (total_degree a) (total_degree b) by apply/Nat.ltb_spec0/Nat.ltb_spec0; lia.
    have -> : Nat.ltb (total_degree b + total_degree c) (total_degree a + total_degree c) = Nat.ltb (total_degree b) (total_degree a) by apply/Nat.ltb_spec0/Nat.ltb_spec0; lia.
    have := C29_lex_order. move=> /(_ a b c). rewrite !mono_okE !mono_mulE => /(_ Ha Hb Hc) [_ [_ [-> _]]]. by [].
Qed.
Print Assumptions C29_graded_lex.
Example ex_mono : mono_ok [:: (0, 2); (3, 1)]%N /\ lex [:: (0, 2); (3, 1)]%N [:: (0, 2)]%N = Lt /\ lex [:: (0, 1)]%N [:: (1, 7)]%N = Lt /\ graded_lex [:: (0, 1)]%N [:: (1, 7)]%N = Gt
  /\ mono_mul [:: (0, 2); (3, 1)]%N [:: (1, 1); (3, 4)]%N = [:: (0, 2); (1, 1); (3, 5)]%N.
Proof. by vm_compute. Qed.

Section P.
Variable R : comRingType.
Notation O := (mc_ops R).
Notation poly := (seq (mon * R)).
Implicit Types (a b p : poly).

(* ------------------------------------------------------------------ arithmetic *)
Lemma mcan_cat a b : wf a -> wf b -> all (fun t => mcan t.1) (a ++ b). Proof. move=> Ha Hb. by rewrite all_cat !wf_mcan. Qed.
Lemma mcan_mull a b : all (fun t => mcan t.1) (mull a b).
Proof. apply/allP => t /allpairsP[[s u] /= [_ _ ->]] /=. exact: mcan_mm. Qed.
Theorem C29_reduce p : wf p -> normal (@mp_reduce O p) /\ forall m, coeff (@mp_reduce O p) m = coeff p m.
Proof. move=> Hp. rewrite reduceE ?wf_uniq //. split; [exact: rnf_normal (wf_mcan Hp)|exact: cf_nf]. Qed.
Theorem C29_add a b : wf a -> wf b -> normal (@mp_add O a b) /\ (forall m, coeff (@mp_add O a b) m = coeff a m + coeff b m) /\
  forall (A : comRingType) (f : {rmorphism R -> A}) th, value f th (@mp_add O a b) = value f th a + value f th b.
Proof.
  move=> Ha Hb. rewrite mp_addE ?wf_uniq //. split; first by apply: rnf_normal; apply: mcan_cat. split=> [m|A f th].
  - by rewrite -[coeff _ _]/(cf _ _) cf_nf coef_cat.
  - by rewrite !valueE evl_nf evl_cat.
Qed.
(* the coefficient of m in a product: the sum over the pairs of terms whose monomials multiply to m *)
Theorem C29_mul a b : wf a -> wf b -> normal (@mp_mul O a b) /\ (forall m, coeff (@mp_mul O a b) m = \sum_(s <- a) \sum_(t <- b | mono_mul s.1 t.1 == m) s.2 * t.2) /\
  forall (A : comRingType) (f : {rmorphism R -> A}) th, value f th (@mp_mul O a b) = value f th a * value f th b.
Proof.
  move=> Ha Hb. rewrite mp_mulE. split; first by apply: rnf_normal; apply: mcan_mull. split=> [m|A f th].
  - rewrite -[coeff _ _]/(cf _ _) cf_nf cf_mull. apply: eq_bigr => s _. rewrite [RHS]big_mkcond /=. apply: eq_bigr => t _. by rewrite mono_mulE.
  - by rewrite !valueE evl_nf evl_mull.
Qed.
Theorem C29_neg a : wf a -> wf (@mp_neg O a) /\ (normal a -> normal (@mp_neg O a)) /\ (forall m, coeff (@mp_neg O a) m = - coeff a m) /\
  forall (A : comRingType) (f : {rmorphism R -> A}) th, value f th (@mp_neg O a) = - value f th a.
Proof.
  move=> Ha. rewrite mp_negE. have E : [seq t.1 | t <- negl a] = [seq t.1 | t <- a] by rewrite -map_comp.
  split. { rewrite /wf E. case/andP: Ha => H1 ->. by rewrite andbT /negl all_map. } split; last split=> [m|A f th].
  - move/normalE => [H1 H2]. apply/normalE. split; first exact: neg_can. by rewrite /negl all_map.
  - exact: cf_neg.
  - by rewrite !valueE evl_neg.
Qed.
Theorem C29_constants : normal (@mp_zero O) /\ normal (@mp_one O) /\ (forall c : R, wf (mp_constant c)) /\
  (forall v k, normal (@mp_var_pow O v k)) /\
  forall (A : comRingType) (f : {rmorphism R -> A}) th, value f th (@mp_zero O) = 0 /\ value f th (@mp_one O) = 1 /\ (forall c : R, value f th (mp_constant c) = f c) /\
  (forall v k, value f th (@mp_var_pow O v k) = th v ^+ k) /\ (forall v, value f th (@mp_var O v) = th v).
Proof.
  have N m : mcan m -> normal [:: (m, 1 : R)] by move=> H; apply/normalE; rewrite /tcan /canon /= oner_eq0 H.
  have V v k : mono_new [:: (v, k)] = vmon v k by rewrite /mono_new /vmon /=; case: k.
  split. { by apply/normalE. } split; first exact: N. split=> //. split. { move=> v k. apply: N. rewrite V. exact: mcan_vmon. }
  move=> A f th. have VV v k : value f th (@mp_var_pow O v k) = th v ^+ k.
  { rewrite /value /mp_var_pow big_seq1 /= V rmorph1 mul1r /vmon. case: eqP => [->|_]; by rewrite ?big_nil ?big_seq1. }
  rewrite /value. split; first by rewrite big_nil. split; first by rewrite big_seq1 big_nil rmorph1 mulr1. split; first by move=> c; rewrite big_seq1 big_nil mulr1. split=> // v. by rewrite -[LHS]/(value f th (@mp_var_pow O v 1)) VV.
Qed.
(* equality: same coefficients, or the same value at every point of every commutative ring *)
Theorem C29_equal a b : wf a -> wf b -> (@mp_equal O a b = true <-> forall m, coeff a m = coeff b m) /\
  (@mp_equal O a b = true <-> forall (A : comRingType) (f : {rmorphism R -> A}) th, value f th a = value f th b).
Proof.
  move=> Ha Hb. rewrite mp_equalE ?wf_uniq //. have E1 : rnf a == rnf b <-> forall m, coeff a m = coeff b m.
  { split; first by move=> /eqP H m; rewrite -[coeff a m]/(cf a m) -cf_nf H cf_nf. move=> H. apply/eqP. exact: rnf_ext. }
  split=> //. split.
  - move=> /eqP H A f th. by rewrite !valueE -evl_nf H evl_nf.
  - move=> H. apply/E1 => m. have Ca := okmT (wf_mcan Ha). have Cb := okmT (wf_mcan Hb). rewrite -[coeff a m]/(cf a m) -(ev_cf m Ca) -[coeff b m]/(cf b m) -(ev_cf m Cb).
    congr (cf (mv _) m). exact: (H _ [rmorphism of kconst predT] (kvar R predT)).
Qed.
(* equal normal forms are the same list *)
Theorem C29_normal_unique a b : normal a -> normal b -> (forall m, coeff a m = coeff b m) -> a = b.
Proof. move=> /normalE[H1 _] /normalE[H2 _]. exact: tcan_ext. Qed.
(* the laws of a commutative ring *)
Theorem C29_ring_laws a b c : wf a -> wf b -> wf c ->
  let eq x y := @mp_equal O x y = true in let add := @mp_add O in let mul := @mp_mul O in
  eq (add a b) (add b a) /\ eq (add a (add b c)) (add (add a b) c) /\ eq (add (@mp_zero O) a) a /\ eq (add a (@mp_neg O a)) (@mp_zero O) /\
  eq (mul a b) (mul b a) /\ eq (mul a (mul b c)) (mul (mul a b) c) /\ eq (mul (@mp_one O) a) a /\ eq (mul a (add b c)) (add (mul a b) (mul a c)) /\
  (eq a b -> eq (add a c) (add b c) /\ eq (mul a c) (mul b c) /\ eq (@mp_neg O a) (@mp_neg O b)).
Proof.
  move=> Ha Hb Hc eq add mul. have WA x y : wf x -> wf y -> wf (@mp_add O x y) by move=> Hx Hy; exact: normal_wf (C29_add Hx Hy).1.
  have WM x y : wf x -> wf y -> wf (@mp_mul O x y) by move=> Hx Hy; exact: normal_wf (C29_mul Hx Hy).1. have WN x : wf x -> wf (@mp_neg O x) by case/C29_neg.
  have VA x y : wf x -> wf y -> forall (A : comRingType) (f : {rmorphism R -> A}) th, value f th (@mp_add O x y) = value f th x + value f th y by move=> Hx Hy; exact: (C29_add Hx Hy).2.2.
  have VM x y : wf x -> wf y -> forall (A : comRingType) (f : {rmorphism R -> A}) th, value f th (@mp_mul O x y) = value f th x * value f th y by move=> Hx Hy; exact: (C29_mul Hx Hy).2.2.
  have VN x : wf x -> forall (A : comRingType) (f : {rmorphism R -> A}) th, value f th (@mp_neg O x) = - value f th x by move=> Hx; exact: (C29_neg Hx).2.2.2.
  have [Z1 [O1 [_ [_ CC]]]] := C29_constants. have Z := normal_wf Z1. have U := normal_wf O1.
  have E x y : wf x -> wf y -> (forall (A : comRingType) (f : {rmorphism R -> A}) th, value f th x = value f th y) -> eq x y by move=> Hx Hy H; apply/(C29_equal Hx Hy).2.
  have B := WA _ _ Ha Hb. have C := WA _ _ Hb Hc. have D := WM _ _ Ha Hb. have F := WM _ _ Hb Hc. have G := WM _ _ Ha Hc. have N := WN _ Ha.
  do 8 (split; first by apply: E; rewrite /add /mul ?(WA, WM) // => A f th; have [V0 [V1 _]] := CC A f th; rewrite ?(VA, VM, VN, V0, V1) //; by [exact: addrC|exact: addrA|exact: add0r|exact: subrr|exact: mulrC|exact: mulrA|exact: mul1r|exact: mulrDr]).
  move/(C29_equal Ha Hb).2 => H. split; last split; by apply: E; rewrite /add /mul ?(WA, WM, WN) // => A f th; rewrite ?(VA, VM, VN) // H.
Qed.
End P.
Print Assumptions C29_reduce.
Print Assumptions C29_add.
Print Assumptions C29_mul.
Print Assumptions C29_neg.
Print Assumptions C29_constants.
Print Assumptions C29_equal.
Print Assumptions C29_normal_unique.
Print Assumptions C29_ring_laws.

(* non-trivial instances over the integers: (x+y)(x-y) and the zero test *)
Notation ZO := (mc_ops Z_comRingType).
Definition xz : seq (mon * Z_comRingType) := @mp_var ZO 0.
Definition yz : seq (mon * Z_comRingType) := @mp_var ZO 1.
Example ex_arith : wf xz /\ wf yz /\ @mp_mul ZO (@mp_add ZO xz yz) (@mp_add ZO xz (@mp_neg ZO yz)) = [:: ([:: (0, 2)]%N, Zpos 1); ([:: (1, 2)]%N, Zneg 1)] /\
  @mp_equal ZO (@mp_add ZO xz yz) (@mp_add ZO yz xz) = true /\ @mp_equal ZO xz yz = false.
Proof. by vm_compute. Qed.
