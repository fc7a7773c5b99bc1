(* C34: the Smith algorithm.  The documented contract (return u, s, v, k with s = u m v, u and v invertible and s in Smith
   normal form) fails in general; the theorems below delimit what holds and the refutations give inputs where it fails *)
From Coq Require Import ZArith NArith.
From mathcomp Require Import all_ssreflect all_algebra.
From Coq Require Import Lia.
From Verif Require Import RingSpec RingModel PermModel MatModel MatSpec MatProofs2 ZRing MatInst MatProofs9.
Close Scope rs_scope.
Set Implicit Arguments.
Unset Strict Implicit.
Unset Printing Implicit Defensive.
Import GRing.Theory.
Local Open Scope ring_scope.

Section Bez.
Variable R : idomainType.
Notation O := (mc_ops R).
Notation mat := (matrix (T O)).
Variables (div : div_op O) (ffa : ffa_op O) (xgcd : R -> R -> R * R * R).
Variables (norm : R -> option N) (quorem : R -> R -> option (R * R)).
(* at most two rows, first row nonzero (or the whole matrix zero): the whole contract, for every number of columns.
   ifuel bounds the number of turns of the inner loop; f0 turns are enough *)
Theorem C34_two_rows_partial p q (m : mat) (A : 'M[R]_(p,q)) : bezout_laws div ffa xgcd -> euclid_laws O norm quorem -> norm_mono O norm ->
  represents m A -> (p <= 2)%N -> (forall i : 'I_p, i = 0%N :> nat -> (exists j, A i j != 0) \/ A = 0) ->
  exists f0 u s v k U S V, [/\ (forall ifuel, (f0 <= ifuel)%N -> smith_algorithm div ffa xgcd ifuel m = Some (u, s, v, k)),
    [/\ represents u U, represents s S & represents v V], [/\ S = U *m A *m V, U \in unitmx & V \in unitmx] & smith_form ffa S k].
Proof. move=> B E M. exact: (smith_two_rows B (euclid_wf E M)). Qed.
(* any size, rows linearly independent: if the algorithm returns, s = u m v with u, v invertible, s is diagonal with nonzero
   favourite associates on the diagonal and k is the rank.  (The divisibility chain can fail, and it can panic: see below.) *)
Theorem C34_full_row_rank_partial p q (m : mat) (A : 'M[R]_(p,q)) ifuel u s v k : bezout_laws div ffa xgcd -> represents m A -> frac_rank A = p ->
  smith_algorithm div ffa xgcd ifuel m = Some (u, s, v, k) ->
  exists U S V, [/\ represents u U, represents s S, represents v V, [/\ S = U *m A *m V, U \in unitmx & V \in unitmx] &
    [/\ k = p, (p <= q)%N, forall (i : 'I_p) (j : 'I_q), (i : nat) <> j -> S i j = 0 & forall (i : 'I_p) (j : 'I_q), i = j :> nat -> S i j != 0 /\ snd (ffa (S i j)) = S i j]].
Proof. move=> B. exact: smith_full_rank. Qed.
End Bez.
Print Assumptions C34_two_rows_partial. Print Assumptions C34_full_row_rank_partial.

Notation zsmith := (@smith_algorithm (mc_ops Z_comRingType) Zdiv Zffa Zxgcd).
Notation zmul := (@mul (mc_ops Z_comRingType)).
Definition zmat (r c : nat) (l : list Z) : matrix Z := Mat r c false false false l.
(* the entries of the result; fuel 0 and 1 can be too little, then the model returns None *)
Definition s_entries (r : option (matrix Z * matrix Z * matrix Z * nat)) : option (list Z * nat) :=
  match r with Some (u, s, v, k) => Some (elems s, k) | None => None end.
(* the gcd loop looks at sums of rows: [[2,0],[0,3],[0,1]] gives diag(2, 1): 2 does not divide 1 *)
Theorem C34_chain_refuted : exists m : matrix Z, forall ifuel, (2 <= ifuel)%N -> s_entries (zsmith ifuel m) = Some ([:: Zpos 2; Z0; Z0; Zpos 1; Z0; Z0], 2%N).
Proof. exists (zmat 3 2 [:: Zpos 2; Z0; Z0; Zpos 3; Z0; Zpos 1]). move=> [|[|f]] Hf; [by []|by []|by vm_compute]. Qed.
(* for the same reason a later exact division fails: panic, even for an invertible-over-Q square matrix *)
Theorem C34_panic_refuted : exists m : matrix Z, @det_naive (mc_ops Z_comRingType) m = Some (Ok (Zpos 32)) /\ forall ifuel, zsmith ifuel m = None.
Proof. exists (zmat 3 3 [:: Zpos 4; Z0; Z0; Z0; Zpos 1; Z0; Z0; Zpos 1; Zpos 8]). split; first by vm_compute. move=> [|[|f]]; vm_compute; by []. Qed.
(* when the first row is zero the "swap row n and row r" step swaps columns of m and of u instead: then s <> u m v *)
Theorem C34_swap_refuted : exists m : matrix Z, forall ifuel, (2 <= ifuel)%N -> exists u s v k um umv,
  [/\ zsmith ifuel m = Some (u, s, v, k), zmul u m = Some (Ok um), zmul um v = Some (Ok umv) & elems umv <> elems s].
Proof. exists (zmat 2 2 [:: Z0; Z0; Z0; Zpos 1]). move=> [|[|f]] Hf; [by []|by []|]. do 6!eexists. split; vm_compute; by []. Qed.
(* ... or panics, when the row index is not a column index *)
Theorem C34_swap_panic_refuted : exists m : matrix Z, forall ifuel, zsmith ifuel m = None.
Proof. exists (zmat 2 1 [:: Z0; Zpos 1]). move=> [|[|f]]; vm_compute; by []. Qed.
Print Assumptions C34_chain_refuted. Print Assumptions C34_panic_refuted. Print Assumptions C34_swap_refuted. Print Assumptions C34_swap_panic_refuted.
(* the hypotheses of the positive theorems are met *)
Example C34_ex : s_entries (zsmith 9 (zmat 2 3 [:: Zpos 4; Zpos 6; Z0; Zpos 2; Zpos 8; Zpos 10])) = Some ([:: Zpos 2; Z0; Z0; Z0; Zpos 10; Z0], 2%N) /\
  s_entries (zsmith 9 (zmat 3 3 [:: Zpos 2; Zpos 4; Zpos 4; Zneg 6; Zpos 6; Zpos 12; Zpos 10; Zpos 4; Zpos 16])) = Some ([:: Zpos 2; Z0; Z0; Z0; Zpos 2; Z0; Z0; Z0; Zpos 156], 3%N).
Proof. vm_compute. by []. Qed.
