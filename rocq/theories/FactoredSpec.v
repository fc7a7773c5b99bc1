(* Specification vocabulary for factorisations (no model imported) *)
From Coq Require Import List NArith Bool.
From Verif Require Import RingSpec.
Import ListNotations.
Open Scope rs_scope.

(* unit * p1^k1 * ... * pr^kr *)
Fixpoint powers_prod {R : ring_ops} (fs : list (T R * N)) : T R :=
  match fs with [] => r1 | (p, k) :: fs' => npow p (N.to_nat k) * powers_prod fs' end.
(* prime element *)
Definition rprime {R : ring_ops} (p : T R) : Prop :=
  p =/= r0 /\ ~ runit p /\ forall a b : T R, rdvd p (a * b) -> rdvd p a \/ rdvd p b.
(* a valid factorisation: unit, positive exponents, pairwise non-associate prime factors *)
Definition non_associate {R : ring_ops} (fs : list (T R * N)) : Prop :=
  ForallOrdPairs (fun x y => ~ rassoc (fst x) (fst y)) fs.
Definition valid_factors {R : ring_ops} (fs : list (T R * N)) : Prop :=
  Forall (fun pk => rprime (fst pk) /\ (0 < snd pk)%N) fs /\ non_associate fs.
