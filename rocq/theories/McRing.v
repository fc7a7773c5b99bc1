(* Coq's `ring` tactic for an abstract commutative ring of mathcomp: state the identity with the notations of mcr_scope *)
From Coq Require Import Ring.
From mathcomp Require Import all_ssreflect all_algebra.
Set Implicit Arguments. Unset Strict Implicit. Unset Printing Implicit Defensive.
Import GRing.Theory.
Local Open Scope ring_scope.
Declare Scope mcr_scope.
Delimit Scope mcr_scope with mcr.
Section S.
Variable A : comRingType.
Definition madd : A -> A -> A := fun x y => x + y.
Definition mmul : A -> A -> A := fun x y => x * y.
Definition mopp : A -> A := fun x => - x.
Definition msub : A -> A -> A := fun x y => x - y.
Definition mone : A := 1.
Definition mzero : A := 0.
Lemma mc_rt : @ring_theory A mzero mone madd mmul msub mopp eq.
Proof.
  split=> *; rewrite /madd /mmul /msub /mopp /mone /mzero ?add0r ?mul1r ?mulrDl ?subrr //; [exact: addrC|exact: addrA|exact: mulrC|exact: mulrA].
Qed.
End S.
Arguments madd {A} (_ _)%mcr. Arguments mmul {A} (_ _)%mcr. Arguments msub {A} (_ _)%mcr. Arguments mopp {A} (_)%mcr.
Notation "x + y" := (madd x y) : mcr_scope.
Notation "x * y" := (mmul x y) : mcr_scope.
Notation "x - y" := (msub x y) : mcr_scope.
Notation "- x" := (mopp x) : mcr_scope.
Notation "1" := (mone _) : mcr_scope.
Notation "0" := (mzero _) : mcr_scope.
