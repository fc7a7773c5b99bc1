(* Specification vocabulary for rationals (no model imported) *)
From Coq Require Import QArith ZArith NArith List.
From Verif Require Import NatSpec.
Import ListNotations.
Local Open Scope Q_scope.
(* r = (a/b) * p^k with a and b prime to p *)
Definition has_valuation (p : N) (r : Q) (k : Z) : Prop :=
  exists a b : Z, ~ (Z.of_N p | a)%Z /\ ~ (Z.of_N p | b)%Z /\ r * inject_Z b == inject_Z a * Qpower (inject_Z (Z.of_N p)) k.
