(* Model of factorisation over a field of fractions by factoring the primitive part: rings/src/polynomial/polynomial.rs l.903-941,
   rings/src/polynomial/factoring.rs l.282-306 and rings/src/structure/structure.rs l.720-735.
   R is the base ring, K its field of fractions; from_base, num and den are FieldOfFractionsStructure's from_base_ring, numerator and denominator.
   Conventions as in PolyModel / FacModel: option None = panic, the Rust Option is an inner option. *)
From Coq Require Import List Arith NArith Bool.
From Verif Require Import RingSpec RingModel FactoredModel PermModel MatModel PolyModel FacModel.
Import ListNotations.
Close Scope rs_scope.
Open Scope nat_scope.

Section Fof.
Context {R K : ring_ops}.
Variables (from_base : T R -> T K) (num den : T K -> T R).
Variables (div : div_op R) (gcd : T R -> T R -> T R) (kdiv : div_op K) (kffa : ffa_op K).
Notation PR := (poly_ops R).
Notation PK := (poly_ops K).
(* structure.rs l.727-734 *)
Definition as_base_ring (x : T K) : option (T R) := if req (den x) r1 then Some (num x) else None.
(* polynomial.rs l.903-934; p.coeffs() is the stored coefficient vector *)
Definition factor_primitive_fof (p : list (T K)) : option (T K * list (T R)) :=
  do d <- lcm_list div gcd (map den p);
  do q <- mapM (fun c => as_base_ring (rmul (from_base d) c)) p;
  do mp <- factor_primitive_unwrap div gcd q;
  do u <- ok_of (kdiv (from_base (fst mp)) (from_base d));
  Some (u, snd mp).
(* polynomial.rs l.936-941 *)
Definition primitive_part_fof (p : list (T K)) : option (list (T R)) := do up <- factor_primitive_fof p; Some (snd up).
(* factoring.rs l.294-299 *)
Fixpoint fof_factors (fs : list (list (T R) * N)) (fof_unit : list (T K)) (acc : list (list (T K) * N)) : option (list (T K) * list (list (T K) * N)) :=
  match fs with
  | [] => Some (fof_unit, acc)
  | (f, power) :: fs' =>
      do ua <- p_factor_fav_assoc kdiv kffa (map from_base f);
      fof_factors fs' (p_mul fof_unit (fst ua)) (acc ++ [(snd ua, power)])
  end.
(* factoring.rs l.282-306; pfactor is the factorisation of polynomials over the base ring *)
Definition factorize_by_factorize_primitive_part (pfactor : list (T R) -> option (option (factored PR))) (f : list (T K)) : option (option (factored PK)) :=
  do up <- factor_primitive_fof f;
  do o <- pfactor (snd up);
  match o with
  | None => Some None
  | Some r =>
      do uf <- fof_factors (f_factors r) (map from_base (f_unit r)) [];
      Some (Some (Factored (R := PK) (p_mul [fst up] (fst uf)) (snd uf)))
  end.
End Fof.
