(* Model of rings/src/polynomial/factoring.rs l.14-66 (Yun), l.150-253 (Kronecker), l.311-356 (trial division over a finite field).
   factor_primitive_linear_part (l.69-136, private and never called) is not modelled.
   Conventions as in PolyModel: option None = panic (or out of fuel); the coefficient ring's methods are parameters. *)
From Coq Require Import List Arith NArith Bool.
From Verif Require Import RingSpec RingModel FactoredModel PermModel MatModel PolyModel.
Import ListNotations.
Close Scope rs_scope.
Open Scope nat_scope.

Section Fac.
Context {R : ring_ops}.
Notation T := (T R).
Notation poly := (list (RingSpec.T R)).
Notation P := (poly_ops R).
Variables (div : div_op R) (ffa : ffa_op R) (gcd : T -> T -> T).
Notation ok_of := (fun d => match d with DivOk q => Some q | _ => None end).

(* the IntegralDomainStructure / FavoriteAssociateStructure methods of the polynomial ring, as plain functions for Factored:
   p_div and p_factor_fav_assoc never panic (PolyProofs3) *)
Definition pdivr : div_op P := fun a b => match p_div div a b with Some d => d | None => NotDivisible end.
Definition pffar : ffa_op P := fun a => match p_factor_fav_assoc div ffa a with Some d => d | None => ([], []) end.
(* self.div(a, b).unwrap() *)
Definition div_unwrap (a b : poly) : option poly := do d <- p_div div a b; ok_of d.

(* ------------------------------------------------------------------ l.14-66 *)
Section Yun.
(* GreatestCommonDivisorStructure::gcd of the polynomial ring, UniqueFactorizationStructure::factor of the coefficient ring
   (inner None is the Rust None, unwrapped), and the argument primitive_sqfree_factorize *)
Variables (pgcd : poly -> poly -> option poly) (factor : T -> option (factored R)) (sqf : poly -> option (factored P)).
(* l.44-60; c of the Rust loop is recomputed before each use, so the state is (i, f, b, d, factors) *)
Fixpoint yun_loop (fuel : nat) (i : nat) (f b d : poly) (factors : factored P) : option (poly * factored P) :=
  do df <- p_degree f;
  if df =? 0 then Some (f, factors)
  else
    match fuel with
    | O => None
    | S fuel' =>
        do a <- pgcd b d;
        do fa <- sqf a;
        let factors := f_mul (R := P) pdivr factors (f_pow (R := P) fa (N.of_nat i)) in
        do f <- div_unwrap f (nat_pow (R := P) a (N.of_nat i));
        do b <- div_unwrap b a;
        do c <- div_unwrap d a;
        yun_loop fuel' (i + 1) f b (p_add (p_neg (p_derivative b)) c) factors
    end.
(* l.16-65 *)
Definition yun (f : poly) : option (factored P) :=
  assert! negb (p_is_zero f);
  do cp <- factor_primitive_unwrap div gcd f;
  do cf <- factor (fst cp);
  let factors := Factored (R := P) [f_unit cf] (map (fun pk => ([fst pk], snd pk)) (f_factors cf)) in
  let f := snd cp in
  let f' := p_derivative f in
  do a <- gcd_by_primitive_subresultant div gcd f f';
  do b <- div_unwrap f a;
  do c <- div_unwrap f' a;
  do r <- yun_loop (length f) 1 f b (p_add (p_neg (p_derivative b)) c) factors;
  Some (f_mul (R := P) pdivr (snd r) (factored_unit_unchecked (R := P) (fst r))).
End Yun.

(* ------------------------------------------------------------------ l.150-236 *)
Section Kronecker.
(* UniqueFactorizationStructure::factor, FiniteUnitsStructure::all_units and the stream of generate_distinct_elements *)
Variables (factor : T -> option (factored R)) (units : list T) (elems : nat -> T).
(* l.174-181 *)
Fixpoint sample (fuel : nat) (f : poly) (need k : nat) (pts : list (T * factored R)) : option (list (T * factored R)) :=
  if need <=? length pts then Some pts
  else
    match fuel with
    | O => None
    | S fuel' =>
        let x := elems k in
        let y := p_evaluate f x in
        if negb (is_zero y) then do fy <- factor y; sample fuel' f need (k + 1) (pts ++ [(x, fy)])
        else sample fuel' f need (k + 1) pts
    end.
(* l.184: slice::sort_by_cached_key is a stable sort *)
Fixpoint insert_key (x : T * factored R) (l : list (T * factored R)) : list (T * factored R) :=
  match l with
  | [] => [x]
  | y :: l' => if N.leb (count_divisors (snd x)) (count_divisors (snd y)) then x :: l else y :: insert_key x l'
  end.
Definition sort_key (l : list (T * factored R)) : list (T * factored R) := fold_right insert_key [] l.
(* l.187-205 *)
Definition y_divs (i : nat) (yf : factored R) : list T :=
  if i =? 0 then divisors yf else flat_map (fun d => map (fun u => rmul u d) units) (divisors yf).
Definition g_points (pts : list (T * factored R)) : list (list (T * T)) :=
  map (fun ip => map (fun y => (fst (snd ip), y)) (y_divs (fst ip) (snd (snd ip)))) (combine (seq 0 (length pts)) pts).
(* l.207-231: the first candidate that divides f *)
Fixpoint try_points (f : poly) (cands : list (list (T * T))) : option (find_factor_result (R := P)) :=
  match cands with
  | [] => Some FFIrreducible
  | pts :: cands' =>
      do o <- interpolate_by_lagrange_basis div pts;
      match o with
      | Some g =>
          do dg <- p_degree g;
          if 1 <=? dg then
            do d <- p_div div f g;
            match d with
            | DivOk h => Some (FFComposite (R := P) g h)
            | NotDivisible => try_points f cands'
            | DivideByZero => None
            end
          else try_points f cands'
      | None => try_points f cands'
      end
  end.
(* l.150-236; the fuel is a number of samples that suffices *)
Definition find_factor_kronecker (f : poly) : option (find_factor_result (R := P)) :=
  do f_deg <- p_degree f;
  if f_deg =? 1 then Some FFIrreducible
  else
    let max_factor_degree := f_deg / 2 in
    do pts <- sample (3 * (max_factor_degree + 1) + f_deg) f (3 * (max_factor_degree + 1)) 0 [];
    let pts := firstn (max_factor_degree + 1) (sort_key pts) in
    try_points f (cartesian (g_points (rev pts))).
(* l.238-255; inner None is the Rust None *)
Definition factorize_by_kroneckers_method (pgcd : poly -> poly -> option poly) (f : poly) : option (option (factored P)) :=
  if p_is_zero f then Some None
  else
    do r <- yun pgcd factor (fun f => factorize_by_find_factor (R := P) pdivr pffar (length f + 1) find_factor_kronecker f) f;
    Some (Some r).
End Kronecker.

(* ------------------------------------------------------------------ l.311-340 *)
Section Trying.
Variable units : list T.
(* l.321-336 *)
Fixpoint try_monics (f : poly) (cands : list (list T)) (k : option (find_factor_result (R := P))) : option (find_factor_result (R := P)) :=
  match cands with
  | [] => k
  | coeffs :: cands' =>
      let g := coeffs ++ [r1] in
      do d <- p_div div f g;
      match d with
      | DivOk h => Some (FFComposite (R := P) g h)
      | NotDivisible => try_monics f cands' k
      | DivideByZero => None
      end
  end.
(* l.319-338 *)
Definition find_factor_by_trying_all_factors (f : poly) : option (find_factor_result (R := P)) :=
  do f_deg <- p_degree f;
  let max_factor_degree := f_deg / 2 in
  fold_right (fun d k => try_monics f (cartesian (repeat (r0 :: units) (d + 1))) k) (Some FFIrreducible) (seq 0 max_factor_degree).
(* l.342-356 *)
Definition factorize_by_trying_all_factors (f : poly) : option (option (factored P)) :=
  if p_is_zero f then Some None
  else
    do r <- factorize_by_find_factor (R := P) pdivr pffar (length f + 1) find_factor_by_trying_all_factors f;
    Some (Some r).
End Trying.
End Fac.
