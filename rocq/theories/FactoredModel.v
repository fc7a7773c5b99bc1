(* Model of rings/src/structure/factorization.rs *)
From Coq Require Import List Arith NArith ZArith Bool.
From Verif Require Import RingSpec RingModel.
Import ListNotations.

Section Factored.
Context {R : ring_ops} (div : div_op R) (ffa : ffa_op R).
Notation T := (T R).

(* l.10-14 (the ring handle is the section parameter) *)
Record factored := Factored { f_unit : T; f_factors : list (T * N) }.

(* l.76-87 *)
Definition make_squarefree (f : factored) : factored :=
  Factored r1 (map (fun pk => (fst pk, 1%N)) (f_factors f)).
(* l.89-95 *)
Definition expand (f : factored) : T :=
  fold_left (fun ans pk => rmul ans (nat_pow (fst pk) (snd pk))) (f_factors f) (f_unit f).
(* l.97-99 *)
Definition expand_squarefree (f : factored) : T := expand (make_squarefree f).
(* l.109-148 *)
Definition factored_equal (a b : factored) : bool :=
  if negb (req (f_unit a) (f_unit b)) then false
  else if negb (forallb (fun x => existsb (fun y => req (fst x) (fst y)) (f_factors b)) (f_factors a)) then false
  else if negb (forallb (fun y => existsb (fun x => req (fst x) (fst y)) (f_factors a)) (f_factors b)) then false
  else forallb (fun x => forallb (fun y => if req (fst x) (fst y) then N.eqb (snd x) (snd y) else true) (f_factors b)) (f_factors a).
(* l.162-172 *)
Definition factors_list (f : factored) : list T :=
  flat_map (fun pk => repeat (fst pk) (N.to_nat (snd pk))) (f_factors f).
(* l.178-186 *)
Definition f_is_irreducible (f : factored) : bool :=
  match f_factors f with [(_, k)] => N.eqb k 1 | _ => false end.

(* l.188-204: scan the factors; the first associate one absorbs the power *)
Fixpoint mul_by_loop (unit : T) (fs : list (T * N)) (p : T) (k : N) : T * list (T * N) :=
  match fs with
  | [] => (unit, [(p, k)])                                                   (* l.203 *)
  | (q, t) :: rest =>
      match div p q, div q p with
      | DivOk u, DivOk v =>
          if is_unit div u && is_unit div v
          then (rmul unit (nat_pow v k), (q, (t + k)%N) :: rest)             (* l.193-197 *)
          else let '(unit', rest') := mul_by_loop unit rest p k in (unit', (q, t) :: rest')
      | _, _ => let '(unit', rest') := mul_by_loop unit rest p k in (unit', (q, t) :: rest')
      end
  end.
Definition mul_by_unchecked (f : factored) (p : T) (k : N) : factored :=
  let '(u, fs) := mul_by_loop (f_unit f) (f_factors f) p k in Factored u fs.
(* l.206-220 (mul and mul_mut are the same computation) *)
Definition f_mul (a b : factored) : factored :=
  fold_left (fun acc pk => mul_by_unchecked acc (fst pk) (snd pk)) (f_factors b)
            (Factored (rmul (f_unit a) (f_unit b)) (f_factors a)).
(* l.222-227 *)
Definition f_pow (f : factored) (k : N) : factored :=
  Factored (f_unit f) (map (fun pk => (fst pk, (snd pk * k)%N)) (f_factors f)).
(* l.229-262 *)
Definition factored_one : factored := Factored r1 [].
Definition factored_irreducible_unchecked (e : T) : factored :=
  let '(u, a) := ffa e in Factored u [(a, 1%N)].
Definition factored_irreducible_power_unchecked (e : T) (k : N) : factored :=
  let '(u, a) := ffa e in Factored u [(a, k)].
Definition factored_unit_unchecked (u : T) : factored := Factored u [].

(* l.268-279: p^0, p^1, ..., p^k by repeated multiplication *)
Fixpoint powers_upto (k : nat) (p p_pow : T) : list T :=
  p_pow :: match k with O => [] | S k' => powers_upto k' p (rmul p_pow p) end.
(* itertools' multi_cartesian_product: last index varies fastest *)
Fixpoint cartesian {A} (ls : list (list A)) : list (list A) :=
  match ls with
  | [] => [[]]
  | l :: ls' => flat_map (fun x => map (cons x) (cartesian ls')) l
  end.
(* l.264-292 *)
Definition divisors (f : factored) : list T :=
  match f_factors f with
  | [] => [r1]
  | fs => map product (cartesian (map (fun pk => powers_upto (N.to_nat (snd pk)) (fst pk) r1) fs))
  end.
(* l.294-300 *)
Definition count_divisors (f : factored) : N :=
  fold_left (fun c pk => (c * (snd pk + 1))%N) (f_factors f) 1%N.

(* l.303-307 *)
Inductive find_factor_result := FFIrreducible | FFComposite (g h : T).
(* l.309-330; None = panic (failed debug_assert!, or a panic of the callback) or out of fuel *)
Fixpoint factorize_by_find_factor (fuel : nat) (pf : T -> option find_factor_result) (e : T) : option factored :=
  match fuel with
  | O => None
  | S fuel' =>
      if is_zero e then None                                                 (* l.314 *)
      else if is_unit div e then Some (factored_unit_unchecked e)
      else match pf e with
           | Some (FFComposite g h) =>
               match factorize_by_find_factor fuel' pf g, factorize_by_find_factor fuel' pf h with
               | Some a, Some b => Some (f_mul a b)
               | _, _ => None
               end
           | Some FFIrreducible => Some (factored_irreducible_unchecked e)
           | None => None
           end
  end.
End Factored.
Arguments factored : clear implicits.
