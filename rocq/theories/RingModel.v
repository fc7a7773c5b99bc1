(* Model of the default methods of rings/src/structure/structure.rs, and of rings/src/structure/quotient.rs,
   rings/src/number/integer/mod.rs, rings/src/number/finite_fields/{modulo,quaternary_field}.rs *)
From Coq Require Import List Arith NArith ZArith Bool.
From Verif Require Import RingSpec.
Import ListNotations.

Section Ring.
Context {R : ring_ops}.
Notation T := (T R).

(* structure.rs l.23-25 *)
Definition is_zero (a : T) : bool := req a r0.
(* l.34-40, l.45-51 *)
Definition sum (vals : list T) : T := fold_left radd vals r0.
Definition product (vals : list T) : T := fold_left rmul vals r1.

(* Natural::bits(): least significant first, no trailing false *)
Fixpoint pos_bits (p : positive) : list bool :=
  match p with xH => [true] | xO p' => false :: pos_bits p' | xI p' => true :: pos_bits p' end.
Definition bits (n : N) : list bool := match n with N0 => [] | Npos p => pos_bits p end.

(* l.61-64: vec![a]; while len < count push(last*last); `extra` = count - 1 pushes *)
Fixpoint squares (extra : nat) (last : T) : list T :=
  last :: match extra with O => [] | S e => squares e (rmul last last) end.
(* l.67-72 *)
Fixpoint pow_loop (bs : list bool) (pows : list T) (ans : T) : T :=
  match bs, pows with
  | b :: bs', p :: ps => pow_loop bs' ps (if b then rmul ans p else ans)
  | _, _ => ans
  end.
(* l.53-75 *)
Definition nat_pow (a : T) (n : N) : T :=
  if N.eqb n 0 then r1
  else if N.eqb n 1 then a
  else pow_loop (bits n) (squares (length (bits n) - 1) a) r1.

(* l.86-94 *)
Fixpoint from_nat_loop (bs : list bool) (two v ans : T) : T :=
  match bs with
  | [] => ans
  | b :: bs' => from_nat_loop bs' two (rmul v two) (if b then radd ans v else ans)
  end.
(* l.77-96 *)
Definition from_nat (x : N) : T :=
  if N.eqb x 0 then r0
  else if N.eqb x 1 then r1
  else from_nat_loop (bits x) (radd r1 r1) r1 r0.
(* l.136-142 *)
Definition from_int (x : Z) : T :=
  if (x <? 0)%Z then rneg (from_nat (Z.abs_N x)) else from_nat (Z.abs_N x).

Section Domain.
Variable div : div_op R.

(* l.171-173 *)
Definition inv (a : T) : divres T := div r1 a.

(* l.186-201; outer None = panic, inner option is the Rust Option *)
Definition int_pow (a : T) (n : Z) : option (option T) :=
  if (n =? 0)%Z then Some (Some r1)
  else if is_zero a then Some (Some r0)
  else if (0 <? n)%Z then Some (Some (nat_pow a (Z.abs_N n)))
  else match inv a with
       | DivOk b => Some (Some (nat_pow b (Z.abs_N n)))
       | NotDivisible => Some None
       | DivideByZero => None
       end.

(* l.175-184 from_rat on a rational num/den; None = panic *)
Definition from_rat (num den : Z) : option (option T) :=
  match div (from_int num) (from_int den) with
  | DivOk d => Some (Some d) | NotDivisible => Some None | DivideByZero => None
  end.

(* l.203-209, 210-216, 217-223 *)
Definition divisible (a b : T) : bool := match div a b with DivOk _ => true | _ => false end.
Definition are_associate (a b : T) : bool :=
  if req a r0 && req b r0 then true else divisible a b && divisible b a.
Definition is_unit (a : T) : bool := match div r1 a with DivOk _ => true | _ => false end.

Section FavAssoc.
Variable ffa : ffa_op R.
(* l.304-310 *)
Definition fav_assoc (a : T) : T := snd (ffa a).
Definition is_fav_assoc (a : T) : bool := req a (snd (ffa a)).

Section Gcd.
Variable gcd : T -> T -> T.
(* l.333-339 *)
Definition gcd_list (elems : list T) : T := fold_left gcd elems r0.
(* l.340-346; None = panic of unwrap *)
Definition lcm (x y : T) : option T :=
  if is_zero x && is_zero y then Some r0
  else match div (rmul x y) (gcd x y) with DivOk q => Some q | _ => None end.
(* l.347-353 *)
Fixpoint lcm_loop (acc : T) (elems : list T) : option T :=
  match elems with
  | [] => Some acc
  | x :: l => match lcm acc x with None => None | Some m => lcm_loop m l end
  end.
Definition lcm_list (elems : list T) : option T := lcm_loop r1 elems.
End Gcd.

Section Bezout.
Variable xgcd : T -> T -> T * T * T.
(* l.411-438; fuel bounds the recursion depth; None = panic or out of fuel *)
Fixpoint xgcd_list (fuel : nat) (elems : list T) : option (T * list T) :=
  match fuel with
  | O => None
  | S fuel' =>
    match elems with
    | [] => Some (r0, [])
    | [e] => let '(unit, assoc) := ffa e in
             match inv unit with DivOk u => Some (assoc, [u]) | _ => None end
    | [e0; e1] => let '(g, x, y) := xgcd e0 e1 in Some (g, [x; y])
    | _ => let k := Nat.div2 (length elems) in
           match xgcd_list fuel' (firstn k elems), xgcd_list fuel' (skipn k elems) with
           | Some (g1, c1), Some (g2, c2) =>
               let '(g, x, y) := xgcd g1 g2 in
               Some (g, map (fun c => rmul x c) c1 ++ map (fun c => rmul y c) c2)
           | _, _ => None
           end
    end
  end.
End Bezout.

Section Euclid.
Variable quorem : T -> T -> option (T * T).
(* l.461-466 *)
Definition quo (a b : T) : option T := match quorem a b with Some (q, _) => Some q | None => None end.
(* l.468-475; None = panic *)
Definition rem (a b : T) : option T :=
  if negb (is_zero b) then match quorem a b with Some (_, r) => Some r | None => None end else Some a.

(* l.481-488; None = panic or out of fuel *)
Fixpoint euclidean_gcd (fuel : nat) (x y : T) : option T :=
  match fuel with
  | O => None
  | S fuel' =>
      if negb (is_zero y) then
        match rem x y with
        | None => None
        | Some r => euclidean_gcd fuel' y r
        end
      else Some (snd (ffa x))
  end.

(* l.506-523; None = panic or out of fuel *)
Fixpoint xgcd_loop (fuel : nat) (x y pa a pb b : T) : option (T * T * T) :=
  match fuel with
  | O => None
  | S fuel' =>
      if negb (is_zero y) then
        match quorem x y with
        | None => None
        | Some (q, r) =>
            let new_a := radd pa (rneg (rmul q a)) in
            let new_b := radd pb (rneg (rmul q b)) in
            xgcd_loop fuel' y r a new_a b new_b
        end
      else
        let '(unit, ass_x) := ffa x in
        match div pa unit, div pb unit with
        | DivOk a', DivOk b' => Some (ass_x, a', b')
        | _, _ => None
        end
  end.
(* l.490-531 (the debug assertions are consequences of the theorem) *)
Definition euclidean_xgcd (fuel : nat) (x y : T) : option (T * T * T) :=
  xgcd_loop fuel x y r1 r0 r0 r1.
End Euclid.
End FavAssoc.
End Domain.

(* l.606-614 IntegerIterator::next: answer and new state *)
Definition int_iter_next (next : Z) : T * Z :=
  (from_int next, if (0 <? next)%Z then (- next)%Z else (1 - next)%Z).
(* the first m items of generate_distinct_elements *)
Fixpoint int_iter_take (m : nat) (next : Z) : list T :=
  match m with
  | O => []
  | S m' => let '(x, nx) := int_iter_next next in x :: int_iter_take m' nx
  end.
Definition generate_distinct_elements (m : nat) : list T := int_iter_take m 0%Z.
End Ring.

(* ------------------------------------------------------------ FieldStructure blanket impls, structure.rs l.624-652 *)
Definition field_ffa {R : ring_ops} : ffa_op R := fun a => if is_zero a then (r1, r0) else (a, r1).
Definition field_norm {R : ring_ops} (a : T R) : option N := if is_zero a then None else Some 1%N.
(* None is also used for the panic of div(..).unwrap(), which field_laws exclude *)
Definition field_quorem {R : ring_ops} (div : div_op R) (a b : T R) : option (T R * T R) :=
  if is_zero b then None else match div a b with DivOk q => Some (q, r0) | _ => None end.

(* ------------------------------------------------------------ quotient.rs *)
Section Quotient.
Context {R : ring_ops} (div : div_op R) (ffa : ffa_op R) (quorem : T R -> T R -> option (T R * T R)).
Variable modulus : T R.
(* RS::rem; the panic of quorem(..).unwrap() for nonzero modulus is excluded by euclid_laws *)
Definition q_rem (a : T R) : T R := match rem quorem a modulus with Some r => r | None => a end.
(* l.27-29 *)
Definition q_reduce (a : T R) : T R := q_rem a.
(* l.91-97, l.108-130 *)
Definition quotient_ops : ring_ops := {|
  T := RingSpec.T R;
  req := fun a b => is_zero (q_rem (radd a (rneg b)));
  r0 := r0; r1 := r1;
  radd := fun a b => q_rem (radd a b);
  rmul := fun a b => q_rem (rmul a b);
  rneg := fun a => rneg a
|}.
(* l.136-159; None = panic (or out of fuel in euclidean_xgcd) *)
Definition quotient_div (fuel : nat) (top bot : T R) : option (divres (T R)) :=
  if @req quotient_ops bot (@r0 quotient_ops) then Some DivideByZero
  else match euclidean_xgcd div ffa quorem fuel bot modulus with
       | None => None
       | Some (g, a, b) =>
           match div top g with
           | DivOk d => Some (DivOk (q_rem (rmul a d)))
           | NotDivisible => Some NotDivisible
           | DivideByZero => None
           end
       end.
End Quotient.

(* ------------------------------------------------------------ number/integer/mod.rs *)
(* l.22-44 *)
Definition Z_ops : ring_ops := {| T := Z; req := Z.eqb; r0 := 0%Z; r1 := 1%Z; radd := Z.add; rmul := Z.mul; rneg := Z.opp |}.
(* l.109-125; malachite's div_mod rounds the quotient towards minus infinity *)
Definition Z_norm (a : Z) : option N := if Z.eqb a 0 then None else Some (Z.abs_N a).
Definition Z_quorem (a b : Z) : option (Z * Z) := if Z.eqb b 0 then None else Some (Z.div a b, Z.modulo a b).
(* l.46-59 *)
Definition Z_div : div_op Z_ops := fun a b =>
  match Z_quorem a b with
  | Some (q, r) => if Z.eqb r 0 then DivOk q else NotDivisible
  | None => DivideByZero
  end.
(* l.73-83 *)
Definition Z_ffa : ffa_op Z_ops := fun a =>
  if Z.eqb a 0 then (1%Z, 0%Z) else if (a <? 0)%Z then ((-1)%Z, (- a)%Z) else (1%Z, a).

(* ------------------------------------------------------------ number/finite_fields/quaternary_field.rs *)
(* l.12-17 *)
Inductive F4 := Zero | One | Alpha | Beta.
Definition F4_eqb (a b : F4) : bool :=
  match a, b with Zero, Zero | One, One | Alpha, Alpha | Beta, Beta => true | _, _ => false end.
(* l.47-61 *)
Definition F4_add (a b : F4) : F4 :=
  match a, b with
  | _, Zero => a
  | Zero, _ => b
  | One, One => Zero | One, Alpha => Beta | One, Beta => Alpha
  | Alpha, One => Beta | Alpha, Alpha => Zero | Alpha, Beta => One
  | Beta, One => Alpha | Beta, Alpha => One | Beta, Beta => Zero
  end.
(* l.63-74 *)
Definition F4_mul (a b : F4) : F4 :=
  match a, b with
  | _, Zero => Zero
  | Zero, _ => Zero
  | _, One => a
  | One, _ => b
  | Alpha, Alpha => Beta | Alpha, Beta => One | Beta, Alpha => One | Beta, Beta => Alpha
  end.
(* l.77-81 *)
Definition F4_ops : ring_ops :=
  {| T := F4; req := F4_eqb; r0 := Zero; r1 := One; radd := F4_add; rmul := F4_mul; rneg := fun a => a |}.
(* l.83-97 *)
Definition F4_div : div_op F4_ops := fun a b =>
  match a, b with
  | _, Zero => DivideByZero
  | _, One => DivOk a
  | Zero, _ => DivOk Zero
  | One, Alpha => DivOk Beta | One, Beta => DivOk Alpha
  | Alpha, Alpha => DivOk One | Alpha, Beta => DivOk Beta
  | Beta, Alpha => DivOk Alpha | Beta, Beta => DivOk One
  end.
(* l.101-109, 705-709 *)
Definition F4_units : list F4 := [One; Alpha; Beta].

(* ------------------------------------------------------------ number/finite_fields/modulo.rs *)
(* l.11-25 on usize; quotients and coefficients as integers (isize overflow not modelled) *)
Fixpoint mod_xgcd_loop (fuel : nat) (x y : nat) (pa a pb b : Z) : option (nat * Z * Z) :=
  match fuel with
  | O => None
  | S fuel' =>
      if Nat.eqb y 0 then Some (x, pa, pb)
      else let q := Z.of_nat (x / y) in
           let r := x mod y in
           mod_xgcd_loop fuel' y r a (pa - q * a)%Z b (pb - q * b)%Z
  end.
Definition mod_xgcd (fuel x y : nat) := mod_xgcd_loop fuel x y 1%Z 0%Z 0%Z 1%Z.
(* l.27-33; `%` on isize truncates towards zero = Z.rem *)
Definition mod_modulo (a : Z) (n : nat) : nat :=
  let a' := Z.rem a (Z.of_nat n) in
  Z.to_nat (if (a' <? 0)%Z then (a' + Z.of_nat n)%Z else a').
Section Modulo.
Variable N : nat.
(* l.64-81; `%` on Integer truncates; unsigned_abs *)
Definition mod_from_Integer (v : Z) : nat := Z.abs_nat (Z.rem v (Z.of_nat N)).
(* l.82-86 *)
Definition mod_from_usize (v : nat) : nat := v mod N.
(* l.87-100 *)
Definition mod_from_isize (v : Z) : nat := mod_modulo v N.
(* l.134-166; N - a.x underflows (panics) when a.x > N, which the invariant x < N excludes *)
Definition modulo_ops : ring_ops := {|
  T := nat;
  req := Nat.eqb;
  r0 := 0;
  r1 := if Nat.eqb N 1 then 0 else 1;
  radd := fun a b => (a + b) mod N;
  rmul := fun a b => (a * b) mod N;
  rneg := fun a => if Nat.eqb a 0 then 0 else N - a
|}.
(* l.171-191; None = panic/out of fuel *)
Definition mod_div (fuel : nat) (top bot : nat) : option (divres nat) :=
  if Nat.eqb bot 0 then Some DivideByZero
  else match mod_xgcd fuel bot N with
       | None => None
       | Some (g, a, b) =>
           if Nat.eqb g 0 then None
           else if Nat.eqb (top mod g) 0 then Some (DivOk ((mod_modulo a N * (top / g)) mod N))
           else Some NotDivisible
       end.
(* l.195-201 *)
Definition mod_all_units : list nat := seq 1 (N - 1).
End Modulo.
