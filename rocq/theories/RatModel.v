(* Model of the rational-number code: rational.rs (rounding), padic/valuation.rs, real/interval.rs, complex/boxes.rs, bisection_gen.rs.
   malachite's Rational = Q, compared with Qeq (malachite keeps every Rational in lowest terms, so its == is Qeq); None = panic. *)
From Coq Require Import QArith Qround ZArith NArith List Bool.
Import ListNotations.

(* ---------- number/rational.rs l.81-91 *)
(* l.82-84: malachite's Floor (trusted) *)
Definition rat_floor (x : Q) : Z := Qfloor x.
(* l.85-87 *)
Definition rat_ceil (x : Q) : Z := (- rat_floor (- x))%Z.
(* l.88-90 *)
Definition rat_round (x : Q) : Z := rat_floor (x + (1 # 2)).

(* ---------- number/algebraic/padic/valuation.rs *)
(* l.6-9 *)
Inductive valuation := Infinity | Finite (v : Z).
(* l.10-28 *)
Definition val_cmp (a b : valuation) : comparison :=
  match a, b with Infinity, Infinity => Eq | Infinity, Finite _ => Gt | Finite _, Infinity => Lt | Finite x, Finite y => Z.compare x y end.
(* l.30-35 *)
Definition unwrap_int (a : valuation) : option Z := match a with Infinity => None | Finite v => Some v end.
(* l.37-48 *)
Definition unwrap_nat (a : valuation) : option N := match a with Infinity => None | Finite v => if (v <? 0)%Z then None else Some (Z.abs_N v) end.
(* l.51-94 *)
Definition val_add (a b : valuation) : valuation := match a, b with Finite x, Finite y => Finite (x + y) | _, _ => Infinity end.
(* l.101-148 *)
Definition val_sub (a b : valuation) : option valuation :=
  match a, b with _, Infinity => None | Infinity, Finite _ => Some Infinity | Finite x, Finite y => Some (Finite (x - y)) end.
(* l.154-197 *)
Definition val_mul (a b : valuation) : valuation := match a, b with Finite x, Finite y => Finite (x * y) | _, _ => Infinity end.
(* l.199-217; out of fuel = the loop does not stop *)
Fixpoint val_loop (fuel : nat) (p n : N) (k : Z) : option Z :=
  match fuel with O => None | S f => let q := (n / p)%N in let r := (n mod p)%N in if (r =? 0)%N then val_loop f p q (k + 1) else Some k end.
Definition padic_nat_valuation (p n : N) : option valuation :=
  if (n =? 0)%N then Some Infinity else match val_loop (S (N.size_nat n)) p n 0 with Some k => Some (Finite k) | None => None end.
(* l.219-221 *)
Definition padic_int_valuation (p : N) (n : Z) : option valuation := padic_nat_valuation p (Z.abs_N n).
(* l.223-229; into_numerator_and_denominator gives the absolute value in lowest terms *)
Definition padic_rat_valuation (p : N) (r : Q) : option valuation :=
  let n := Z.abs_N (Qnum (Qred r)) in let d := Npos (Qden (Qred r)) in
  match padic_nat_valuation p n with
  | None => None
  | Some Infinity => Some Infinity
  | Some (Finite vn) => match padic_nat_valuation p d with
                        | None => None
                        | Some v => match unwrap_int v with None => None | Some vd => Some (Finite (vn - vd)) end
                        end
  end.

(* ---------- number/algebraic/real/interval.rs *)
Local Open Scope Q_scope.
Definition interval := (Q * Q)%type.
(* l.6-11 *)
Definition add_intervals (a b : interval) : interval := (fst a + fst b, snd a + snd b).
(* l.13-15 *)
Definition add_interval_rat (a : interval) (r : Q) : interval := (fst a + r, snd a + r).
(* Iterator::min keeps the first minimum, Iterator::max the last maximum *)
Definition min_list (l : list Q) : option Q :=
  match l with [] => None | x :: t => Some (fold_left (fun m y => if Qle_bool m y then m else y) t x) end.
Definition max_list (l : list Q) : option Q :=
  match l with [] => None | x :: t => Some (fold_left (fun m y => if Qle_bool m y then y else m) t x) end.
(* l.17-31 *)
Definition mul_intervals (a b : interval) : option interval :=
  let pts := flat_map (fun x => map (fun y => x * y) [fst b; snd b]) [fst a; snd a] in
  match min_list pts, max_list pts with Some lo, Some hi => Some (lo, hi) | _, _ => None end.
(* l.33-39 *)
Definition mul_interval_rat (a : interval) (r : Q) : option interval :=
  match r ?= 0 with Lt => Some (r * snd a, r * fst a) | Eq => None | Gt => Some (r * fst a, r * snd a) end.

(* ---------- number/algebraic/complex/boxes.rs: (re_lo, re_hi, im_lo, im_hi) *)
Record box := mkBox { b0 : Q; b1 : Q; b2 : Q; b3 : Q }.
(* l.6-16 *)
Definition add_boxes (a b : box) : box := mkBox (b0 a + b0 b) (b1 a + b1 b) (b2 a + b2 b) (b3 a + b3 b).
(* l.18-28 *)
Definition add_box_rat (a : box) (r : Q) : box := mkBox (b0 a + r) (b1 a + r) (b2 a) (b3 a).
(* l.30-60 *)
Definition corners (a : box) : list (Q * Q) := [(b0 a, b2 a); (b0 a, b3 a); (b1 a, b2 a); (b1 a, b3 a)].
Definition pairs_of (a b : box) : list ((Q * Q) * (Q * Q)) := flat_map (fun p => map (fun q => (p, q)) (corners b)) (corners a).
Definition mul_boxes (a b : box) : option box :=
  let re := map (fun '((re1, im1), (re2, im2)) => re1 * re2 - im1 * im2) (pairs_of a b) in
  let im := map (fun '((re1, im1), (re2, im2)) => re1 * im2 + im1 * re2) (pairs_of a b) in
  match min_list re, max_list re, min_list im, max_list im with Some x, Some y, Some z, Some w => Some (mkBox x y z w) | _, _, _, _ => None end.
(* l.62-82 *)
Definition mul_box_rat (a : box) (r : Q) : option box :=
  match r ?= 0 with
  | Lt => Some (mkBox (r * b1 a) (r * b0 a) (r * b3 a) (r * b2 a))
  | Eq => None
  | Gt => Some (mkBox (r * b0 a) (r * b1 a) (r * b2 a) (r * b3 a))
  end.

(* ---------- number/algebraic/bisection_gen.rs.  BTreeMap<Rational, Vec<(Rational, Rational)>> = list of entries with strictly increasing keys *)
Definition regions := list (Q * list (Q * Q)).
(* l.15-20 *)
Definition new_between (a b : Q) : option regions := if Qlt_le_dec a b then Some [(b - a, [(a, b)])] else None.
(* l.23-31 *)
Definition new_between_middle (a b f : Q) : option regions :=
  if Qlt_le_dec a b then if Qlt_le_dec 0 f then if Qlt_le_dec 1 f then None else
    let d := b - a in new_between (a + (d - d * f) / 2) (b - (d - d * f) / 2) else None else None.
(* l.33-41: push onto the vector at the key, inserting it in key order if absent *)
Fixpoint add_at (m : regions) (key : Q) (x : Q * Q) : regions :=
  match m with
  | [] => [(key, [x])]
  | (k, v) :: m' => match key ?= k with Eq => (k, v ++ [x]) :: m' | Lt => (key, [x]) :: m | Gt => (k, v) :: add_at m' key x end
  end.
Definition add_region (m : regions) (a b : Q) : regions := add_at m (b - a) (a, b).
(* the last element of a vector and the rest; None on an empty vector *)
Fixpoint pop {A} (l : list A) : option (list A * A) :=
  match l with [] => None | [x] => Some ([], x) | x :: t => match pop t with Some (t', y) => Some (x :: t', y) | None => None end end.
(* l.47-60.  last_entry: the entry with the largest key; simplest = malachite's simplest_rational_in_open_interval *)
Definition gen_next (simplest : Q -> Q -> Q) (m : regions) : option (Q * regions) :=
  match pop m with
  | None => None
  | Some (m', (key, v)) =>
      match pop v with
      | None => None
      | Some (v', (a, b)) =>
          let m1 := match v' with [] => m' | _ => m' ++ [(key, v')] end in
          let c := simplest a b in
          Some (c, add_region (add_region m1 a c) c b)
      end
  end.
Fixpoint gen_take (simplest : Q -> Q -> Q) (n : nat) (m : regions) : option (list Q * regions) :=
  match n with
  | O => Some ([], m)
  | S n' => match gen_next simplest m with
            | None => None
            | Some (x, m') => match gen_take simplest n' m' with Some (l, m'') => Some (x :: l, m'') | None => None end
            end
  end.
