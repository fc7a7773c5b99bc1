(* Model of rings/src/number/natural/primes.rs l.136-471: the AKS primality test.
   Natural = N, usize = nat or N.  None = panic or out of fuel (`fuel` bounds the unbounded searches).  `dbg` = debug assertions are compiled in.
   `fac` is the natural-number factorisation called by is_primitive_root. *)
From Coq Require Import NArith List Bool.
From Verif Require Import RingModel NatModel.
Import ListNotations.
Local Open Scope N_scope.

(* l.144-154 *)
Definition aks_r0 (n : N) : N :=
  let a := N.of_nat (bitcount n) - 1 in let r0 := (a * a) / 100 in if r0 <? 3 then 3 else r0.
(* l.156-181: inl = early return, inr r = the prime found *)
Fixpoint aks_find_r (fac : N -> option (option fmap)) (fuel steps : nat) (n r0 : N) (g : prime_gen) : option (ptest + N) :=
  match steps with
  | O => None
  | S s =>
      do (r, g') <- pg_next fuel g;
      if r <? r0 then aks_find_r fac fuel s n r0 g'
      else
        do t <- is_primitive_root fac [(r, 1)] n;
        match t with
        | NonUnit => Some (inl (if n =? r then PPrime else PComposite))
        | RNo => aks_find_r fac fuel s n r0 g'
        | RYes => Some (inr r)
        end
  end.
(* l.183-214 *)
Definition aks_phi (r : N) : N := r - 1.
Definition aks_d (r : N) : N := aks_phi r / 2.
Definition aks_i (r : N) : N := let i := (475 * aks_phi r) / 1000 in if aks_d r <? i then aks_d r else i.
Definition aks_j (r : N) : N := let j := (475 * aks_phi r) / 1000 in let max := aks_phi r - 1 - aks_d r in if max <? j then max else j.
(* l.219-223 *)
Definition aks_rhs (n r : N) : option N := do e <- nth_root_ceil (aks_phi r / 3) 2; Some (pow n e).
(* l.226-236 *)
Definition aks_lhs (r s : N) : option N :=
  let two_s := 2 * s in
  if two_s <? aks_i r then Some 0
  else
    do a <- choose two_s (aks_i r);
    do b <- choose (aks_d r) (aks_i r);
    do c <- choose (two_s - aks_i r) (aks_j r);
    do e <- choose (aks_phi r - 1 - aks_d r) (aks_j r);
    Some (a * b * c * e).
(* l.256-277; the subtraction of Naturals panics on underflow *)
Fixpoint aks_shrink (lhs : N -> option N) (rhs : N) (step : nat) (s : N) : option N :=
  let p := 2 ^ N.of_nat step in
  if s <? p then None
  else
    do v <- lhs (s - p);
    match v ?= rhs with
    | Lt => match step with O => Some s | S k => aks_shrink lhs rhs k s end
    | Eq => Some s
    | Gt => match step with O => Some (s - p) | S k => aks_shrink lhs rhs k (s - p) end
    end.
(* l.238-280; `step_pow -= 1` panics at 0 *)
Fixpoint aks_grow (fuel : nat) (lhs : N -> option N) (rhs : N) (step : nat) (s : N) : option N :=
  match fuel with
  | O => None
  | S f =>
      let s := s + 2 ^ N.of_nat step in
      do v <- lhs s;
      match v ?= rhs with
      | Lt => aks_grow f lhs rhs (S step) s
      | Eq => Some s
      | Gt => match step with O => None | S k => aks_shrink lhs rhs k s end
      end
  end.
(* l.216-290, debug assertions at l.281-287 *)
Definition aks_s (dbg : bool) (fuel : nat) (n r : N) : option N :=
  do rhs <- aks_rhs n r;
  do s <- aks_grow fuel (aks_lhs r) rhs 0 0;
  if dbg then
    do v <- aks_lhs r s;
    if v <? rhs then None
    else if 1 <? s then do w <- aks_lhs r (s - 1); if w <? rhs then Some s else None
    else Some s
  else Some s.
(* l.292-300 *)
Definition aks_set (s : N) : list N := map (fun k => 2 + N.of_nat k) (seq 0 (N.to_nat s)).
(* the body common to l.303-316, 319-338, 341-360: Some None = go on *)
Fixpoint aks_gcds (n : N) (xs : list N) : option (option ptest) :=
  match xs with
  | [] => Some None
  | x :: xs' =>
      do g <- gcd n x;
      if negb (g =? 1) then
        if g =? n then do t <- try_divisors n; Some (Some t) else Some (Some PComposite)
      else aks_gcds n xs'
  end.
(* pairs (b_idx, b_jdx), idx <= jdx resp. idx < jdx, in the order of the loops *)
Fixpoint pairs_le (l : list N) : list (N * N) := match l with [] => [] | x :: l' => map (fun y => (x, y)) (x :: l') ++ pairs_le l' end.
Fixpoint pairs_lt (l : list N) : list (N * N) := match l with [] => [] | x :: l' => map (fun y => (x, y)) l' ++ pairs_lt l' end.
Definition aks_prods (S : list N) : list N := map (fun p => fst p * snd p - 1) (pairs_le S).
Definition aks_diffs (S : list N) : list N := map (fun p => snd p - fst p) (pairs_lt S).

(* ---------- polynomials modulo x^r - 1 and n, packed into integers, l.369-455 *)
Section Poly.
Variables (dbg : bool) (n : N) (r : nat) (cs : N).
Definition zero_poly : list N := repeat 0 r.
(* p[i] = v / p[i] += v; None = index out of bounds *)
Fixpoint upd (f : N -> N) (l : list N) (i : nat) : option (list N) :=
  match l, i with
  | [], _ => None
  | x :: l', O => Some (f x :: l')
  | x :: l', S i' => do m <- upd f l' i'; Some (x :: m)
  end.
Definition one_poly : option (list N) := upd (fun _ => 1) zero_poly 0.
(* l.386-392 *)
Definition poly_to_bigint (p : list N) : N :=
  fold_left (fun acc ic => acc + N.shiftl (snd ic) (N.of_nat (fst ic) * cs)) (combine (seq 0 (length p)) p) 0.
(* l.393-404 *)
Fixpoint bigint_digits (k : nat) (a : N) : list N := match k with O => [] | S k' => (a mod N.shiftl 1 cs) mod n :: bigint_digits k' (a / N.shiftl 1 cs) end.
Definition bigint_to_poly (a : N) : list N := bigint_digits r a.
(* l.406-415 *)
Fixpoint upd_mod (l : list N) (i : nat) (x : N) : list N :=
  match l, i with [], _ => [] | y :: l', O => (y + x) mod n :: l' | y :: l', S i' => y :: upd_mod l' i' x end.
Definition mul_polys_naive (a b : list N) : list N :=
  fold_left (fun s i => fold_left (fun s j => upd_mod s (Nat.modulo (i + j) r) (nth i a 0 * nth j b 0)) (seq 0 r) s) (seq 0 r) zero_poly.
(* l.418-426 *)
Definition coeff_mask : N := N.shiftl 1 cs - 1.
Definition reduce_coeffs (a : N) : N :=
  fold_left (fun b i => let k := N.of_nat i * cs in
                        N.lor b (N.shiftl (N.shiftr (N.land a (N.shiftl coeff_mask k)) k mod n) (cs * N.of_nat i))) (seq 0 r) 0.
(* l.428-445 *)
Definition mul_polys (a b : N) : option N :=
  let m := N.shiftl 1 (cs * N.of_nat r) - 1 in
  let s := reduce_coeffs ((a * b) mod m) in
  if dbg && negb (s =? poly_to_bigint (mul_polys_naive (bigint_to_poly a) (bigint_to_poly b))) then None else Some s.
(* l.449-458: bits from the least significant; the last squaring is unused *)
Fixpoint nthpow_loop (bs : list bool) (s poly : N) : option N :=
  match bs with
  | [] => Some s
  | b :: bs' =>
      do s' <- (if b : bool then mul_polys s poly else Some s);
      do poly' <- mul_polys poly poly;
      nthpow_loop bs' s' poly'
  end.
Definition nthpow_poly (poly k : N) : option N := do o <- one_poly; nthpow_loop (bits k) (poly_to_bigint o) poly.
(* l.460-483: Some true = all congruences hold *)
Definition aks_congruence (b : N) : option bool :=
  do p <- upd (fun _ => b) zero_poly 0;
  do p <- upd (fun _ => 1) p 1;
  do lhs <- nthpow_poly (poly_to_bigint p) n;
  do q <- upd (fun _ => b) zero_poly 0;
  do q <- upd (fun c => c + 1) q (N.to_nat (n mod N.of_nat r));
  Some (lhs =? poly_to_bigint q).
End Poly.
Fixpoint aks_all (f : N -> option bool) (l : list N) : option bool :=
  match l with [] => Some true | b :: l' => do x <- f b; if x : bool then aks_all f l' else Some false end.

(* l.137-471 *)
Definition aks (dbg : bool) (fac : N -> option (option fmap)) (fuel : nat) (n : N) : option ptest :=
  do t <- is_power_test fuel n;
  match t with
  | PwZero => Some PZero
  | PwOne => Some POne
  | PwPower _ _ => Some PComposite
  | PwNo =>
      do rr <- aks_find_r fac fuel fuel n (aks_r0 n) pg_new;
      match rr with
      | inl t => Some t
      | inr r =>
          do s <- aks_s dbg fuel n r;
          let S := aks_set s in
          do t1 <- aks_gcds n S;
          match t1 with
          | Some t => Some t
          | None =>
              do t2 <- aks_gcds n (aks_prods S);
              match t2 with
              | Some t => Some t
              | None =>
                  do t3 <- aks_gcds n (aks_diffs S);
                  match t3 with
                  | Some t => Some t
                  | None =>
                      if existsb (fun b => negb (powmod (b mod n) (n - 1) n =? 1)) S then Some PComposite
                      else
                        do c <- aks_all (aks_congruence dbg n (N.to_nat r) (N.of_nat (bitcount (n * n * r)))) S;
                        Some (if c then PPrime else PComposite)
                  end
              end
          end
      end
  end.
