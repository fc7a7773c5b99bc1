(* Model of rings/src/polynomial/polynomial.rs l.12-940: univariate polynomials over a coefficient ring.
   A polynomial is its coefficient vector (`list`, index = power); nothing forces the last entry to be nonzero, as in the Rust.
   Conventions: usize is nat; option None = the Rust code panics (failed unwrap, panic!, failed debug_assert!) unless a comment says
   that it is the Rust None; ownership and cloning are not modelled, the *_mut methods return the new value.
   Display/to_string, hashing and the thin MetaType wrappers (l.945-1130, one-line forwards) are not modelled. *)
From Coq Require Import List Arith NArith Bool.
From Verif Require Import RingSpec RingModel PermModel MatModel.
Import ListNotations.
Close Scope rs_scope.
Open Scope nat_scope.

Section Poly.
Context {R : ring_ops}.
Notation T := (T R).
Notation poly := (list (RingSpec.T R)).

(* l.240-245 *)
Definition p_coeff (a : poly) (i : nat) : T := nth i a r0.
(* l.117-126 *)
Definition p_equal (a b : poly) : bool :=
  forallb (fun i => req (p_coeff a i) (p_coeff b i)) (seq 0 (Nat.max (length a) (length b))).
(* l.182-199: pop the last coefficient while it is zero; `strip` works on the reversed vector *)
Fixpoint strip (ra : poly) : poly :=
  match ra with
  | [] => []
  | c :: ra' => if req c r0 then strip ra' else ra
  end.
Definition reduce_poly (a : poly) : poly := rev (strip (rev a)).
(* l.131-137 *)
Definition p_zero : poly := [].
Definition p_one : poly := [r1].
(* l.139-145 *)
Definition p_add (a b : poly) : poly :=
  reduce_poly (map (fun i => radd (p_coeff a i) (p_coeff b i)) (seq 0 (Nat.max (length a) (length b)))).
(* coeffs[k] += x; an index out of range would panic, but here k = i + j < len a + len b *)
Fixpoint add_at (l : poly) (k : nat) (x : T) : poly :=
  match l, k with
  | [], _ => []
  | c :: l', O => radd c x :: l'
  | c :: l', S k' => c :: add_at l' k' x
  end.
(* l.147-161 *)
Definition p_mul (a b : poly) : poly :=
  reduce_poly (fold_left (fun cs i => fold_left (fun cs j => add_at cs (i + j) (rmul (nth i a r0) (nth j b r0)))
                                                (seq 0 (length b)) cs)
                         (seq 0 (length a)) (repeat r0 (length a + length b))).
(* l.164-173 *)
Definition p_neg (a : poly) : poly := map rneg a.
(* the polynomial ring seen through the SemiRingStructure / RingStructure traits *)
Definition poly_ops : ring_ops :=
  {| RingSpec.T := poly; req := p_equal; r0 := p_zero; r1 := p_one; radd := p_add; rmul := p_mul; rneg := p_neg |}.
(* structure.rs l.23-25 at this structure *)
Definition p_is_zero (a : poly) : bool := p_equal a p_zero.
(* l.201-203, 205-218, 220-238 *)
Definition p_var : poly := [r0; r1].
Definition p_var_pow (n : nat) : poly := map (fun i => if i <? n then r0 else r1) (seq 0 (n + 1)).
Definition p_constant_var_pow (x : T) (n : nat) : poly := map (fun i => if i <? n then r0 else x) (seq 0 (n + 1)).
(* l.298-306: for i in (0..len).rev(); the option is the Rust option *)
Fixpoint degree_loop (p : poly) (k : nat) : option nat :=
  match k with
  | O => None
  | S i => if negb (is_zero (p_coeff p i)) then Some i else degree_loop p i
  end.
Definition p_degree (p : poly) : option nat := degree_loop p (length p).
(* l.247-249: Rust option; the unwrap of coeffs.get(degree) cannot fail *)
Definition p_leading_coeff (p : poly) : option T := match p_degree p with Some n => nth_error p n | None => None end.
(* l.251-260 *)
Definition p_evaluate (p : poly) (x : T) : T := fold_left (fun y c => radd (rmul y x) c) (rev p) r0.
(* l.270-272 *)
Definition p_reversed (p : poly) : poly := rev p.
(* l.274-283 *)
Definition p_mul_var_pow (p : poly) (n : nat) : poly := repeat r0 n ++ p.
(* l.285-289 *)
Definition p_mul_scalar (p : poly) (x : T) : poly := reduce_poly (map (fun c => rmul c x) p).
(* l.291-296 *)
Definition p_num_coeffs (p : poly) : nat := match p_degree p with Some n => n + 1 | None => 0 end.
(* l.308-316: Rust option *)
Definition p_as_constant (p : poly) : option T :=
  if p_num_coeffs p =? 0 then Some r0 else if p_num_coeffs p =? 1 then nth_error p 0 else None.
(* l.318-323 *)
Definition p_is_monic (p : poly) : bool := match p_leading_coeff p with Some lc => req lc r1 | None => false end.
(* l.325-339; coeffs[i] = v (i < len) *)
Fixpoint set_at (l : poly) (k : nat) (x : T) : poly :=
  match l, k with
  | [], _ => []
  | _ :: l', O => x :: l'
  | c :: l', S k' => c :: set_at l' k' x
  end.
Definition p_derivative (p : poly) : poly :=
  let p := reduce_poly p in
  if 0 <? p_num_coeffs p then
    removelast (fold_left (fun p i => set_at p i (rmul (nth (i + 1) p r0) (from_nat (N.of_nat (i + 1)))))
                          (seq 0 (p_num_coeffs p - 1)) p)
  else p.

(* ------------------------------------------------------------------ integral domains *)
Section Div.
Variable div : div_op R.
Notation ok_of := (fun d => match d with DivOk q => Some q | _ => None end).

(* l.425-450: for i in (0..k).rev().  q_coeffs is filled from the top down: the model conses.  None = panic *)
Fixpoint quorem_loop (b : poly) (n : nat) (i : nat) (a : poly) (q : poly) : option (divres (poly * poly)) :=
  match i with
  | O => Some (DivOk (q, a))
  | S i' =>
      match div (p_coeff a (i' + n - 1)) (p_coeff b (n - 1)) with
      | DivOk qc => quorem_loop b n i' (p_add a (p_neg (p_mul_var_pow (p_mul_scalar b qc) i'))) (qc :: q)
      | NotDivisible => Some NotDivisible
      | DivideByZero => None
      end
  end.
(* l.406-452 *)
Definition try_quorem (a b : poly) : option (divres (poly * poly)) :=
  let m := p_num_coeffs a in
  let n := p_num_coeffs b in
  if n =? 0 then Some DivideByZero
  else if m <? n then Some (DivOk (p_zero, a))
  else quorem_loop b n (m - n + 1) a [].
(* l.454-472 *)
Definition p_div (a b : poly) : option (divres poly) :=
  do r <- try_quorem a b;
  match r with
  | DivOk (q, r) =>
      assert! p_equal (p_add (p_mul q b) r) a;
      Some (if p_is_zero r then DivOk q else NotDivisible)
  | NotDivisible => Some NotDivisible
  | DivideByZero => Some DivideByZero
  end.
(* l.474-503: Rust Option<Result<_, _>> *)
Inductive psres := PsNone | PsErr | PsOk (r : poly).
Definition pseudorem (a b : poly) : option psres :=
  let m := p_num_coeffs a in
  let n := p_num_coeffs b in
  if n =? 0 then Some PsNone
  else if m <? n then Some PsErr
  else
    do d <- try_quorem (p_mul a [nat_pow (p_coeff b (n - 1)) (N.of_nat (m - n + 1))]) b;
    match d with DivOk (_, r) => Some (PsOk r) | _ => None end.
(* pseudorem(..).unwrap().unwrap() *)
Definition pseudorem_unwrap (a b : poly) : option poly :=
  do r <- pseudorem a b; match r with PsOk r => Some r | _ => None end.
(* l.536-573; fuel bounds the iterations; None = panic or out of fuel.
   State: b (the last remainder), its degree, r (the next one), lc_b, gamma, and the two output vectors *)
Fixpoint prs_loop (fuel : nat) (b : poly) (b_deg : nat) (r : poly) (lc_b gamma : T) (prs : list poly) (ssres : list T)
  : option (list poly * list T) :=
  match p_degree r with
  | None => assert! p_is_zero r; Some (prs, ssres)
  | Some r_deg =>
      match fuel with
      | O => None
      | S fuel' =>
          let prs := prs ++ [r] in
          let a := b in let b := r in
          assert! r_deg <=? b_deg;                                   (* usize subtraction b_deg - r_deg *)
          let diff_deg := b_deg - r_deg in
          let beta := rmul (rneg lc_b) (nat_pow gamma (N.of_nat diff_deg)) in
          do pr <- pseudorem_unwrap a b;
          do d <- p_div pr [beta];
          do r <- ok_of d;
          do lc_b <- p_leading_coeff b;
          do gamma <- (if 1 <? diff_deg then
                         ok_of (div (nat_pow (rneg lc_b) (N.of_nat diff_deg)) (nat_pow gamma (N.of_nat (diff_deg - 1))))
                       else Some (rneg lc_b));
          prs_loop fuel' b r_deg r lc_b gamma prs (ssres ++ [rneg gamma])
      end
  end.
(* l.508-577 *)
Definition pseudo_remainder_subresultant_sequence (a b : poly) : option (list poly * list T) :=
  match p_degree a, p_degree b with
  | None, None => Some ([], [])
  | None, Some _ => Some ([b], [r1])
  | Some _, None => Some ([a], [r1])
  | Some a_deg, Some b_deg =>
      let '(a, b, a_deg, b_deg) := if a_deg <? b_deg then (b, a, b_deg, a_deg) else (a, b, a_deg, b_deg) in
      assert! b_deg <=? a_deg;
      let diff_deg := a_deg - b_deg in
      let beta := nat_pow (rneg r1) (N.of_nat (diff_deg + 1)) in
      do pr <- pseudorem_unwrap a b;
      let r := p_mul_scalar pr beta in
      do lc_b <- p_leading_coeff b;
      let gamma := nat_pow lc_b (N.of_nat diff_deg) in
      prs_loop (b_deg + 1) b b_deg r lc_b (rneg gamma) [a; b] [r1; gamma]
  end.
(* v.pop().unwrap() *)
Definition last_unwrap {A} (l : list A) : option A := match rev l with x :: _ => Some x | [] => None end.
(* l.579-588 *)
Definition subresultant_gcd (a b : poly) : option poly :=
  do s <- pseudo_remainder_subresultant_sequence a b; last_unwrap (fst s).
(* l.590-601 *)
Definition resultant (a b : poly) : option T :=
  if p_is_zero a || p_is_zero b then Some r0
  else
    do s <- pseudo_remainder_subresultant_sequence a b;
    do l <- last_unwrap (fst s);
    do d <- p_degree l;
    if 0 <? d then Some r0 else last_unwrap (snd s).
(* l.603-606 *)
Definition is_squarefree (p : poly) : option bool :=
  do g <- subresultant_gcd p (p_derivative p); do d <- p_degree g; Some (d =? 0).
(* l.608-629; inner None = Err *)
Definition discriminant (p : poly) : option (option T) :=
  match p_degree p with
  | Some n =>
      if n =? 0 then Some None
      else
        let an := p_coeff p n in
        do res <- resultant p (p_derivative p);
        do disc <- ok_of (div res an);
        Some (Some (if n mod 4 <? 2 then disc else rneg disc))
  | None => Some None
  end.

(* l.764-846 *)
Definition p_const (x : T) : poly := [x].
Definition fst_at (pts : list (T * T)) (i : nat) : T := fst (nth i pts (r0, r0)).
Definition snd_at (pts : list (T * T)) (i : nat) : T := snd (nth i pts (r0, r0)).
Definition lagrange_term (pts : list (T * T)) (i : nat) : poly :=
  let n := length pts in
  let term := p_const (snd_at pts i) in
  let term := fold_left (fun t j => p_mul t [rneg (fst_at pts j); r1]) (range (i + 1) n) term in
  let term := fold_left (fun t j => p_mul t [fst_at pts j; rneg r1]) (range 0 i) term in
  fold_left (fun t j => fold_left (fun t k =>
      if negb (i =? j) && negb (i =? k) then p_mul t (p_const (radd (rneg (fst_at pts k)) (fst_at pts j))) else t)
    (range (j + 1) n) t) (range 0 n) term.
Definition lagrange_numerator (pts : list (T * T)) : poly :=
  fold_left (fun num i => p_add num (lagrange_term pts i)) (range 0 (length pts)) p_zero.
Definition lagrange_denominator (pts : list (T * T)) : poly :=
  fold_left (fun d i => fold_left (fun d j => p_mul d (p_const (radd (rneg (fst_at pts j)) (fst_at pts i))))
    (range (i + 1) (length pts)) d) (range 0 (length pts)) p_one.
(* outer None = panic, inner the Rust option *)
Definition interpolate_by_lagrange_basis (pts : list (T * T)) : option (option poly) :=
  do d <- p_div (lagrange_numerator pts) (lagrange_denominator pts);
  match d with
  | DivOk p => Some (Some p)
  | NotDivisible => Some None
  | DivideByZero => None
  end.

(* ------------------------------------------------------------------ gcd domains *)
Section Gcd.
Variable gcd : T -> T -> T.
(* l.641-653; outer None = panic, inner the Rust option *)
Definition factor_primitive (p : poly) : option (option (T * poly)) :=
  if p_is_zero p then Some None
  else
    let g := gcd_list gcd p in
    do q <- mapM (fun c => ok_of (div c g)) p;
    Some (Some (g, q)).
(* l.655-660 *)
Definition is_primitive (p : poly) : option bool :=
  do f <- factor_primitive p; Some (match f with Some (u, _) => is_unit div u | None => false end).
(* l.662-667 *)
Definition primitive_part (p : poly) : option (option poly) :=
  do f <- factor_primitive p; Some (match f with Some (_, q) => Some q | None => None end).
(* factor_primitive(p).unwrap() *)
Definition factor_primitive_unwrap (p : poly) : option (T * poly) := do f <- factor_primitive p; f.
(* l.669-691 *)
Definition gcd_by_primitive_subresultant (a b : poly) : option poly :=
  if p_is_zero a then Some b
  else if p_is_zero b then Some a
  else
    do fa <- factor_primitive_unwrap a;
    do fb <- factor_primitive_unwrap b;
    let g_unit := gcd (fst fa) (fst fb) in
    do sg <- subresultant_gcd (snd fa) (snd fb);
    do g_prim <- factor_primitive_unwrap sg;
    let g := p_mul [g_unit] (snd g_prim) in
    do pp <- primitive_part g; pp.
(* l.706-718 *)
Definition primitive_squarefree_part (f : poly) : option poly :=
  if p_is_zero f then Some f
  else
    do g <- subresultant_gcd f (p_derivative f);
    do gp <- factor_primitive_unwrap g;
    do fp <- factor_primitive_unwrap f;
    do d <- p_div (snd fp) (snd gp); ok_of d.
End Gcd.

(* ------------------------------------------------------------------ favourite associates *)
Section Ffa.
Variable ffa : ffa_op R.
(* l.721-741; None = panic *)
Definition p_factor_fav_assoc (a : poly) : option (poly * poly) :=
  if p_is_zero a then Some (p_one, p_zero)
  else
    let u := fst (ffa (nth (p_num_coeffs a - 1) a r0)) in
    do a' <- mapM (fun c => ok_of (div c u)) a;
    Some ([u], a').
End Ffa.

(* ------------------------------------------------------------------ fields *)
(* l.763-766; Rust option *)
Definition p_norm (a : poly) : option N := match p_degree a with Some n => Some (N.of_nat n) | None => None end.
(* l.768-774; outer None = panic *)
Definition p_quorem (a b : poly) : option (option (poly * poly)) :=
  do r <- try_quorem a b;
  match r with
  | DivOk qr => Some (Some qr)
  | NotDivisible => None
  | DivideByZero => Some None
  end.
End Div.
End Poly.
Arguments psres : clear implicits.
Arguments poly_ops : clear implicits.

(* l.263-266: p(q), by evaluating p with constant polynomials as coefficients in the polynomial ring over the polynomial ring *)
Definition p_compose {R : ring_ops} (p q : list (T R)) : list (T R) :=
  @p_evaluate (poly_ops R) (map (fun c => [c]) p) q.
