(* Model of rings/src/number/finite_fields/polynomial.rs l.29-605: monic, squarefree, Berlekamp, distinct degree and
   Cantor-Zassenhaus factorisation over a finite field, and of rings/src/polynomial/quotient.rs l.46-66.
   Conventions as in PolyModel / FacModel: option None = panic (failed unwrap, assertion or debug assertion) or out of fuel.
   The conversions between the factored types (into_monic_factored, into_squarefree_factored, into_distinct_degree_factored, l.128-198) are at the end. *)
From Coq Require Import List Arith NArith Bool.
From Verif Require Import RingSpec RingModel FactoredModel PermModel MatModel LatModel PolyModel FacModel.
Import ListNotations.
Close Scope rs_scope.
Open Scope nat_scope.

Section Ff.
Context {R : ring_ops}.
Notation T := (T R).
Notation poly := (list (RingSpec.T R)).
Notation P := (poly_ops R).
(* the field's methods: div, factor_fav_assoc, gcd, xgcd, characteristic_and_power, all_elements *)
Variables (div : div_op R) (ffa : ffa_op R) (gcd : T -> T -> T) (xgcd : T -> T -> T * T * T).
Variables (pchar pexp : N) (all_elements : list T).

(* QuotientRemainder / gcd of the polynomial ring over a field: polynomial.rs l.768-774, structure/structure.rs euclidean gcd;
   the fuel bounds the number of remainders *)
Definition pquoremr (a b : poly) : option (poly * poly) := match p_quorem div a b with Some r => r | None => None end.
Definition pgcd (a b : poly) : option poly := euclidean_gcd (R := P) (pffar div ffa) pquoremr (length b + 2) a b.

(* l.33-57 (the ring handle is the section parameter) *)
Record monic_factored := MonicFactored { m_unit : T; m_monic : poly }.
Record sqfree_factored := SqfreeFactored { s_unit : T; s_factors : list (poly * N) }.
Record ddf := Ddf { dd_degree : nat; dd_poly : poly }.
Record dd_factored := DdFactored { d_unit : T; d_factors : list (ddf * N) }.

(* l.58-69: MonicFactored::factor *)
Definition monic_factor (f : poly) : option monic_factored :=
  do ua <- p_factor_fav_assoc div ffa f;
  do u <- p_as_constant (fst ua);
  assert! p_is_monic (snd ua);
  Some (MonicFactored u (snd ua)).
(* l.71-83 *)
Definition new_monic_unchecked (f : poly) : option monic_factored := assert! p_is_monic f; Some (MonicFactored r1 f).
(* l.85-88 *)
Definition into_polynomial (m : monic_factored) : poly := p_mul [m_unit m] (m_monic m).
(* l.203-215: factorize_monic; inner None is the Rust None *)
Definition factorize_monic (f : poly) : option (option monic_factored) :=
  if p_is_zero f then Some None
  else
    do ua <- p_factor_fav_assoc div ffa f;
    do u <- p_as_constant (fst ua);
    Some (Some (MonicFactored u (snd ua))).
(* factorize_monic(f).unwrap().monic *)
Definition monic_unwrap (f : poly) : option poly := do o <- factorize_monic f; do m <- o; Some (m_monic m).

(* l.92-99 *)
Definition unit_unchecked (u : T) : option sqfree_factored := assert! is_unit div u; Some (SqfreeFactored u []).
(* l.101-120 *)
Definition new_squarefree_poly_unchecked (f : poly) : option sqfree_factored :=
  assert! negb (p_is_zero f);
  do deg <- p_degree f;
  if deg =? 0 then do u <- p_as_constant f; Some (SqfreeFactored u [])
  else Some (SqfreeFactored r1 [(f, 1%N)]).
(* l.122-127 *)
Definition s_pow (s : sqfree_factored) (power : N) : sqfree_factored :=
  SqfreeFactored (s_unit s) (map (fun fk => (fst fk, (snd fk * power)%N)) (s_factors s)).
(* l.143-156: the first equal factor absorbs the power *)
Fixpoint s_add (fs : list (poly * N)) (f : poly) (power : N) : list (poly * N) :=
  match fs with
  | [] => [(f, power)]
  | (g, k) :: fs' => if p_equal f g then (g, (k + power)%N) :: fs' else (g, k) :: s_add fs' f power
  end.
Definition s_mul (a b : sqfree_factored) : sqfree_factored :=
  SqfreeFactored (rmul (s_unit a) (s_unit b)) (fold_left (fun fs fk => s_add fs (fst fk) (snd fk)) (s_factors b) (s_factors a)).

(* ------------------------------------------------------------------ l.234-286 *)
(* l.246-261 *)
Fixpoint sqf_loop (fuel : nat) (i : N) (w c : poly) (factors : sqfree_factored) : option (poly * sqfree_factored) :=
  if p_equal w [r1] then Some (c, factors)
  else
    match fuel with
    | O => None
    | S fuel' =>
        do y <- pgcd w c;
        do z <- div_unwrap div w y;
        do s <- new_squarefree_poly_unchecked z;
        do c' <- div_unwrap div c y;
        sqf_loop fuel' (i + 1) y c' (s_mul factors (s_pow s i))
    end.
(* l.267-275: every p-th coefficient; the coefficients themselves are left alone *)
Fixpoint pth_root_coeffs (k : nat) (cs : poly) : option poly :=
  match cs with
  | [] => Some []
  | x :: cs' =>
      if N.eqb (N.modulo (N.of_nat k) pchar) 0 then do r <- pth_root_coeffs (k + 1) cs'; Some (x :: r)
      else assert! is_zero x; pth_root_coeffs (k + 1) cs'
  end.
(* l.234-286; c.coeffs() is the stored coefficient vector *)
Fixpoint factorize_squarefree (fuel : nat) (m : monic_factored) : option sqfree_factored :=
  match fuel with
  | O => None
  | S fuel' =>
      do factors <- unit_unchecked (m_unit m);
      do c <- pgcd (m_monic m) (p_derivative (m_monic m));
      do w <- div_unwrap div (m_monic m) c;
      do cf <- sqf_loop (length (m_monic m)) 1 w c factors;
      let '(c, factors) := cf in
      if p_equal c [r1] then Some factors
      else
        do cs <- pth_root_coeffs 0 c;
        do m' <- new_monic_unchecked cs;
        do s <- factorize_squarefree fuel' m';
        Some (s_mul factors (s_pow s pchar))
  end.
Definition factorize_squarefree_top (m : monic_factored) : option sqfree_factored := factorize_squarefree (length (m_monic m) + 1) m.

(* ------------------------------------------------------------------ l.293-352 *)
Definition p_sum (l : list poly) : poly := fold_left (fun s x => p_add s x) l p_zero.
(* l.325-350 *)
Fixpoint berlekamp_try (f : poly) (f_deg ker_rank : nat) (basis : list poly) (cands : list (list T)) : option (find_factor_result (R := P)) :=
  match cands with
  | [] => Some FFIrreducible
  | cs :: cands' =>
      do hs <- mapM (fun i => do c <- nth_error cs i; do b <- nth_error basis i; Some (p_mul [c] b)) (range 0 ker_rank);
      let h := p_sum hs in
      do g <- pgcd h f;
      do g_deg <- p_degree g;
      if negb (g_deg =? 0) && negb (g_deg =? f_deg) then
        do g' <- div_unwrap div f g;
        Some (FFComposite (R := P) g g')
      else berlekamp_try f f_deg ker_rank basis cands'
  end.
Definition find_factor_by_berlekamps_algorithm (f : poly) : option (find_factor_result (R := P)) :=
  do sq <- is_squarefree div f;
  assert! sq;
  do f_deg <- p_degree f;
  let q := length all_elements in
  do row_polys <- mapM (fun i => do qr <- pquoremr (p_add (p_var_pow (i * q)) (p_neg (p_var_pow i))) f; Some (snd qr)) (range 0 f_deg);
  do mat <- construct f_deg f_deg (fun i j => do row <- nth_error row_polys i; Some (p_coeff row j));
  do ker <- row_kernel div ffa xgcd mat;
  let ker_rank := lrank ker in
  do ms <- basis_matrices ker;
  do ker_basis <- mapM (fun m => mapM (fun c => get m 0 c) (range 0 f_deg)) ms;
  berlekamp_try f f_deg ker_rank ker_basis (cartesian (repeat all_elements ker_rank)).
(* l.359-375 *)
Definition factorize_berlekamps (s : sqfree_factored) : option (factored P) :=
  fold_left (fun acc fk =>
    do factors <- acc;
    do r <- factorize_by_find_factor (R := P) (pdivr div) (pffar div ffa) (length (fst fk) + 1) find_factor_by_berlekamps_algorithm (fst fk);
    Some (f_mul (R := P) (pdivr div) factors (f_pow (R := P) r (snd fk)))) (s_factors s) (Some (Factored (R := P) [s_unit s] [])).

(* ------------------------------------------------------------------ polynomial/quotient.rs *)
Section Quot.
Variable modulus : poly.
(* the quotient ring F[x]/(modulus) *)
Definition mod_ops : ring_ops := quotient_ops (R := P) pquoremr modulus.
Definition mod_reduce (a : poly) : poly := q_rem (R := P) pquoremr modulus a.
(* l.48-53 *)
Definition to_col_vector (a : poly) : option (matrix T) :=
  do n <- p_degree modulus;
  construct n 1 (fun r _ => Some (p_coeff (mod_reduce a) r)).
(* l.58-66 *)
Definition from_col_vector (v : matrix T) : option poly :=
  do n <- p_degree modulus;
  assert! cols v =? 1;
  assert! rows v =? n;
  mapM (fun i => get v i 0) (range 0 n).
End Quot.

(* ------------------------------------------------------------------ l.380-505 *)
Definition q_of : N := N.pow pchar pexp.
(* l.421-475: one g; the debug block (l.443-465) recomputes it from x^(q^i) directly *)
Definition dd_gcd (f : poly) (xq : poly) : option poly :=
  do g <- gcd_by_primitive_subresultant div gcd f (p_add xq (p_neg p_var));
  monic_unwrap g.
Fixpoint dd_loop (fuel : nat) (modulus : poly) (qmat : matrix T) (i : nat) (xqi f : poly) (mult : N) (acc : list (ddf * N)) : option (poly * list (ddf * N)) :=
  do df <- p_degree f;
  if 2 * i <=? df then
    match fuel with
    | O => None
    | S fuel' =>
        assert! p_is_monic f;
        do g <- dd_gcd f xqi;
        assert! p_is_monic g;
        let xnaive := p_var_pow (N.to_nat (N.pow q_of (N.of_nat i))) in
        assert! @req (mod_ops modulus) xqi xnaive;
        do g_naive <- dd_gcd f xnaive;
        assert! p_is_monic g_naive;
        assert! p_equal g g_naive;
        do st <- (if negb (p_equal g [r1]) then
                    do f' <- div_unwrap div f g; Some (f', acc ++ [(Ddf i g, mult)])
                  else Some (f, acc));
        do v <- to_col_vector modulus xqi;
        do v' <- unwrap (MatModel.mul qmat v);
        do xqi' <- from_col_vector modulus v';
        dd_loop fuel' modulus qmat (i + 1) xqi' (fst st) mult (snd st)
    end
  else Some (f, acc).
Definition dd_one (fk : poly * N) (acc : list (ddf * N)) : option (list (ddf * N)) :=
  let '(f0, mult) := fk in
  do n <- p_degree f0;
  assert! 1 <=? n;
  let xq := nat_pow (R := mod_ops f0) p_var q_of in
  do colsq <- mapM (fun c => to_col_vector f0 (nat_pow (R := mod_ops f0) (p_var_pow c) q_of)) (range 0 n);
  do qmat <- join_cols n colsq;
  do r <- dd_loop n f0 qmat 1 xq f0 mult acc;
  let '(f, acc) := r in
  if negb (p_equal f [r1]) then do d <- p_degree f; Some (acc ++ [(Ddf d f, mult)]) else Some acc.
Definition factorize_distinct_degree (s : sqfree_factored) : option dd_factored :=
  do fs <- fold_left (fun acc fk => do a <- acc; dd_one fk a) (s_factors s) (Some []);
  Some (DdFactored (s_unit s) fs).

(* ------------------------------------------------------------------ l.507-605 *)
(* generate_random_elements(0): the pseudorandom stream is an arbitrary function of the position *)
Variable rnd : nat -> T.
(* l.566-577 *)
Fixpoint char2_loop (n : nat) (sq sum : poly) : poly :=
  match n with
  | O => sum
  | S n' => char2_loop n' (p_mul sq sq) (p_add sum sq)
  end.
(* l.563-590 *)
Definition cz_g (modulus h : poly) (d : nat) : poly :=
  if N.eqb pchar 2 then char2_loop (N.to_nat (pexp * N.of_nat d)) h p_zero
  else
    let a := N.div (N.pow q_of (N.of_nat d) - 1) 2 in
    @radd (mod_ops modulus) (nat_pow (R := mod_ops modulus) h a) (@rneg (mod_ops modulus) (@r1 (mod_ops modulus))).
(* l.591-602 *)
Definition cz_split (g u : poly) : option (list poly) :=
  do sg <- subresultant_gcd div u g;
  do gc <- monic_unwrap sg;
  do gd <- p_degree gc;
  do ud <- p_degree u;
  if (gd =? 0) || (gd =? ud) then Some [u]
  else do v <- div_unwrap div u gc; Some [v; gc].
(* l.542-554 *)
Fixpoint cz_filter (d : nat) (mult : N) (l : list poly) (fs : factored P) : option (list poly * factored P) :=
  match l with
  | [] => Some ([], fs)
  | f :: l' =>
      do df <- p_degree f;
      if df =? d then cz_filter d mult l' (f_mul (R := P) (pdivr div) fs (f_pow (R := P) (factored_irreducible_unchecked (R := P) (pffar div ffa) f) mult))
      else do r <- cz_filter d mult l' fs; Some (f :: fst r, snd r)
  end.
(* l.532-603; the loop has no bound of its own: the fuel counts its rounds, None is a panic and Some None a loop still running
   after that many rounds *)
Fixpoint cz_loop (fuel : nat) (modulus : poly) (n d : nat) (mult : N) (pos : nat) (to_factor : list poly) (fs : factored P) : option (option (factored P)) :=
  match fuel with
  | O => Some None
  | S fuel' =>
      do r <- cz_filter d mult to_factor fs;
      match fst r with
      | [] => Some (Some (snd r))
      | _ =>
          let h := map (fun i => rnd (pos + i)) (seq 0 n) in
          let g := cz_g modulus h d in
          do ls <- mapM (cz_split g) (fst r);
          cz_loop fuel' modulus n d mult (pos + n) (concat ls) (snd r)
      end
  end.
Definition cz_one (fuel : nat) (x : ddf * N) (fs : factored P) : option (option (factored P)) :=
  let d := dd_degree (fst x) in
  do n <- p_degree (dd_poly (fst x));
  assert! negb (d =? 0);                 (* l.524: n % d panics for d = 0 *)
  assert! n mod d =? 0;
  cz_loop fuel (dd_poly (fst x)) n d (snd x) 0 [dd_poly (fst x)] fs.
Definition factorize_cantor_zassenhaus (fuel : nat) (s : dd_factored) : option (option (factored P)) :=
  fold_left (fun acc x => do o <- acc; match o with Some fs => cz_one fuel x fs | None => Some None end) (d_factors s)
    (Some (Some (factored_unit_unchecked (R := P) [d_unit s]))).

(* ------------------------------------------------------------------ l.128-198 *)
(* l.129-141; RingStructure::product multiplies from one, left to right *)
Definition into_monic_factored (s : sqfree_factored) : monic_factored :=
  MonicFactored (s_unit s) (fold_left (fun acc fk => p_mul acc (nat_pow (R := P) (fst fk) (snd fk))) (s_factors s) [r1]).
(* l.159-171 *)
Definition into_squarefree_factored (s : dd_factored) : sqfree_factored :=
  SqfreeFactored (d_unit s) (map (fun x => (dd_poly (fst x), snd x)) (d_factors s)).
(* l.173-198 *)
Definition into_distinct_degree_factored (s : factored P) : option dd_factored :=
  do u <- p_as_constant (f_unit s);
  do fs <- mapM (fun fk => do d <- p_degree (fst fk); Some (Ddf d (fst fk), snd fk)) (f_factors s);
  Some (DdFactored u fs).
End Ff.
Arguments monic_factored : clear implicits.
Arguments sqfree_factored : clear implicits.
Arguments ddf : clear implicits.
Arguments dd_factored : clear implicits.
