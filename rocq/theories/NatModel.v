(* Model of rings/src/number/natural/{functions,primes,factor}.rs, except AKS (AksModel).  Natural = N.
   None = panic or out of fuel; where the bound on the iterations is obvious it is given inside, otherwise it is the parameter `fuel`. *)
From Coq Require Import NArith ZArith List Bool.
From Verif Require Import RingSpec RingModel.
Import ListNotations.
Local Open Scope N_scope.

Definition obind {A B} (x : option A) (f : A -> option B) : option B := match x with Some a => f a | None => None end.
Notation "'do' x <- a ; b" := (obind a (fun x => b)) (at level 60, x pattern, right associativity).

(* ---------- functions.rs *)
(* l.7-15 *)
Fixpoint factorial_loop (fuel : nat) (n k i : N) : option N :=
  match fuel with O => None | S f => if i <=? n then factorial_loop f n (k * i) (i + 1) else Some k end.
Definition factorial (n : N) : option N := factorial_loop (S (N.to_nat n)) n 1 1.
(* l.24-31: one row of Pascal's triangle from the previous one *)
Fixpoint pascal_mid (vals : list N) : list N := match vals with x :: ((y :: _) as t) => (x + y) :: pascal_mid t | _ => [] end.
Definition pascal_next (vals : list N) : list N := 1 :: pascal_mid vals ++ [1].
Fixpoint pascal_row (a : nat) (vals : list N) : list N := match a with O => vals | S a' => pascal_row a' (pascal_next vals) end.
(* l.17-35 *)
Definition choose_usize (a b : nat) : option N := if Nat.ltb a b then Some 0 else nth_error (pascal_row a [1]) b.
(* l.41-46 *)
Fixpoint choose_loop (fuel : nat) (a t m : N) : option N :=
  match fuel with O => None | S f => if m <? a then choose_loop f a (t * (m + 1)) (m + 1) else Some t end.
(* l.37-48 *)
Definition choose (a b : N) : option N :=
  if a <? b then Some 0 else do t <- choose_loop (S (N.to_nat b)) a 1 (a - b); do f <- factorial b; if f =? 0 then None else Some (t / f).
(* l.56-79 *)
Fixpoint sq_list (extra : nat) (last : N) : list N := last :: match extra with O => [] | S e => sq_list e (last * last) end.
Fixpoint pow_mul (bs : list bool) (pows : list N) (ans : N) : N :=
  match bs, pows with b :: bs', p :: ps => pow_mul bs' ps (if b then ans * p else ans) | _, _ => ans end.
Definition pow (x n : N) : N :=
  if n =? 0 then 1 else if n =? 1 then x else pow_mul (bits n) (sq_list (length (bits n) - 1) x) 1.
(* l.82-103; the interval [a,b] at least halves, down to length 1 *)
Fixpoint root_loop (fuel : nat) (x n a b : N) : option N :=
  match fuel with
  | O => None
  | S f => if a + 1 <? b then let m := (a + b) / 2 in if pow m n <=? x then root_loop f x n m b else root_loop f x n a m else Some a
  end.
Definition nth_root_floor (x n : N) : option N :=
  if n =? 0 then None else if n =? 1 then Some x else if x =? 0 then Some 0 else root_loop (N.size_nat x + 1) x n 1 x.
(* l.105-107 *)
Definition sqrt_floor (x : N) : option N := nth_root_floor x 2.
(* l.110-116 *)
Definition nth_root_ceil (x n : N) : option N := do a <- nth_root_floor x n; Some (if negb (pow a n =? x) then a + 1 else a).
(* l.119-121 *)
Definition sqrt_ceil (x : N) : option N := nth_root_ceil x 2.
(* l.124-127 *)
Definition bitcount (n : N) : nat := length (bits n).
(* l.165-172 *)
Fixpoint gcd_loop (fuel : nat) (x y : N) : option N :=
  match fuel with O => None | S f => if negb (y =? 0) then gcd_loop f y (x mod y) else Some x end.
Definition gcd (x y : N) : option N := gcd_loop (2 * N.size_nat y + 3) x y.

(* ---------- primes.rs *)
(* l.14-27 *)
Record prime_gen := mkPG { pg_n : N; pg_primes : list N }.
Definition pg_new : prime_gen := mkPG 2 [].
(* l.29-47 *)
Fixpoint pg_next (fuel : nat) (g : prime_gen) : option (N * prime_gen) :=
  match fuel with
  | O => None
  | S f => if existsb (fun p => pg_n g mod p =? 0) (pg_primes g)
           then pg_next f (mkPG (pg_n g + 1) (pg_primes g))
           else Some (pg_n g, mkPG (pg_n g + 1) (pg_primes g ++ [pg_n g]))
  end.
(* the first i items *)
Fixpoint pg_take (fuel i : nat) (g : prime_gen) : option (list N) :=
  match i with O => Some [] | S i' => do (p, g') <- pg_next fuel g; do l <- pg_take fuel i' g'; Some (p :: l) end.

Inductive ptest := PZero | POne | PPrime | PComposite.
(* l.69-84 *)
Fixpoint td_loop (fuel : nat) (n d : N) : option ptest :=
  match fuel with O => None | S f => if d * d <=? n then if n mod d =? 0 then Some PComposite else td_loop f n (d + 1) else Some PPrime end.
Definition try_divisors (n : N) : option ptest :=
  if n =? 0 then Some PZero else if n =? 1 then Some POne else td_loop (N.to_nat (N.sqrt n) + 2) n 2.

(* functions.rs l.129-163 *)
Inductive power_test := PwZero | PwOne | PwPower (a k : N) | PwNo.
Fixpoint power_loop (fuel : nat) (steps : nat) (n max_k : N) (g : prime_gen) : option power_test :=
  match steps with
  | O => None
  | S s =>
      do (k, g') <- pg_next fuel g;
      if max_k <? k then Some PwNo
      else do a <- nth_root_floor n k; if n =? pow a k then Some (PwPower a k) else power_loop fuel s n max_k g'
  end.
Definition is_power_test (fuel : nat) (n : N) : option power_test :=
  if n =? 0 then Some PwZero else if n =? 1 then Some PwOne
  else power_loop fuel fuel n (N.of_nat (bitcount n + 1)) pg_new.

(* primes.rs l.87-146; inl = Ok(result), inr tt = Err(ProbablePrime), whose probability field is (1/4)^len *)
(* l.109-119 *)
Fixpoint split2 (fuel : nat) (s : nat) (d : N) : option (nat * N) :=
  match fuel with O => None | S f => if d mod 2 =? 0 then split2 f (S s) (d / 2) else Some (s, d) end.
Notation mod_ring n := (@quotient_ops Z_ops Z_quorem (Z.of_N n)).
(* l.125-131; Some x = the value of x after the loop, None = `return Composite` *)
Fixpoint mr_squares (n : N) (s : nat) (x : Z) : option Z :=
  match s with
  | O => Some x
  | S s' => let y := @rmul (mod_ring n) x x in
            if ((y =? 1) && negb (x =? 1) && negb (x =? Z.of_N n - 1))%Z then None else mr_squares n s' y
  end.
(* l.123-136 *)
Fixpoint mr_bases (n : N) (s : nat) (d : N) (bases : list N) : ptest + unit :=
  match bases with
  | [] => inr tt
  | a :: bases' => match mr_squares n s (@nat_pow (mod_ring n) (Z.of_N a) d) with
                   | None => inl PComposite
                   | Some x => if negb (x =? 1)%Z then inl PComposite else mr_bases n s d bases'
                   end
  end.
(* the debug assertions on the bases (l.103-106) are not modelled: see the hypothesis of C10 *)
Definition miller_rabin (n : N) (bases : list N) : option (ptest + unit) :=
  if n =? 0 then Some (inl PZero) else if n =? 1 then Some (inl POne) else if n =? 2 then Some (inl PPrime)
  else if n mod 2 =? 0 then Some (inl PComposite)
  else do (s, d) <- split2 (N.size_nat n) 0 (n - 1); Some (mr_bases n s d bases).

(* l.473-519, with the AKS test as a parameter *)
Fixpoint small_div_loop (fuel : nat) (n d limit : N) : option bool :=
  match fuel with O => None | S f => if d <? limit then if n mod d =? 0 then Some true else small_div_loop f n (d + 1) limit else Some false end.
Definition mr_limit : N := 3317044064679887385961981.
Definition mr_fixed_bases : list N := [2; 3; 5; 7; 11; 13; 17; 19; 23; 29; 31; 37; 41].
Definition primality_test (aks : N -> option ptest) (n : N) : option ptest :=
  if n <=? 1000 then try_divisors n
  else do b <- small_div_loop 1000 n 2 1000;
       if b : bool then Some PComposite
       else if n <? mr_limit
            then do r <- miller_rabin n mr_fixed_bases; Some (match r with inl t => t | inr _ => PPrime end)
            else aks n.
(* l.521-528 *)
Definition is_prime (aks : N -> option ptest) (n : N) : option bool :=
  do t <- primality_test aks n; Some (match t with PPrime => true | _ => false end).

(* ---------- factor.rs.  HashMap<Natural, Natural> = association list with distinct keys, in insertion order; nothing that is proved
   depends on the order (the theorems allow any permutation). *)
Definition fmap := list (N * N).
(* l.30-32 *)
Fixpoint mul_prime (m : fmap) (p : N) : fmap :=
  match m with [] => [(p, 0 + 1)] | (q, k) :: m' => if q =? p then (q, k + 1) :: m' else (q, k) :: mul_prime m' p end.
(* l.46-52 *)
Definition expand (m : fmap) : N := fold_left (fun t pk => t * pow (fst pk) (snd pk)) m 1.
(* l.54-60; p - 1 and k - 1 cannot underflow since p is prime and k > 0 *)
Definition euler_totient (m : fmap) : N := fold_left (fun t pk => t * ((fst pk - 1) * pow (fst pk) (snd pk - 1))) m 1.
(* malachite's mod_pow (trusted): x^e mod n *)
Fixpoint powmod_pos (x : N) (e : positive) (n : N) : N :=
  match e with
  | xH => x mod n
  | xO e' => let y := powmod_pos x e' n in (y * y) mod n
  | xI e' => let y := powmod_pos x e' n in (y * y mod n * x) mod n
  end.
Definition powmod (x e n : N) : N := match e with N0 => 1 mod n | Npos p => powmod_pos x p n end.
(* l.71-98, given the prime factors of phi *)
Inductive root_result := NonUnit | RNo | RYes.
Definition is_primitive_root (fac : N -> option (option fmap)) (m : fmap) (x : N) : option root_result :=
  let n := expand m in
  do g <- gcd x n;
  if negb (g =? 1) then Some NonUnit
  else let phi := euler_totient m in
       do f <- fac phi;
       match f with
       | None => None
       | Some l => Some (if existsb (fun pk => powmod (x mod n) (phi / fst pk) n =? 1) l then RNo else RYes)
       end.

(* l.100-104 *)
Record factorizer := mkF { f_primes : fmap; f_todo : list N }.   (* f_todo: top of the stack first *)
(* l.114-128 *)
Fixpoint td_inner (fuel : nat) (m : fmap) (n d : N) : option (fmap * N) :=
  match fuel with O => None | S f => if n mod d =? 0 then td_inner f (mul_prime m d) (n / d) d else Some (m, n) end.
Fixpoint td_outer (fuel : nat) (m : fmap) (n d max_d : N) : option (fmap * N) :=
  match fuel with
  | O => None
  | S f => if (d * d <=? n) && (d <=? max_d)
           then do (m', n') <- td_inner (N.size_nat n + 1) m n d; td_outer f m' n' (d + 1) max_d
           else Some (m, n)
  end.
Definition new_with_trial_division (n max_d : N) : option factorizer :=
  do (m, n') <- td_outer (S (N.to_nat max_d)) [] n 2 max_d; Some (mkF m [n']).
(* l.131-146 *)
Fixpoint next_to_factor (todo : list N) : option N * list N :=
  match todo with [] => (None, []) | n :: t => if n =? 1 then next_to_factor t else (Some n, todo) end.
(* l.148-155; None = pop on an empty stack *)
Definition found_factor (f : factorizer) (d : N) : option factorizer :=
  match f_todo f with [] => None | n :: t => Some (mkF (f_primes f) (d :: n / d :: t)) end.
(* l.157-165 *)
Definition found_prime_factor (f : factorizer) (p : N) : option factorizer :=
  match f_todo f with [] => None | n :: t => Some (mkF (mul_prime (f_primes f) p) (if negb (p =? n) then n / p :: t else t)) end.
(* l.187-196: the smallest divisor d >= 2 with d*d <= n, or n itself *)
Fixpoint small_factor (fuel : nat) (n d : N) : option N :=
  match fuel with O => None | S f => if d * d <=? n then if n mod d =? 0 then Some d else small_factor f n (d + 1) else Some n end.
(* l.211-226 Pollard rho.  g1 = x^2+1 and g2 = g1 o g1 are polynomials over Natural; `evaluate` and `compose` are the subject of C23,
   here their values are written out. *)
Definition g1 (x : N) : N := x * x + 1.
Fixpoint rho_inner (fuel : nat) (n x y : N) : option N :=
  match fuel with
  | O => None
  | S f => let x' := g1 x mod n in let y' := g1 (g1 y) mod n in
           do d <- gcd (N.max x' y' - N.min x' y') n;
           if 1 <? d then Some d else rho_inner f n x' y'
  end.
Fixpoint rho_outer (fuel : nat) (steps : nat) (n x : N) : option N :=
  match steps with
  | O => None
  | S s => do d <- rho_inner fuel n x x; if d =? n then rho_outer fuel s n (x + 1) else Some d
  end.
(* l.173-232 *)
Fixpoint factor_main (prime_test : N -> option bool) (fuel : nat) (steps : nat) (f : factorizer) : option fmap :=
  match steps with
  | O => None
  | S s =>
      match next_to_factor (f_todo f) with
      | (None, _) => Some (f_primes f)
      | (Some n, todo) =>
          let f1 := mkF (f_primes f) todo in
          if n <? 1000000 then
            do d <- small_factor (N.to_nat (N.sqrt n) + 2) n 2;
            do f2 <- found_prime_factor f1 d; factor_main prime_test fuel s f2
          else do b <- prime_test n;
               if b : bool then do f2 <- found_prime_factor f1 n; factor_main prime_test fuel s f2
               else do d <- rho_outer fuel fuel n 2; do f2 <- found_factor f1 d; factor_main prime_test fuel s f2
      end
  end.
(* outer option: None = panic / out of fuel; inner: the Rust Option *)
Definition factor (prime_test : N -> option bool) (fuel : nat) (n : N) : option (option fmap) :=
  if n =? 0 then Some None
  else do f <- new_with_trial_division n 10000; do m <- factor_main prime_test fuel fuel f; Some (Some m).
