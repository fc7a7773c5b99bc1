(* Model of the naive Berlekamp-Zassenhaus algorithm, rings/src/number/integer/berlekamp_zassenhaus.rs l.480-574.
   Conventions and parameters as in BzModel. *)
From Coq Require Import List Arith NArith ZArith QArith Bool.
From mathcomp Require Import all_ssreflect all_algebra.
From Verif Require Import RingSpec RingModel FactoredModel PermModel MatModel MatSpec ZRing MatInst PolyModel PolyProps3 FacModel HenselModel BoundModel BzModel.
From Verif Require NatModel.
Import ListNotations.
Close Scope rs_scope. Close Scope Q_scope.
Open Scope nat_scope.

(* itertools' multi_cartesian_product of n copies of [false, true]: the last place varies fastest *)
Fixpoint bool_vectors (n : nat) : list (list bool) :=
  match n with O => [[]] | S n' => map (cons false) (bool_vectors n') ++ map (cons true) (bool_vectors n') end.
(* (0..n).filter(|i| subset[*i]) *)
Definition chosen (n : nat) (subset : list bool) : list nat := List.filter (fun i => List.nth i subset false) (List.seq 0 n).
Section Naive.
Variables (is_irr : Z -> bool) (mfactor : Z -> list Z -> option (list (list Z * N))).
(* l.512-550 *)
Fixpoint nv_search (m lc : Z) (f : list Z) (f_deg : nat) (gs : list (list Z)) (subsets : list (list bool)) : option (@find_factor_result PZ) :=
  match subsets with
  | [] => Some FFIrreducible
  | subset :: subsets' =>
      do vals <- MatModel.mapM (nth_error gs) (chosen (length gs) subset);
      do o <- @primitive_part ZO Zdiv Zgcd (map (sym_lift m) (@p_mul ZO [lc] (RingModel.product (R := PZ) vals)));
      do g <- o;
      do d <- @p_degree ZO g;
      if negb (d =? 0) && negb (d =? f_deg) then
        do q <- @p_div ZO Zdiv f g;
        match q with
        | DivOk h => Some (@FFComposite PZ g h)
        | NotDivisible => nv_search m lc f f_deg gs subsets'
        | DivideByZero => None
        end
      else nv_search m lc f f_deg gs subsets'
  end.
(* l.492-554, one prime; inner None: try the next prime *)
Definition nv_at_prime (f : list Z) (f_deg : nat) (minimum : N) (p : N) : option (option (@find_factor_result PZ)) :=
  let p := Z.of_N p in
  do d <- @p_degree (ZQ p) f;
  if d =? f_deg then
    do fs <- mfactor p f;
    do o <- @into_hensel_factorization ZO Zdiv Zffa Znorm Zquorem is_irr p fs f;
    match o with
    | Some F =>
        do F <- lift_until (N.to_nat (N.log2_up minimum)) (Z.of_N minimum) (@h_dont_lift_bezout_coeffs ZO F);
        do lc <- z_lead f;
        let gs := @h_factors ZO F in
        do r <- nv_search (@h_modulus ZO F) lc f f_deg gs (bool_vectors (length gs));
        Some (Some r)
    | None => Some None
    end
  else Some None.
Fixpoint nv_loop (fuel : nat) (f : list Z) (f_deg : nat) (minimum : N) (gen : NatModel.prime_gen) : option (@find_factor_result PZ) :=
  match fuel with
  | O => None
  | S fuel' =>
      do pg <- NatModel.pg_next fuel gen;
      do o <- nv_at_prime f f_deg minimum (fst pg);
      match o with Some r => Some r | None => nv_loop fuel' f f_deg minimum (snd pg) end
  end.
(* l.480-556 *)
Definition nv_find_factor (fuel : nat) (f : list Z) : option (@find_factor_result PZ) :=
  do d <- @p_degree ZO f;
  assert! negb (d =? 0);                                                               (* debug_assert *)
  do ob <- mignotte_factor_coefficient_bound f;
  do b <- ob;
  if d =? 1 then Some FFIrreducible else nv_loop fuel f d (N.mul 2 b) NatModel.pg_new.
(* l.558-574; inner None is the Rust None *)
Definition factorize_by_berlekamp_zassenhaus_algorithm_naive (zfactor : Z -> option (factored ZO)) (fuel : nat) (f : list Z) : option (option (factored PZ)) :=
  if @p_is_zero ZO f then Some None
  else do r <- @yun ZO Zdiv Zgcd (@gcd_by_primitive_subresultant ZO Zdiv Zgcd) zfactor
                 (fun g => factorize_by_find_factor (R := PZ) zpdiv zpffa (length g + 1) (nv_find_factor fuel) g) f; Some (Some r).
End Naive.
