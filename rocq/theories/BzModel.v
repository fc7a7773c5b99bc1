(* Model of rings/src/number/integer/berlekamp_zassenhaus.rs.
   Conventions: option None = panic (or out of fuel); usize is a 64-bit machine integer where the code uses its wrap-around (the d-1 test,
   l.243-330) and nat elsewhere; integer polynomials are coefficient vectors; Rational = Q.
   The factoriser of polynomials over the integers modulo p (poly_mod_p.factor(..).unwrap(): number/integer/modulo.rs l.24-34, the pipeline of
   FfModel) is a parameter mfactor, which gives the factors and powers of the Factored it returns; so is the primality test behind
   Integer::is_irreducible that hensel_lifting.rs asserts. *)
From Coq Require Import List Arith NArith ZArith QArith Bool.
From mathcomp Require Import all_ssreflect all_algebra.
From Verif Require Import SetsModel RingSpec RingModel FactoredModel PermModel MatModel MatSpec ZRing MatInst PolyModel PolyProps3 FacModel HenselModel BoundModel RatModel.
From Verif Require NatModel.
Import ListNotations.
Close Scope rs_scope. Close Scope Q_scope.
Open Scope nat_scope.

Notation ZO := (mc_ops Z_comRingType).
Notation PZ := (poly_ops ZO).
Notation ZQ m := (@quotient_ops ZO Zquorem m).

(* ------------------------------------------------------------------ l.157-228: MemoryStack *)
Section MemoryStack.
Context {A : Type}.
Variables (compose : A -> A -> A) (vals : list A).
(* l.187-199: the number of places in which subset and memory agree *)
Fixpoint ms_agree (prev : list (nat * A)) (subset : list nat) : nat :=
  match prev, subset with
  | (i, _) :: prev', s :: subset' => if i =? s then S (ms_agree prev' subset') else 0
  | _, _ => 0
  end.
(* l.207-225; `last` is the last stored value, None when the memory is empty *)
Fixpoint ms_push (prev : list (nat * A)) (last : option A) (rest : list nat) : option (list (nat * A)) :=
  match rest with
  | [] => Some prev
  | s :: rest' =>
      do v <- nth_error vals s;
      let w := match last with None => v | Some a => compose a v end in
      ms_push (prev ++ [(s, w)]) (Some w) rest'
  end.
(* l.182-228: the product and the new memory *)
Definition ms_get (prev : list (nat * A)) (subset : list nat) : option (A * list (nat * A)) :=
  assert! negb (length subset =? 0);
  let i := ms_agree prev subset in
  let kept := firstn i prev in
  do prev' <- ms_push kept (match rev kept with (_, a) :: _ => Some a | [] => None end) (skipn i subset);
  do r <- nth_error prev' (length subset - 1);
  Some (snd r, prev').
End MemoryStack.

(* ------------------------------------------------------------------ l.238-333: the d-1 test *)
(* usize::MAX + 1 *)
Definition W : N := N.pow 2 64.
Definition wrapping_add (a b : N) : N := N.modulo (N.add a b) W.
(* number/natural/mod.rs l.28-45 *)
Definition nat_to_usize (n : N) : option N := if N.ltb n W then Some n else None.
(* l.241-262 *)
Definition dm_elem := (N * N)%type.   (* approx_coeff_lower_bound, degree *)
Definition dm_compose (a b : dm_elem) : dm_elem := (wrapping_add (fst a) (fst b), wrapping_add (snd a) (snd b)).
Definition z_lead (f : list Z) : option Z := @p_leading_coeff ZO f.
(* l.299-318 *)
Definition dm_value (modulus lc : Z) (conv : Q) (g : list Z) : option dm_elem :=
  do d <- @p_degree ZO g;
  assert! 1 <=? d;                                                                     (* d - 1 on usize *)
  let coeff := Z.modulo (Z.mul lc (@p_coeff ZO g (d - 1))) modulus in
  do a <- nat_to_usize (N.modulo (Z.abs_N (rat_floor (Qmult (inject_Z coeff) conv))) W);
  Some (a, N.of_nat d).
(* l.269-321: the bound and the values of the modular factors *)
Definition dm_new (modulus : Z) (f : list Z) (gs : list (list Z)) : option (N * list dm_elem) :=
  do conv <- from_integers (Z.of_N W) modulus;
  do lc <- z_lead f;
  do ob <- cauchys_root_bound f;
  do beta <- ob;
  let b := match nat_to_usize (Z.abs_N (rat_ceil (Qmult (Qmult (inject_Z (Z.abs lc)) beta) conv))) with Some b => b | None => N.sub W 1 end in
  do vs <- MatModel.mapM (dm_value modulus lc conv) gs;
  Some (b, vs).
(* l.325-349: true = the subset is ruled out *)
Definition dm_decide (bound : N) (v : dm_elem) (len : nat) : bool :=
  let range_bot := fst v in
  let range_top := wrapping_add range_bot (N.of_nat len) in
  let b1 := match nat_to_usize (N.mul bound (snd v)) with Some b => b | None => N.sub W 1 end in
  if N.eqb b1 0 then N.ltb 0 range_bot && N.leb range_bot range_top
  else let b2 := N.add (N.sub (N.sub W 1) b1) 1 in N.ltb b1 range_bot && N.leb range_bot range_top && N.ltb range_top b2.
Definition dm_test (bound : N) (vals : list dm_elem) (mem : list (nat * dm_elem)) (subset : list nat) : option (bool * list (nat * dm_elem)) :=
  do r <- ms_get dm_compose vals mem subset;
  Some (dm_decide bound (fst r) (length subset), snd r).

(* ------------------------------------------------------------------ l.352-466 *)
(* l.398-408: the symmetric representative of c modulo m *)
Definition sym_lift (m c : Z) : Z := let c := @q_rem ZO Zquorem m c in if Z.ltb (Z.div m 2) c then Z.sub c m else c.
(* l.394-410: the candidate factor from a product of modular factors *)
Definition candidate (m lc : Z) (prod : list Z) : option (list Z) :=
  do o <- @primitive_part ZO Zdiv Zgcd (map (sym_lift m) (@p_mul ZO [lc] prod));
  do g <- o;
  do d <- @p_degree ZO g;
  assert! negb (d =? 0);
  Some g.
Notation zpdiv := (@pdivr ZO Zdiv).
Notation zpffa := (@pffar ZO Zdiv Zffa).
Record bz_state := BzState { bz_factored : factored PZ; bz_excluded : list nat; bz_f : list Z; bz_m : nat; bz_dmem : list (nat * dm_elem); bz_pmem : list (nat * list Z) }.
(* StateAtPrime, l.113-120 *)
Record at_prime := AtPrime { ap_poly : list Z; ap_lc : Z; ap_degree : nat; ap_modulus : Z; ap_factors : list (list Z) }.

Section Subsets.
Variables (cf : nat) (S : at_prime) (dmb : N) (dmv : list dm_elem).
Notation gs := (ap_factors S).
(* k_combinations.exclude(i) for each i *)
Fixpoint exclude_all (c : comb) (l : list nat) : option comb :=
  match l with [] => Some c | i :: l' => do c' <- comb_exclude cf i c; exclude_all c' l' end.
(* l.382-450: one round, subsets of cardinality k *)
Fixpoint bz_round (fuel : nat) (k : nat) (c : comb) (st : bz_state) : option bz_state :=
  match fuel with
  | O => None
  | Datatypes.S fuel' =>
      do cn <- comb_next c;
      match cn with
      | (None, _) => Some st
      | (Some subset, c) =>
          do t <- dm_test dmb dmv (bz_dmem st) subset;
          if fst t then bz_round fuel' k c (BzState (bz_factored st) (bz_excluded st) (bz_f st) (bz_m st) (snd t) (bz_pmem st))
          else
            do pr <- ms_get (@p_mul (ZQ (ap_modulus S))) gs (bz_pmem st) subset;
            do g <- candidate (ap_modulus S) (ap_lc S) (fst pr);
            do d <- @p_div ZO Zdiv (bz_f st) g;
            match d with
            | DivOk h =>
                assert! k <=? bz_m st;                                                 (* m -= k on usize *)
                do c <- exclude_all c subset;
                bz_round fuel' k c (BzState (f_mul (R := PZ) zpdiv (bz_factored st) (factored_irreducible_unchecked (R := PZ) zpffa g))
                                            (bz_excluded st ++ subset) h (bz_m st - k) (snd t) (snd pr))
            | NotDivisible => bz_round fuel' k c (BzState (bz_factored st) (bz_excluded st) (bz_f st) (bz_m st) (snd t) (snd pr))
            | DivideByZero => None
            end
      end
  end.
(* l.371-453 *)
Fixpoint bz_loop (fuel : nat) (k : nat) (st : bz_state) : option bz_state :=
  match fuel with
  | O => None
  | Datatypes.S fuel' =>
      if k <=? bz_m st / 2 then
        let n := length gs in
        let c := comb_new n k in
        do c <- (if 2 * k =? bz_m st then comb_exclude cf (n - 1) c else Some c);
        do c <- exclude_all c (bz_excluded st);
        do st <- bz_round cf k c st;
        bz_loop fuel' (k + 1) st
      else Some st
  end.
End Subsets.
(* l.352-466; cf bounds the number of subsets of one cardinality (C04) *)
Definition factor_by_try_all_subsets (cf : nat) (S : at_prime) : option (factored PZ) :=
  do dm <- dm_new (ap_modulus S) (ap_poly S) (ap_factors S);
  let n := length (ap_factors S) in
  do st <- bz_loop cf S (fst dm) (snd dm) (n + 1) 1 (BzState (factored_one (R := PZ)) [] (ap_poly S) n [] []);
  Some (if 0 <? bz_m st then f_mul (R := PZ) zpdiv (bz_factored st) (factored_irreducible_unchecked (R := PZ) zpffa (bz_f st)) else bz_factored st).

(* ------------------------------------------------------------------ l.76-151 *)
Section Prime.
Variables (is_irr : Z -> bool) (mfactor : Z -> list Z -> option (list (list Z * N))).
(* l.137-140 *)
Fixpoint lift_until (fuel : nat) (minimum : Z) (F : @hfact ZO) : option (@hfact ZO) :=
  if Z.ltb (@h_modulus ZO F) minimum then
    match fuel with O => None | S fuel' => do F' <- @h_linear_lift ZO Zdiv Zffa Znorm Zquorem F; lift_until fuel' minimum F' end
  else Some F.
(* l.124-151; inner None is the Rust None.  The modulus at least doubles with every lift *)
Definition new_at_prime (poly : list Z) (degree : nat) (minimum : N) (p : N) : option (option at_prime) :=
  let p := Z.of_N p in
  if match @p_degree (ZQ p) poly with Some d => d =? degree | None => false end then
    do fs <- mfactor p poly;
    do o <- @into_hensel_factorization ZO Zdiv Zffa Znorm Zquorem is_irr p fs poly;
    match o with
    | Some F =>
        do F <- lift_until (N.to_nat (N.log2_up minimum)) (Z.of_N minimum) (@h_dont_lift_bezout_coeffs ZO F);
        do lc <- z_lead poly;
        Some (Some (AtPrime poly lc degree (@h_modulus ZO F) (@h_factors ZO F)))
    | None => Some None
    end
  else Some None.
(* l.101-110 *)
Fixpoint next_prime (fuel : nat) (poly : list Z) (degree : nat) (minimum : N) (gen : NatModel.prime_gen) : option at_prime :=
  match fuel with
  | O => None
  | S fuel' =>
      do pg <- NatModel.pg_next fuel gen;
      do o <- new_at_prime poly degree minimum (fst pg);
      match o with Some s => Some s | None => next_prime fuel' poly degree minimum (snd pg) end
  end.
(* l.86-99 with l.101-110 and l.352-466: one primitive squarefree polynomial *)
Definition bz_sqfree (fuel : nat) (f : list Z) : option (factored PZ) :=
  do d <- @p_degree ZO f;
  if d =? 0 then Some (factored_unit_unchecked (R := PZ) f)
  else
    do ob <- mignotte_factor_coefficient_bound f;
    do b <- ob;
    do s <- next_prime fuel f d (N.mul 2 b) NatModel.pg_new;
    factor_by_try_all_subsets fuel s.
(* l.468-487; inner None is the Rust None *)
Definition factorize_by_berlekamp_zassenhaus_algorithm (zfactor : Z -> option (factored ZO)) (fuel : nat) (f : list Z) : option (option (factored PZ)) :=
  if @p_is_zero ZO f then Some None
  else do r <- @yun ZO Zdiv Zgcd (@gcd_by_primitive_subresultant ZO Zdiv Zgcd) zfactor (bz_sqfree fuel) f; Some (Some r).
End Prime.
