(* Model of rings/src/polynomial/hensel_lifting.rs: Hensel factorizations over a Euclidean domain and their linear and quadratic lifts.
   Conventions: option None = the Rust code panics (assert!, debug_assert!, failed unwrap); Natural is N; a HenselFactorizationImpl is the
   pair of its polynomial h and its HenselProduct, and the const parameter LIFTED_BEZOUT_COEFFS is the boolean argument `lifted`.
   `&mut self` methods return the new value.  Ownership, Box, Rc are not modelled.
   Polynomials over a quotient ring are coefficient vectors over the base ring, compared and reduced with the quotient's own equality. *)
From Coq Require Import List Arith NArith Bool.
From Verif Require Import RingSpec RingModel PermModel MatModel PolyModel.
Import ListNotations.
Close Scope rs_scope.
Open Scope nat_scope.

(* the total forms of div, factor_fav_assoc, quorem of a polynomial ring over a field (polynomial.rs l.454-472, 640-660, 664-680); the
   default values stand for panics, which do not occur over fields *)
Definition pdivT {A : ring_ops} (d : div_op A) : div_op (@poly_ops A) :=
  fun a b => match p_div d a b with Some r => r | None => NotDivisible end.
Definition pffaT {A : ring_ops} (d : div_op A) (f : ffa_op A) : ffa_op (@poly_ops A) :=
  fun a => match p_factor_fav_assoc d f a with Some r => r | None => ([], []) end.
Definition pquoremT {A : ring_ops} (d : div_op A) (a b : list (T A)) : option (list (T A) * list (T A)) :=
  match p_quorem d a b with Some o => o | None => None end.
(* enough steps for euclidean_xgcd(x, y) *)
Definition hfuel {A : ring_ops} (norm : T A -> option N) (y : T A) : nat := match norm y with None => 1 | Some n => S (S (N.to_nat n)) end.
(* polynomial.rs l.690-694 with structure.rs l.490-531: xgcd of polynomials over a field *)
Definition p_xgcd {A : ring_ops} (d : div_op A) (x y : list (T A)) : option (list (T A) * list (T A) * list (T A)) :=
  @euclidean_xgcd (@poly_ops A) (pdivT d) (pffaT d field_ffa) (pquoremT d) (hfuel (A := @poly_ops A) p_norm y) x y.

Section Hensel.
Context {R : ring_ops} (div : div_op R) (ffa : ffa_op R) (norm : T R -> option N) (quorem : T R -> T R -> option (T R * T R)).
(* UniqueFactorizationStructure::is_irreducible *)
Variable is_irr : T R -> bool.
Notation T := (T R).
Notation poly := (list (RingSpec.T R)).
Notation Q m := (quotient_ops quorem m).
Notation P := (@poly_ops R).
Notation PQ m := (@poly_ops (Q m)).

(* ring.euclidean_xgcd *)
Definition h_xgcd (x y : T) : option (T * T * T) := euclidean_xgcd div ffa quorem (hfuel norm y) x y.
(* quotient.rs l.136-159, division in QuotientStructure<RS, true> *)
Definition h_qdiv (p : T) : div_op (Q p) :=
  fun a b => match quotient_div div ffa quorem p (hfuel norm p) a b with Some r => r | None => NotDivisible end.
(* .apply_map(|c| ring.rem(c, m)) *)
Definition rem_map (m : T) (f : poly) : poly := map (q_rem quorem m) f.

(* l.13-30 *)
Inductive hprod := Leaf | Branch (fh : poly) (ff : hprod) (gh : poly) (gf : hprod) (a b : poly).

(* l.58-124 and l.395-402; Some true = Ok, Some false = Err *)
Fixpoint check_prod (lifted : bool) (t : hprod) (h : poly) (i : T) (n : N) : option bool :=
  match t with
  | Leaf => Some true
  | Branch f ff g gf a b =>
      do rf <- check_prod lifted ff f i n;
      if negb rf then Some false else
      do rg <- check_prod lifted gf g i n;
      if negb rg then Some false else
      assert! negb (is_zero i);
      let m := nat_pow i n in
      assert! negb (is_zero m);
      if negb (@p_is_zero (Q i) (@sum (PQ i) [@rmul (PQ i) a f; @rmul (PQ i) b g; @rneg (PQ i) r1])) then Some false else
      if lifted && negb (@p_is_zero (Q m) (@sum (PQ m) [@rmul (PQ m) a f; @rmul (PQ m) b g; @rneg (PQ m) r1])) then Some false else
      do alpha <- p_leading_coeff h;
      Some (@p_equal (Q m) h (@product (PQ m) [[alpha]; f; g]))
  end.

(* l.200-283; debug assertions included *)
Definition compute_lift_factors (i : T) (n : N) (a b f g h : poly) : option (poly * poly * poly * poly) :=
  do alpha <- p_leading_coeff h;
  do x <- h_xgcd alpha i;
  let '(gcd, beta, _) := x in
  assert! req gcd r1;
  assert! negb (is_zero i);
  assert! @req (Q i) alpha alpha;
  let m := nat_pow i (n + 1) in
  let delta_h := rem_map m (p_add h (p_neg (@product P [[alpha]; f; g]))) in
  assert! negb (is_zero m);
  assert! @p_equal (Q m) delta_h (@p_add (Q m) h (@p_neg (Q m) (@product (PQ m) [[alpha]; f; g])));
  do deg_h <- p_degree h;
  assert! Nat.ltb (match p_degree delta_h with Some d => d | None => 0 end) deg_h;
  do dg <- try_quorem div (p_mul a delta_h) g;
  do df <- try_quorem div (p_mul b delta_h) f;
  match dg, df with
  | DivOk (qg, rg), DivOk (qf, rf) =>
      assert! @p_is_zero (Q m) (@p_add (Q m) qf qg);
      let delta_f := p_mul [beta] rf in
      let delta_g := p_mul [beta] rg in
      let lifted_f := rem_map m (p_add delta_f f) in
      let lifted_g := rem_map m (p_add delta_g g) in
      Some (delta_f, delta_g, lifted_f, lifted_g)
  | _, _ => None
  end.

(* l.289-310 and l.458-460 *)
Fixpoint linear_lift_prod (i : T) (n : N) (h : poly) (t : hprod) : option hprod :=
  match t with
  | Leaf => Some Leaf
  | Branch f ff g gf a b =>
      do l <- compute_lift_factors i n a b f g h;
      let '(_, _, lifted_f, lifted_g) := l in
      do ff' <- linear_lift_prod i n lifted_f ff;
      do gf' <- linear_lift_prod i n lifted_g gf;
      let t' := Branch lifted_f ff' lifted_g gf' a b in
      do c <- check_prod false t' h i (n + 1);
      assert! c;
      Some t'
  end.

(* l.318-385 and l.467-469 *)
Fixpoint quadratic_lift_prod (i : T) (n : N) (h : poly) (t : hprod) : option hprod :=
  match t with
  | Leaf => Some Leaf
  | Branch f ff g gf a b =>
      let m := nat_pow i (n * 2) in
      assert! negb (is_zero m);
      do l <- compute_lift_factors (nat_pow i n) 1 a b f g h;
      let '(delta_f, delta_g, lifted_f, lifted_g) := l in
      let beta := @sum (PQ m) [@rmul (PQ m) a f; @rmul (PQ m) b g; @rneg (PQ m) r1] in
      let big_delta := @sum (PQ m) [beta; @rmul (PQ m) a delta_f; @rmul (PQ m) b delta_g] in
      assert! @p_equal (Q m) (@p_add (Q m) (@p_mul (Q m) a lifted_f) (@p_mul (Q m) b lifted_g)) (@p_add (Q m) big_delta p_one);
      let delta_a := @p_neg (Q m) (@p_mul (Q m) a big_delta) in
      let delta_b := @p_neg (Q m) (@p_mul (Q m) b big_delta) in
      let a' := @p_add (Q m) a delta_a in
      let b' := @p_add (Q m) b delta_b in
      do ff' <- quadratic_lift_prod i n lifted_f ff;
      do gf' <- quadratic_lift_prod i n lifted_g gf;
      let t' := Branch lifted_f ff' lifted_g gf' a' b' in
      do c <- check_prod true t' h i (n * 2);
      assert! c;
      Some t'
  end.

(* l.404-433 with l.126-161 (new_split) inlined; fuel = length of fs bounds the depth *)
Fixpoint himpl_new (fuel : nat) (p : T) (n : N) (h : poly) (fs : list poly) : option hprod :=
  match fuel with
  | O => None
  | S fuel' =>
      match fs with
      | [] => None
      | [_] => Some Leaf
      | _ =>
          let k := Nat.div (length fs) 2 in
          let first_fs := firstn k fs in
          let second_fs := skipn k fs in
          do alpha <- p_leading_coeff h;
          do x <- h_xgcd alpha p;
          assert! req (fst (fst x)) r1;
          assert! is_irr p;
          assert! negb (is_zero p);
          let m := nat_pow p n in
          let first_h := rem_map m (@product P first_fs) in
          let second_h := rem_map m (@product P second_fs) in
          do y <- @p_xgcd (Q p) (h_qdiv p) first_h second_h;
          let '(u, a, b) := y in
          assert! @p_equal (Q p) u p_one;
          do ff <- himpl_new fuel' p n first_h first_fs;
          do gf <- himpl_new fuel' p n second_h second_fs;
          Some (Branch first_h ff second_h gf a b)
      end
  end.

(* l.163-180, 435-437 *)
Fixpoint factor_list (h : poly) (t : hprod) : list poly :=
  match t with
  | Leaf => [h]
  | Branch f ff g gf _ _ => factor_list f ff ++ factor_list g gf
  end.

(* l.42-53 *)
Record hfact := HFact { h_i : T; h_n : N; h_h : poly; h_t : hprod }.
(* l.477-481 *)
Definition h_check (lifted : bool) (F : hfact) : option bool := check_prod lifted (h_t F) (h_h F) (h_i F) (h_n F).
(* l.483-526 *)
Definition h_new (lifted : bool) (p : T) (n : N) (h : poly) (fs : list poly) : option hfact :=
  assert! is_irr p;
  assert! Nat.leb 1 (length fs);
  assert! forallb (fun f => p_is_monic f) fs;
  let m := nat_pow p n in
  assert! negb (is_zero m);
  do alpha <- p_leading_coeff h;
  assert! @p_equal (Q m) h (@p_mul (Q m) [alpha] (@product (PQ m) fs));
  do t <- himpl_new (length fs) p n h fs;
  let ans := HFact p n h t in
  do c <- h_check lifted ans;
  assert! c;
  Some ans.
(* l.528-530, 533-535 *)
Definition h_modulus (F : hfact) : T := nat_pow (h_i F) (h_n F).
Definition h_factors (F : hfact) : list poly := factor_list (h_h F) (h_t F).
(* l.187-206, 444-449, 542-549: the tree is the same, only the const parameter changes *)
Definition h_dont_lift_bezout_coeffs (F : hfact) : hfact := F.
(* l.556-560, 567-571 *)
Definition h_linear_lift (F : hfact) : option hfact :=
  do t <- linear_lift_prod (h_i F) (h_n F) (h_h F) (h_t F); Some (HFact (h_i F) (h_n F + 1) (h_h F) t).
Definition h_quadratic_lift (F : hfact) : option hfact :=
  do t <- quadratic_lift_prod (h_i F) (h_n F) (h_h F) (h_t F); Some (HFact (h_i F) (h_n F * 2) (h_h F) t).
(* l.584-612: `factors` = the factors and powers of a Factored over the quotient field; the Rust None is the inner option *)
Definition into_hensel_factorization (p : T) (factors : list (poly * N)) (h : poly) : option (option hfact) :=
  if forallb (fun fp => N.eqb (snd fp) 1) factors then
    do F <- h_new true p 1 h (map fst factors);
    do c <- h_check true F;
    assert! c;
    Some (Some F)
  else Some None.
End Hensel.
