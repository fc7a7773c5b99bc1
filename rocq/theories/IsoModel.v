(* Model of rings/src/number/algebraic/real/polynomial.rs l.583-648: Descartes' sign variations and the Collins-Akritas isolation of the real roots
   of an integer polynomial in (0, 1).  Polynomials are coefficient vectors over Z as in PolyModel; option None = panic (or out of fuel in `iso_loop`,
   the `while` loop; C74_terminates is about the fuel).  The Vec used as a stack is a list with its last element at the head.
   usize subtraction panics below zero (debug build). *)
From Coq Require Import List Arith NArith ZArith Bool.
From mathcomp Require Import all_ssreflect all_algebra.
From Verif Require Import RingSpec RingModel FactoredModel PermModel MatModel MatSpec ZRing MatInst PolyModel PolyProps3 FacModel2.
Import ListNotations.
Close Scope rs_scope.

(* l.588-592: the nonzero coefficients *)
Definition nonzero_coeffs (p : list Z) : list Z := List.filter (fun c => negb (Z.eqb c Z0)) p.
(* l.594-598 *)
Fixpoint count_variations (l : list Z) : nat :=
  match l with
  | x :: ((y :: _) as t) => (if negb (Bool.eqb (Z.ltb x Z0) (Z.ltb y Z0)) then 1 else 0)%nat + count_variations t
  | _ => 0%nat
  end.
(* l.584-600; `len() - 1` underflows when there is no nonzero coefficient *)
Definition sign_variations (p : list Z) : option nat :=
  match nonzero_coeffs p with [] => None | l => Some (count_variations l) end.
(* 1 + x *)
Definition one_plus_x : list Z := [Zpos 1; Zpos 1].
(* l.632-634: 2^(n+1) q(x/2), coefficient i becomes (coeff * 2) << (n - i) where n is the degree *)
Definition q_small (q : list Z) : option (list Z) :=
  do n <- @p_degree ZO q;
  mapM (fun ic => if Nat.ltb n (fst ic) then None else Some (Z.shiftl (Z.mul (snd ic) (Zpos 2)) (Z.of_nat (n - fst ic)%nat)))
       (combine (List.seq 0 (length q)) q).
Definition piece := (N * nat * bool)%type.
Definition item := (N * nat * list Z)%type.
(* l.616-621: report the root at the left end and divide it out *)
Definition drop_left_root (c : N) (k : nat) (q : list Z) : option (list Z * list piece) :=
  if Z.eqb (@p_evaluate ZO q Z0) Z0
  then do d <- @p_div ZO Zdiv q (@p_var ZO); do q' <- ok_of d; Some (q', [(c, k, false)])
  else Some (q, []).
(* l.622-626 *)
Definition descartes_01 (q : list Z) : option nat := sign_variations (@p_compose ZO (@p_reversed ZO q) one_plus_x).
(* l.614-646 *)
Fixpoint iso_loop (fuel : nat) (l : list item) (isol : list piece) : option (list piece) :=
  match l with
  | [] => Some isol
  | (c, k, q) :: l' =>
      match fuel with
      | O => None
      | S fuel' =>
          do qe <- drop_left_root c k q;
          let q := fst qe in
          let isol := isol ++ snd qe in
          do v <- descartes_01 q;
          if Nat.eqb v 1 then iso_loop fuel' l' (isol ++ [(c, k, true)])
          else if Nat.ltb 1 v then
            do qs <- q_small q;
            iso_loop fuel' ((N.shiftl c 1, (k + 1)%nat, qs) :: (N.add (N.shiftl c 1) 1, (k + 1)%nat, @p_compose ZO qs one_plus_x) :: l') isol
          else iso_loop fuel' l' isol
      end
  end.
(* l.603-648 *)
Definition isolate_real_roots_by_collin_akritas (fuel : nat) (p : list Z) : option (list piece) :=
  assert! negb (Z.eqb (@p_evaluate ZO p Z0) Z0);
  assert! negb (Z.eqb (@p_evaluate ZO p (Zpos 1)) Z0);
  do s <- @primitive_squarefree_part ZO Zdiv Zgcd p;
  do d1 <- @p_degree ZO s;
  do d2 <- @p_degree ZO p;
  assert! Nat.eqb d1 d2;
  iso_loop fuel [(N0, 0%nat, p)] [].
