(* Specification of matrices: which mathematical matrix a value of the program represents, and the mathematical notions the
   theorems speak about.  Only the observers rows, cols and at_ (the public rows(), cols(), at(r, c)) of the model are used. *)
From Coq Require Import NArith.
From mathcomp Require Import all_ssreflect all_algebra.
From Verif Require Import RingSpec MatModel.
Close Scope rs_scope.
Set Implicit Arguments.
Unset Strict Implicit.
Unset Printing Implicit Defensive.
Local Open Scope ring_scope.

(* m has p rows, q columns and at(i, j) = M_ij *)
Definition represents (A : Type) (p q : nat) (m : matrix A) (M : 'M[A]_(p, q)) : Prop :=
  rows m = p /\ cols m = q /\ forall (i : 'I_p) (j : 'I_q), at_ m i j = Some (Ok (M i j)).

(* a commutative ring seen as the ring_ops the generic code is written against *)
Definition mc_ops (R : comRingType) : ring_ops :=
  {| T := R; req := fun a b => a == b; r0 := 0; r1 := 1; radd := fun a b => a + b; rmul := fun a b => a * b; rneg := fun a => - a |}.

(* contract of the operations of BezoutDomainStructure used by the matrix code: div decides divisibility, factor_fav_assoc
   writes a as unit * favourite associate, xgcd gives a greatest common divisor (the favourite associate) with Bezout coefficients *)
Record bezout_laws (R : idomainType) (div : div_op (mc_ops R)) (ffa : ffa_op (mc_ops R)) (xgcd : R -> R -> R * R * R) : Prop := {
  bz_idom : idom_laws (mc_ops R) div;
  bz_ffa : ffa_laws (mc_ops R) ffa;
  bz_xgcd : xgcd_laws (mc_ops R) xgcd;
  bz_norm : forall a b : R, snd (ffa (xgcd a b).1.1) = (xgcd a b).1.1
}.

(* row echelon form: row i < length pivs has its first nonzero entry in column pivs[i]; these columns increase strictly; the
   remaining rows are zero.  Moreover each pivot is the favourite associate of its class. *)
Definition echelon (R : comRingType) (ffa : ffa_op (mc_ops R)) p q (H : 'M[R]_(p, q)) (pivs : seq nat) : Prop :=
  [/\ sorted ltn pivs, (size pivs <= p)%N, (forall x, x \in pivs -> (x < q)%N),
      forall (i : 'I_p) (j : 'I_q), (i < size pivs)%N -> (j < nth 0%N pivs i)%N -> H i j = 0 &
      (forall (i : 'I_p) (j : 'I_q), (i < size pivs)%N -> j = nth 0%N pivs i :> nat -> H i j != 0 /\ snd (ffa (H i j)) = H i j) /\
      (forall (i : 'I_p) (j : 'I_q), (size pivs <= i)%N -> H i j = 0)].

(* Smith normal form: diagonal, entry (i,i) nonzero exactly for i < k, a favourite associate, and dividing the next one *)
Definition smith_form (R : comRingType) (ffa : ffa_op (mc_ops R)) p q (S : 'M[R]_(p, q)) (k : nat) : Prop :=
  [/\ (k <= minn p q)%N, forall (i : 'I_p) (j : 'I_q), (i : nat) <> j -> S i j = 0,
      forall (i : 'I_p) (j : 'I_q), i = j :> nat -> (S i j != 0) = (i < k)%N /\ snd (ffa (S i j)) = S i j &
      forall (i i' : 'I_p) (j j' : 'I_q), i = j :> nat -> i' = j' :> nat -> (i' = i.+1 :> nat) -> exists c, S i' j' = c * S i j].

(* A^k as an iterated product, for matrices of any size (mathcomp's ring of matrices needs a positive size) *)
Definition mxpow (R : comRingType) n (A : 'M[R]_n) (k : nat) : 'M[R]_n := iter k (mulmx A) 1%:M.

(* a has smaller Euclidean norm than b; zero has no norm and is below everything nonzero *)
Definition norm_lt (X : Type) (norm : X -> option N) (a b : X) : Prop :=
  match norm a, norm b with
  | None, Some _ => True
  | Some x, Some y => N.lt x y
  | _, None => False
  end.
(* every entry above a pivot is reduced modulo that pivot *)
Definition reduced_above (R : comRingType) (norm : R -> option N) p q (H : 'M[R]_(p, q)) (pivs : seq nat) : Prop :=
  forall (i i' : 'I_p) (j : 'I_q), (i < i' < size pivs)%N -> j = nth 0%N pivs i' :> nat -> norm_lt norm (H i j) (H i' j).
(* the rank of a matrix over an integral domain is its rank over the field of fractions *)
Definition frac_rank (R : idomainType) p q (A : 'M[R]_(p, q)) : nat := \rank (map_mx (@FracField.tofrac R) A).
