(* Model of rings/src/number/integer/polynomial.rs l.23-55.  An integer polynomial is its coefficient vector (PolyModel over the integers).
   malachite's Rational = Q; Rational::from_integers panics on a zero denominator; Ord::max = Qle. *)
From Coq Require Import List NArith ZArith QArith Qabs Bool.
From Verif Require Import RingSpec RingModel PolyModel.
From Verif Require NatModel.
Import ListNotations.
Close Scope rs_scope.
Open Scope nat_scope.

(* l.28-36; Integer::unsigned_abs; inner None is the Rust None *)
Definition mignotte_factor_coefficient_bound (f : list Z) : option (option N) :=
  match @p_degree Z_ops f with
  | None => Some None
  | Some deg =>
      let bound := fold_left (fun acc c => (acc + Z.abs_N c)%N) f 0%N in
      match NatModel.choose_usize deg (Nat.div deg 2) with Some c => Some (Some (bound * c)%N) | None => None end
  end.
Definition from_integers (n d : Z) : option Q := if Z.eqb d 0 then None else Some (inject_Z n / inject_Z d)%Q.
Definition Qmax2 (x y : Q) : Q := if Qle_bool x y then y else x.
Fixpoint mapM {A B} (f : A -> option B) (l : list A) : option (list B) :=
  match l with [] => Some [] | x :: l' => match f x, mapM f l' with Some y, Some m => Some (y :: m) | _, _ => None end end.
(* Iterator::max *)
Definition iter_max (l : list Q) : option Q := match l with [] => None | x :: l' => Some (fold_left Qmax2 l' x) end.
(* l.39-54; inner None is the Rust None *)
Definition cauchys_root_bound (f : list Z) : option (option Q) :=
  match @p_degree Z_ops f with
  | None => Some None
  | Some d =>
      if d =? 0 then Some None
      else
        match mapM (fun i => match from_integers (@p_coeff Z_ops f i) (@p_coeff Z_ops f d) with Some q => Some (Qabs q) | None => None end) (seq 0 d) with
        | Some l => match iter_max l with Some m => Some (Some (1 + m)%Q) | None => None end
        | None => None
        end
  end.
