(* Specification of the ring traits of rings/src/structure/structure.rs: their required methods (as records of
   operations) and the contracts that implementations promise (as records of laws).  Does not import any model.
   Elements are compared with the structure's own `equal`, never with Leibniz equality. *)
From Coq Require Import List Arith NArith ZArith Bool.
Import ListNotations.

(* required methods of EqStructure / SemiRingStructure / RingStructure *)
Record ring_ops := RingOps {
  T : Type;
  req : T -> T -> bool;      (* equal *)
  r0 : T; r1 : T;
  radd : T -> T -> T;
  rmul : T -> T -> T;
  rneg : T -> T
}.
Arguments req {r}. Arguments r0 {r}. Arguments r1 {r}. Arguments radd {r}. Arguments rmul {r}. Arguments rneg {r}.

Declare Scope rs_scope.
Delimit Scope rs_scope with rs.
Notation "a == b" := (req a b = true) (at level 70) : rs_scope.
Notation "a =/= b" := (req a b = false) (at level 70) : rs_scope.
Notation "a + b" := (radd a b) : rs_scope.
Notation "a * b" := (rmul a b) : rs_scope.
Notation "- a" := (rneg a) : rs_scope.
Open Scope rs_scope.

(* commutative ring with a decidable equality that the operations respect *)
Record ring_laws (R : ring_ops) : Prop := {
  req_refl : forall a : T R, a == a;
  req_sym : forall a b : T R, a == b -> b == a;
  req_trans : forall a b c : T R, a == b -> b == c -> a == c;
  radd_ext : forall a a' b b' : T R, a == a' -> b == b' -> a + b == a' + b';
  rmul_ext : forall a a' b b' : T R, a == a' -> b == b' -> a * b == a' * b';
  rneg_ext : forall a a' : T R, a == a' -> - a == - a';
  radd_0_l : forall a : T R, r0 + a == a;
  radd_comm : forall a b : T R, a + b == b + a;
  radd_assoc : forall a b c : T R, a + (b + c) == (a + b) + c;
  radd_neg : forall a : T R, a + - a == r0;
  rmul_1_l : forall a : T R, r1 * a == a;
  rmul_comm : forall a b : T R, a * b == b * a;
  rmul_assoc : forall a b c : T R, a * (b * c) == (a * b) * c;
  rdistr_l : forall a b c : T R, (a + b) * c == a * c + b * c
}.

(* n-fold product, n-fold sum *)
Fixpoint npow {R : ring_ops} (a : T R) (n : nat) : T R := match n with O => r1 | S n' => a * npow a n' end.
Fixpoint nmul {R : ring_ops} (n : nat) (a : T R) : T R := match n with O => r0 | S n' => a + nmul n' a end.
Fixpoint rsum {R : ring_ops} (l : list (T R)) : T R := match l with [] => r0 | x :: l' => x + rsum l' end.
Fixpoint rprod {R : ring_ops} (l : list (T R)) : T R := match l with [] => r1 | x :: l' => x * rprod l' end.
Fixpoint rdot {R : ring_ops} (l m : list (T R)) : T R :=
  match l, m with x :: l', y :: m' => x * y + rdot l' m' | _, _ => r0 end.

Definition rdvd {R : ring_ops} (a b : T R) : Prop := exists c, b == a * c.
Definition runit {R : ring_ops} (a : T R) : Prop := exists c, a * c == r1.
Definition rassoc {R : ring_ops} (a b : T R) : Prop := exists u, runit u /\ a == u * b.
Definition is_gcd {R : ring_ops} (g a b : T R) : Prop :=
  rdvd g a /\ rdvd g b /\ forall d, rdvd d a -> rdvd d b -> rdvd d g.
Definition is_lcm {R : ring_ops} (m a b : T R) : Prop :=
  rdvd a m /\ rdvd b m /\ forall d, rdvd a d -> rdvd b d -> rdvd m d.
Definition is_gcd_list {R : ring_ops} (g : T R) (l : list (T R)) : Prop :=
  (forall x, In x l -> rdvd g x) /\ forall d, (forall x, In x l -> rdvd d x) -> rdvd d g.
Definition is_lcm_list {R : ring_ops} (m : T R) (l : list (T R)) : Prop :=
  (forall x, In x l -> rdvd x m) /\ forall d, (forall x, In x l -> rdvd x d) -> rdvd m d.
Definition irreducible {R : ring_ops} (m : T R) : Prop :=
  m =/= r0 /\ ~ runit m /\ forall a b : T R, m == a * b -> runit a \/ runit b.

(* l.17 RingDivisionError *)
Inductive divres (A : Type) := DivOk (q : A) | DivideByZero | NotDivisible.
Arguments DivOk {A}. Arguments DivideByZero {A}. Arguments NotDivisible {A}.

(* IntegralDomainStructure (l.169) *)
Definition div_op (R : ring_ops) := T R -> T R -> divres (T R).
Record idom_laws (R : ring_ops) (div : div_op R) : Prop := {
  id_ring : ring_laws R;
  id_nontrivial : @r1 R =/= r0;
  id_nozerodiv : forall a b : T R, a * b == r0 -> a == r0 \/ b == r0;
  div_zero : forall a b : T R, div a b = DivideByZero <-> b == r0;
  div_ok : forall (a b q : T R), div a b = DivOk q -> a == q * b;
  div_not : forall (a b : T R), div a b = NotDivisible -> ~ rdvd b a
}.
(* FieldStructure (l.624) *)
Record field_laws (R : ring_ops) (div : div_op R) : Prop := {
  fl_idom : idom_laws R div;
  fl_div : forall a b : T R, b =/= r0 -> exists q, div a b = DivOk q
}.

(* FavoriteAssociateStructure (l.295-311): write a = unit*assoc *)
Definition ffa_op (R : ring_ops) := T R -> T R * T R.
Record ffa_laws (R : ring_ops) (ffa : ffa_op R) : Prop := {
  ffa_eq : forall (a : T R), a == fst (ffa a) * snd (ffa a);
  ffa_unit : forall (a : T R), runit (fst (ffa a));
  ffa_assoc : forall a b : T R, rassoc a b -> snd (ffa a) == snd (ffa b);
  ffa_zero : forall (a : T R), a == r0 -> fst (ffa a) == r1;
  ffa_of_unit : forall (a : T R), runit a -> snd (ffa a) == r1
}.

(* EuclideanDivisionStructure (l.455) *)
Record euclid_laws (R : ring_ops) (norm : T R -> option N) (quorem : T R -> T R -> option (T R * T R)) : Prop := {
  norm_zero : forall a : T R, norm a = None <-> a == r0;
  quorem_zero : forall a b : T R, quorem a b = None <-> b == r0;
  quorem_ok : forall (a b q r : T R), quorem a b = Some (q, r) -> a == q * b + r;
  quorem_lt : forall (a b q r : T R) n k, quorem a b = Some (q, r) -> norm b = Some n -> norm r = Some k -> (k < n)%N
}.

(* A property of the norms used in the library (|z| on Z, degree on F[x]) that the trait does not state but that
   quotient rings need: a nonzero multiple has at least the norm. *)
Definition norm_mono (R : ring_ops) (norm : T R -> option N) : Prop :=
  forall (a b c : T R) n k, c == a * b -> norm a = Some n -> norm c = Some k -> (n <= k)%N.

(* GreatestCommonDivisorStructure (l.329): the required method returns the favourite associate of a gcd *)
Definition gcd_laws (R : ring_ops) (ffa : ffa_op R) (gcd : T R -> T R -> T R) : Prop :=
  forall x y : T R, is_gcd (gcd x y) x y /\ snd (ffa (gcd x y)) == gcd x y.
(* BezoutDomainStructure (l.408-410): (g, x, y) s.t. g = ax + by *)
Definition xgcd_laws (R : ring_ops) (xgcd : T R -> T R -> T R * T R * T R) : Prop :=
  forall a b : T R, let '(g, x, y) := xgcd a b in is_gcd g a b /\ g == x * a + y * b.

(* the element z.1 for an integer z *)
Definition zmul {R : ring_ops} (z : Z) : T R :=
  match z with Z0 => r0 | Zpos p => nmul (Pos.to_nat p) r1 | Zneg p => - nmul (Pos.to_nat p) r1 end.
Definition char_zero (R : ring_ops) : Prop := forall n : nat, @nmul R n r1 == r0 -> n = O.
