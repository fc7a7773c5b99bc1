(* Model of groups/src/group.rs (trait Group with its default methods).
   A type implementing the trait is given by identity, inverse, compose and ==.  None = panic or out of fuel. *)
From Coq Require Import List Arith NArith ZArith Bool.
Import ListNotations.

Section Grp.
Context {A : Type} (eqb : A -> A -> bool) (e : A) (inv : A -> A) (op : A -> A -> A).

(* l.36-42 *)
Definition compose_list (elems : list A) : A := fold_left op elems e.

(* Natural::bits(): least significant first *)
Fixpoint pbits (p : positive) : list bool :=
  match p with xH => [true] | xO p' => false :: pbits p' | xI p' => true :: pbits p' end.
Definition nbits (n : N) : list bool := match n with N0 => [] | Npos p => pbits p end.
(* l.52-58: pows = [self]; while pows.len() < bits.len() push(last*last) *)
Fixpoint gsquares (extra : nat) (last : A) : list A :=
  last :: match extra with 0 => [] | S k => gsquares k (op last last) end.
(* l.61-66 *)
Fixpoint gpow_loop (bs : list bool) (pows : list A) (ans : A) : A :=
  match bs, pows with
  | b :: bs', p :: ps => gpow_loop bs' ps (if b then op ans p else ans)
  | _, _ => ans
  end.
(* l.44-69 *)
Definition grp_nat_pow (x : A) (n : N) : A :=
  if N.eqb n 0 then e else if N.eqb n 1 then x
  else gpow_loop (nbits n) (gsquares (length (nbits n) - 1) x) e.
(* l.71-79 *)
Definition grp_int_pow (x : A) (n : Z) : A :=
  if (n =? 0)%Z then e else if (0 <? n)%Z then grp_nat_pow x (Z.abs_N n) else inv (grp_nat_pow x (Z.abs_N (- n))).

(* ---------- breadth-first closure: l.149-181 (generated_finite_subgroup), composition_table/subset.rs l.89-117 (generated_subgroup)
   and l.128-152 (normal_closure).  `step x` lists, in the order of the inner loops, the elements computed from a boundary element x.
   The set sg is kept as the list of its elements, newest first. *)
Definition mem (x : A) (l : list A) : bool := existsb (eqb x) l.
Fixpoint bfs_ys (ys : list A) (sg next : list A) : list A * list A :=
  match ys with
  | [] => (sg, next)
  | y :: ys' => if mem y sg then bfs_ys ys' sg next else bfs_ys ys' (y :: sg) (next ++ [y])
  end.
Fixpoint bfs_xs (step : A -> list A) (xs : list A) (sg next : list A) : list A * list A :=
  match xs with
  | [] => (sg, next)
  | x :: xs' => let '(sg', next') := bfs_ys (step x) sg next in bfs_xs step xs' sg' next'
  end.
Fixpoint bfs_loop (fuel : nat) (step : A -> list A) (boundary sg : list A) : option (list A) :=
  match fuel with
  | 0 => None
  | S fuel' =>
      match boundary with
      | [] => Some sg
      | _ => let '(sg', next) := bfs_xs step boundary sg [] in bfs_loop fuel' step next sg'
      end
  end.
Definition bfs (fuel : nat) (step : A -> list A) : option (list A) := bfs_loop fuel step [e] [e].
(* l.149-181; FiniteSubgroup.elems = the set collected in arbitrary order *)
Definition generated_finite_subgroup (fuel : nat) (gens : list A) : option (list A) := bfs fuel (fun x => map (op x) gens).

(* ---------- generated_finite_subgroup_table l.81-147 *)
Record tstate := mkT {
  elems : list A;                          (* idx_to_elem *)
  index : list (A * nat);                  (* elem_to_idx, as an association list *)
  tmul : list (list (option nat));         (* mul *)
  todo : list (nat * nat);                 (* to_mul: top of the stack first *)
}.
Fixpoint lookup (x : A) (l : list (A * nat)) : option nat :=
  match l with [] => None | (y, k) :: l' => if eqb x y then Some k else lookup x l' end.
(* l.113-117: for i in 0..k { mul[i].push(None); to_mul.push((i,k)); to_mul.push((k,i)) } *)
Fixpoint push_pairs (i n k : nat) (st : list (nat * nat)) : list (nat * nat) :=
  match n with 0 => st | S n' => push_pairs (S i) n' k ((k, i) :: (i, k) :: st) end.
(* macro add_elem! l.101-125.  The debug assertions are not modelled (they hold by the invariant proved). *)
Definition add_elem (x : A) (s : tstate) : nat * tstate :=
  match lookup x (index s) with
  | None =>
      let k := length (index s) in
      (k, mkT (elems s ++ [x]) ((x, k) :: index s)
              (map (fun m => m ++ [None]) (tmul s) ++ [repeat None (k + 1)])
              ((k, k) :: push_pairs 0 k k (todo s)))
  | Some k => (k, s)
  end.
Fixpoint add_gens (gens : list A) (s : tstate) : tstate :=
  match gens with [] => s | g :: gs => add_gens gs (snd (add_elem g s)) end.
(* mul[i][j] = Some(k); None = out of bounds *)
Fixpoint upd {B} (l : list B) (i : nat) (f : B -> option B) : option (list B) :=
  match l, i with
  | [], _ => None
  | x :: t, 0 => match f x with None => None | Some y => Some (y :: t) end
  | x :: t, S i' => match upd t i' f with None => None | Some t' => Some (x :: t') end
  end.
Definition set2 (m : list (list (option nat))) (i j k : nat) : option (list (list (option nat))) :=
  upd m i (fun row => upd row j (fun _ => Some (Some k))).
(* l.131-136 *)
Fixpoint table_loop (fuel : nat) (s : tstate) : option tstate :=
  match fuel with
  | 0 => None
  | S fuel' =>
      match todo s with
      | [] => Some s
      | (i, j) :: rest =>
          match nth_error (elems s) i, nth_error (elems s) j with
          | Some x, Some y =>
              let '(k, s') := add_elem (op x y) (mkT (elems s) (index s) (tmul s) rest) in
              match set2 (tmul s') i j k with
              | None => None
              | Some m => table_loop fuel' (mkT (elems s') (index s') m (todo s'))
              end
          | _, _ => None
          end
      end
  end.
Fixpoint collect {B} (l : list (option B)) : option (list B) :=
  match l with
  | [] => Some []
  | None :: _ => None
  | Some x :: l' => match collect l' with None => None | Some r => Some (x :: r) end
  end.
End Grp.
Arguments mkT {A}. Arguments elems {A}. Arguments index {A}. Arguments tmul {A}. Arguments todo {A}.

(* composition_table/group.rs l.12-20.  The caches conjugacy_classes, is_abelian, is_simple are not part of the model (None everywhere). *)
Record table := mkTable { tn : nat; tident : nat; tinv : list nat; tmuls : list (list nat) }.

Section Grp2.
Context {A : Type} (eqb : A -> A -> bool) (e : A) (inv : A -> A) (op : A -> A -> A).
(* l.81-147; the result is (table, idx_to_elem, elem_to_idx) *)
Definition generated_table (fuel : nat) (gens : list A) : option (table * list A * list (A * nat)) :=
  let s0 := add_gens eqb gens (snd (add_elem eqb e (mkT [] [] [] []))) in
  match table_loop eqb op fuel s0 with
  | None => None
  | Some s =>
      match collect (map collect (tmul s)), collect (map (fun x => lookup eqb (inv x) (index s)) (elems s)) with
      | Some m, Some iv => Some (mkTable (length (elems s)) 0 iv m, elems s, index s)
      | _, _ => None
      end
  end.
End Grp2.
