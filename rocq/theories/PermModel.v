(* Model of groups/src/permutation.rs, groups/src/examples/c2.rs and groups/src/examples/symmetric.rs.
   A vector of usize is a list nat; None = panic unless said otherwise. *)
From Coq Require Import List Arith Bool.
Import ListNotations.

(* ---------- examples/c2.rs l.3-28 *)
Inductive C2 := Identity | Flip.
Definition c2_compose (a b : C2) : C2 := match b with Identity => a | Flip => match a with Identity => Flip | Flip => Identity end end.
Definition c2_inverse (a : C2) : C2 := a.

(* ---------- permutation.rs *)
(* l.59-68: pop trailing fixed points *)
Fixpoint reduced_fuel (fuel : nat) (perm : list nat) : list nat :=
  match fuel with
  | 0 => perm
  | S fuel' =>
      match perm with
      | [] => perm
      | _ => if Nat.eqb (last perm 0 + 1) (length perm) then reduced_fuel fuel' (removelast perm) else perm
      end
  end.
Definition reduced (perm : list nat) : list nat := reduced_fuel (length perm) perm.

(* Vec index assignment; None = out of bounds panic *)
Fixpoint vset {A} (l : list A) (i : nat) (v : A) : option (list A) :=
  match l, i with
  | [], _ => None
  | _ :: t, 0 => Some (v :: t)
  | h :: t, S i' => match vset t i' v with None => None | Some t' => Some (h :: t') end
  end.

(* l.71-88 (and symmetric.rs l.69-84): validity check.  Some true = Ok, Some false = Err, None = panic *)
Fixpoint mark (n : nat) (present : list bool) (perm : list nat) : option (option (list bool)) :=
  match perm with
  | [] => Some (Some present)
  | i :: rest => if negb (i <? n) then Some None
                 else match vset present i true with None => None | Some p => mark n p rest end
  end.
Definition valid_check (perm : list nat) : option bool :=
  match mark (length perm) (repeat false (length perm)) perm with
  | None => None
  | Some None => Some false
  | Some (Some present) => Some (forallb (fun b => b) present)
  end.
(* l.90-94 *)
Definition new_unchecked (perm : list nat) : list nat := reduced perm.
(* Ok(p) = Some (Some p), Err = Some None *)
Definition perm_new (perm : list nat) : option (option (list nat)) :=
  match valid_check perm with
  | None => None | Some false => Some None | Some true => Some (Some (new_unchecked perm))
  end.
(* l.96-98 *)
Definition perm_n (p : list nat) : nat := length p.
(* l.100-105 *)
Definition call (p : list nat) (x : nat) : nat := match nth_error p x with Some y => y | None => x end.
(* l.107-117 *)
Fixpoint sign_inner (p : list nat) (i : nat) (js : list nat) (s : C2) : C2 :=
  match js with
  | [] => s
  | j :: js' => sign_inner p i js' (if xorb (i <? j) (call p i <? call p j) then c2_compose s Flip else s)
  end.
Fixpoint sign_outer (p : list nat) (is_ : list nat) (s : C2) : C2 :=
  match is_ with
  | [] => s
  | i :: is' => sign_outer p is' (sign_inner p i (seq 0 i) s)
  end.
Definition sign (p : list nat) : C2 := sign_outer p (seq 0 (length p)) Identity.

(* l.127-134: the inner loop, collecting the cycle of x; None = panic or out of fuel *)
Fixpoint cycle_loop (fuel : nat) (p : list nat) (x i : nat) : option (list nat) :=
  match fuel with
  | 0 => None
  | S fuel' =>
      match nth_error p i with
      | None => None
      | Some i' => if Nat.eqb i' x then Some [i]
                   else match cycle_loop fuel' p x i' with None => None | Some c => Some (i :: c) end
      end
  end.
(* l.119-140 (and symmetric.rs l.115-134).  `missing` is a HashSet of which only the minimum, the size and removal are used:
   modelled by the ascending list of its elements. *)
Fixpoint cycles_loop (fuel : nat) (p : list nat) (missing : list nat) : option (list (list nat)) :=
  match fuel with
  | 0 => None
  | S fuel' =>
      match missing with
      | [] => Some []
      | x :: _ =>
          match cycle_loop fuel' p x x with
          | None => None
          | Some c =>
              match cycles_loop fuel' p (filter (fun y => negb (existsb (Nat.eqb y) c)) missing) with
              | None => None
              | Some cs => Some (c :: cs)
              end
          end
      end
  end.
(* symmetric.rs l.115-134: all cycles *)
Definition disjoint_cycles_n (fuel : nat) (p : list nat) : option (list (list nat)) := cycles_loop fuel p (seq 0 (length p)).
(* permutation.rs l.135-137: only cycles of length >= 2 are kept *)
Definition disjoint_cycles (fuel : nat) (p : list nat) : option (list (list nat)) :=
  match cycles_loop fuel p (seq 0 (length p)) with
  | None => None
  | Some cs => Some (filter (fun c => 2 <=? length c) cs)
  end.
(* l.142-146; Vec<usize>::sort as insertion sort *)
Fixpoint insert_sorted (x : nat) (l : list nat) : list nat :=
  match l with [] => [x] | y :: l' => if x <=? y then x :: l else y :: insert_sorted x l' end.
Fixpoint sort (l : list nat) : list nat := match l with [] => [] | x :: l' => insert_sorted x (sort l') end.
Definition cycle_shape (fuel : nat) (p : list nat) : option (list nat) :=
  match disjoint_cycles fuel p with None => None | Some cs => Some (sort (map (@length nat) cs)) end.

(* l.198-200 *)
Definition perm_identity : list nat := [].
(* l.202-208 *)
Fixpoint inv_loop (perm : list nat) (i : nat) (inv_perm : list nat) : option (list nat) :=
  match perm with
  | [] => Some inv_perm
  | j :: rest => match vset inv_perm j i with None => None | Some v => inv_loop rest (S i) v end
  end.
Definition perm_inverse (p : list nat) : option (list nat) :=
  match inv_loop p 0 (repeat 0 (length p)) with None => None | Some v => Some (new_unchecked v) end.
(* l.210-217 *)
Definition perm_compose (a b : list nat) : list nat :=
  new_unchecked (map (fun i => call a (call b i)) (seq 0 (Nat.max (length a) (length b)))).

(* l.14-23 Cycle::new: Ok = Some *)
Fixpoint cycle_new_loop (present : list nat) (cyc : list nat) : bool :=
  match cyc with [] => true | i :: rest => if existsb (Nat.eqb i) present then false else cycle_new_loop (i :: present) rest end.
Definition cycle_new (cyc : list nat) : option (list nat) := if cycle_new_loop [] cyc then Some cyc else None.
(* l.34-45 From<Cycle> for Permutation *)
Fixpoint from_cycle_loop (cyc : list nat) (m : nat) (is_ : list nat) (perm : list nat) : option (list nat) :=
  match is_ with
  | [] => Some perm
  | i :: is' =>
      if Nat.eqb m 0 then None                               (* (i+1) % 0 panics *)
      else match nth_error cyc i, nth_error cyc ((i + 1) mod m) with
           | Some x, Some y => match vset perm x y with None => None | Some p' => from_cycle_loop cyc m is' p' end
           | _, _ => None
           end
  end.
Definition from_cycle (cyc : list nat) : option (list nat) :=
  let n := fold_left Nat.max cyc 0 in                         (* max().unwrap_or(&0) *)
  match from_cycle_loop cyc n (seq 0 (length cyc)) (seq 0 n) with
  | None => None | Some p => Some (new_unchecked p)
  end.

(* ---------- examples/symmetric.rs: Permutation<N> is a vector of length N, not reduced *)
(* l.15-24; outer None = panic (index >= N), inner None = Err *)
Fixpoint cycle_new_n_loop (present : list bool) (cyc : list nat) : option bool :=
  match cyc with
  | [] => Some true
  | i :: rest => match nth_error present i with
                 | None => None
                 | Some true => Some false
                 | Some false => match vset present i true with None => None | Some p => cycle_new_n_loop p rest end
                 end
  end.
Definition cycle_new_n (N : nat) (cyc : list nat) : option bool := cycle_new_n_loop (repeat false N) cyc.
(* l.31-43 *)
Definition from_cycle_n (N : nat) (cyc : list nat) : option (list nat) :=
  from_cycle_loop cyc (length cyc) (seq 0 (length cyc)) (seq 0 N).
(* l.199-223 *)
Definition identity_n (N : nat) : list nat := seq 0 N.
Definition inverse_n (p : list nat) : option (list nat) := inv_loop p 0 (repeat 0 (length p)).
(* self.perm[other.perm[i]] *)
Fixpoint compose_n (a b : list nat) : option (list nat) :=
  match b with
  | [] => Some []
  | y :: b' => match nth_error a y, compose_n a b' with Some z, Some l => Some (z :: l) | _, _ => None end
  end.
(* l.86-98 new_from_cycles; None = panic, Some None = Err *)
Fixpoint new_from_cycles_loop (N : nat) (ans : list nat) (cycles : list (list nat)) : option (list nat) :=
  match cycles with
  | [] => Some ans
  | c :: cs => match from_cycle_n N c with
               | None => None
               | Some p => match compose_n ans p with None => None | Some ans' => new_from_cycles_loop N ans' cs end
               end
  end.
Fixpoint check_cycles_n (N : nat) (cycles : list (list nat)) : option bool :=
  match cycles with
  | [] => Some true
  | c :: cs => match cycle_new_n N c with None => None | Some false => Some false | Some true => check_cycles_n N cs end
  end.
Definition new_from_cycles (N : nat) (cycles : list (list nat)) : option (option (list nat)) :=
  match check_cycles_n N cycles with
  | None => None
  | Some false => Some None
  | Some true => match new_from_cycles_loop N (identity_n N) cycles with None => None | Some p => Some (Some p) end
  end.
(* permutation.rs l.53-57 and symmetric.rs l.50-64 *)
Definition perm_of_n (p : list nat) : list nat := new_unchecked p.
Definition try_from_perm (N : nat) (p : list nat) : option (list nat) :=
  if N <? length p then None else Some (map (call p) (seq 0 N)).
