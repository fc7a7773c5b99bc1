(* Model of the `sets` crate: sets/src/subset.rs, sets/src/partition.rs, sets/src/combinations.rs *)
From Coq Require Import List Arith Bool.
From Verif Require Import SetsSpec. (* only for the type `op` of histories *)
Import ListNotations.

(* ---------------------------------------------------------------- subset.rs *)

(* sets/src/subset.rs l.2-22 `subsets`. usize subtraction n-first-1 cannot underflow (first < n). *)
Fixpoint subsets_k (k n : nat) : list (list nat) :=
  match k with
  | 0 => [[]]                                            (* l.3-4 *)
  | S k' =>
      if n <? k then []                                  (* l.5-6  k > n *)
      else flat_map (fun first =>                        (* l.11 *)
             map (fun rest => first :: map (fun r => r + first + 1) rest)   (* l.13-16 *)
                 (subsets_k k' (n - first - 1)))         (* l.12 *)
           (seq 0 n)
  end.
Definition subsets (n k : nat) := subsets_k k n.

(* items[idx] for each idx; None = index out of bounds panic *)
Fixpoint index_all {T} (items : list T) (idxs : list nat) : option (list T) :=
  match idxs with
  | [] => Some []
  | i :: is_ => match nth_error items i, index_all items is_ with
                | Some x, Some xs => Some (x :: xs)
                | _, _ => None
                end
  end.

(* sets/src/subset.rs l.24-29 `subsets_vec`; None = panic *)
Fixpoint map_index_all {T} (items : list T) (ss : list (list nat)) : option (list (list T)) :=
  match ss with
  | [] => Some []
  | s :: ss' => match index_all items s, map_index_all items ss' with
                | Some x, Some xs => Some (x :: xs)
                | _, _ => None
                end
  end.
Definition subsets_vec {T} (items : list T) (k : nat) : option (list (list T)) :=
  map_index_all items (subsets (length items) k).

(* ---------------------------------------------------------------- partition.rs *)

(* sets/src/partition.rs l.1-8 `PartitionIterator` (the predicate is a separate argument) *)
Inductive pit := PIt (n x first min : nat) (rest : option pit).

(* l.11-20 *)
Definition pit_new (n x : nat) : pit := PIt n x 1 1 None.

(* l.23-88 `next`. Fuel bounds the recursion depth; None = out of fuel (excluded by the theorems).
   The inner Option is the Rust Option. *)
Fixpoint pit_next (fuel : nat) (p : nat -> bool) (it : pit) : option (option (list nat) * pit) :=
  match fuel with
  | 0 => None
  | S fuel' =>
    match it with PIt n x first min rest =>
      if n <? x then Some (None, it)                                        (* l.27-28 *)
      else if (n =? 0) && (x =? 0) then                                     (* l.29-36 *)
        if first =? 1 then Some (Some [], PIt n x (first + 1) min rest)
        else Some (None, it)
      else if (n =? 0) || (x =? 0) then Some (None, it)                     (* l.37-39 *)
      else if x =? 1 then                                                   (* l.40-50 *)
        if first <=? n then
          if p n then Some (Some [n], PIt n x (n + 1) min rest)
          else Some (None, PIt n x (n + 1) min rest)
        else Some (None, it)
      else
        if n <? first then Some (None, it)                                  (* l.52-54 *)
        else
          let r := match rest with                                          (* l.56-65 *)
                   | None => PIt (n - first) (x - 1) first (min + 1) None
                   | Some r => r
                   end in
          if negb (p first) then                                            (* l.67-71 *)
            pit_next fuel' p (PIt n x (first + 1) min None)
          else
            match pit_next fuel' p r with                                   (* l.73-86 *)
            | None => None
            | Some (Some part, r') => Some (Some (first :: part), PIt n x first min (Some r'))
            | Some (None, _) => pit_next fuel' p (PIt n x (first + 1) min None)
            end
    end
  end.

(* a depth that always suffices (proved) *)
Definition pit_fuel (it : pit) : nat :=
  match it with PIt n x _ _ _ => S x * (n + 3) end.

(* the answers of m successive calls to next(); None = some call failed to terminate within the depth bound *)
Fixpoint pit_calls (m : nat) (p : nat -> bool) (it : pit) : option (list (option (list nat))) :=
  match m with
  | 0 => Some []
  | S m' => match pit_next (pit_fuel it) p it with
            | None => None
            | Some (o, it') => match pit_calls m' p it' with
                               | None => None
                               | Some os => Some (o :: os)
                               end
            end
  end.

(* collecting: all items up to the first None, calling next at most `m` times; None if it is not exhausted by then *)
Fixpoint pit_collect (m : nat) (p : nat -> bool) (it : pit) : option (list (list nat)) :=
  match m with
  | 0 => None
  | S m' => match pit_next (pit_fuel it) p it with
            | None => None
            | Some (None, _) => Some []
            | Some (Some s, it') => match pit_collect m' p it' with
                                    | None => None
                                    | Some ss => Some (s :: ss)
                                    end
            end
  end.

(* l.90-96 *)
Definition predicated_partitions_sized (m n x : nat) (p : nat -> bool) := pit_collect m p (pit_new n x).
(* l.98-105: the closure |k| predicate(k - 1); k >= 1 always. Items are shifted back by one. *)
Definition predicated_partitions_sized_zero (m n x : nat) (p : nat -> bool) :=
  match pit_collect m (fun k => p (k - 1)) (pit_new (n + x) x) with
  | None => None
  | Some l => Some (map (map (fun k => k - 1)) l)
  end.
(* l.107-112: (1..n+1).flat_map(...) *)
Fixpoint concat_opt {A} (l : list (option (list A))) : option (list A) :=
  match l with
  | [] => Some []
  | None :: _ => None
  | Some a :: l' => match concat_opt l' with None => None | Some b => Some (a ++ b) end
  end.
Definition predicated_partitions (m n : nat) (p : nat -> bool) : option (list (list nat)) :=
  concat_opt (map (fun x => predicated_partitions_sized m n x p) (seq 1 n)).

(* ---------------------------------------------------------------- combinations.rs *)

(* sets/src/combinations.rs l.3-9 *)
Record comb := Comb {
  c_n : nat;
  c_idx : list (option nat);   (* all_items_idx *)
  c_items : list nat;          (* remaining_items *)
  c_subset : list nat;
  c_finished : bool
}.

(* l.12-20 *)
Definition comb_new (n k : nat) : comb :=
  Comb n (map Some (seq 0 n)) (seq 0 n) (seq 0 k) (n <=? k).

(* `a - b` on usize in a debug build: None = panic *)
Definition usub (a b : nat) : option nat := if a <? b then None else Some (a - b).

(* list update, None = index out of bounds panic *)
Fixpoint upd {A} (l : list A) (i : nat) (v : A) : option (list A) :=
  match l, i with
  | [], _ => None
  | _ :: t, 0 => Some (v :: t)
  | h :: t, S i' => match upd t i' v with None => None | Some t' => Some (h :: t') end
  end.

(* l.82-89 the 'FIND_I search over `subset.iter().rev().enumerate()`; outer None = panic (underflow) *)
Fixpoint find_i (n : nat) (i : nat) (rev_subset : list nat) : option (option nat) :=
  match rev_subset with
  | [] => Some None
  | s :: rest =>
      match usub n i with
      | None => None
      | Some d => match usub d 1 with
                  | None => None
                  | Some d' => if s <? d' then Some (Some i) else find_i n (S i) rest
                  end
      end
  end.

(* l.93-95  for j in 0..i { subset[k-i+j] = subset[k-i-1] + 1 + j }
   (k-i-1 is outside the written range, so its value is read once and for all) *)
Fixpoint fill (k i base : nat) (js : list nat) (s : list nat) : option (list nat) :=
  match js with
  | [] => Some s
  | j :: js' => match upd s (k - i + j) (base + 1 + j) with
                | None => None
                | Some s' => fill k i base js' s'
                end
  end.

(* l.70-101 `next`; None = panic *)
Definition comb_next (c : comb) : option (option (list nat) * comb) :=
  match (if c_finished c then Some None
         else match index_all (c_items c) (c_subset c) with
              | None => None | Some l => Some (Some l) end) with           (* l.71-79 *)
  | None => None
  | Some out =>
      let k := length (c_subset c) in
      match find_i (c_n c) 0 (rev (c_subset c)) with
      | None => None
      | Some (Some i) =>                                                   (* l.91-96 *)
          match nth_error (c_subset c) (k - 1 - i) with
          | None => None
          | Some v =>
              match upd (c_subset c) (k - 1 - i) (v + 1) with
              | None => None
              | Some s1 => match fill k i (v + 1) (seq 0 i) s1 with
                           | None => None
                           | Some s2 => Some (out, Comb (c_n c) (c_idx c) (c_items c) s2 (c_finished c))
                           end
              end
          end
      | Some None => Some (out, Comb (c_n c) (c_idx c) (c_items c) (c_subset c) true)   (* l.97-99 *)
      end
  end.

(* l.30 subset.iter().any(|x| remaining_items[x] == a); None = panic *)
Fixpoint any_is (items : list nat) (a : nat) (subset : list nat) : option bool :=
  match subset with
  | [] => Some false
  | x :: rest => match nth_error items x with
                 | None => None
                 | Some y => if y =? a then Some true else any_is items a rest
                 end
  end.

(* l.30-37 the while loop; fuel bounds the number of iterations. Outer None = panic or out of fuel *)
Fixpoint skip_containing (fuel : nat) (a : nat) (c : comb) : option comb :=
  match fuel with
  | 0 => None
  | S fuel' =>
      match any_is (c_items c) a (c_subset c) with
      | None => None
      | Some false => Some c
      | Some true => match comb_next c with
                     | None => None
                     | Some (None, c') => Some c'                           (* break *)
                     | Some (Some _, c') => skip_containing fuel' a c'
                     end
      end
  end.

(* Vec::remove *)
Fixpoint remove_at {A} (l : list A) (i : nat) : option (list A) :=
  match l, i with
  | [], _ => None
  | _ :: t, 0 => Some t
  | h :: t, S i' => match remove_at t i' with None => None | Some t' => Some (h :: t') end
  end.

(* l.42-49  for i in (a+1)..len: decrement; None = underflow panic *)
Fixpoint dec_after (a : nat) (i : nat) (l : list (option nat)) : option (list (option nat)) :=
  match l with
  | [] => Some []
  | o :: t =>
      match (if a <? i then
               match o with
               | None => Some None
               | Some idx => match usub idx 1 with None => None | Some d => Some (Some d) end
               end
             else Some o), dec_after a (S i) t with
      | Some o', Some t' => Some (o' :: t')
      | _, _ => None
      end
  end.

(* l.50-60; None = unreachable!() reached *)
Fixpoint shift_subset (a_idx : nat) (s : list nat) : option (list nat) :=
  match s with
  | [] => Some []
  | x :: t => match (if x <? a_idx then Some x else if x =? a_idx then None else Some (x - 1)),
                    shift_subset a_idx t with
              | Some x', Some t' => Some (x' :: t')
              | _, _ => None
              end
  end.

(* l.23-65 `exclude`; None = panic or loop out of fuel *)
Definition comb_exclude (fuel : nat) (a : nat) (c : comb) : option comb :=
  match nth_error (c_idx c) a with
  | None => None                                                            (* l.24 assert *)
  | Some None => Some c                                                     (* l.25-28 *)
  | Some (Some _) =>
      match skip_containing fuel a c with
      | None => None
      | Some c1 =>
          if c_finished c1 then Some c1                                     (* l.39 *)
          else
            match nth_error (c_idx c1) a with
            | Some (Some a_idx) =>
                match remove_at (c_items c1) a_idx, upd (c_idx c1) a None with
                | Some items', Some idx1 =>
                    match dec_after a 0 idx1, shift_subset a_idx (c_subset c1), usub (c_n c1) 1 with
                    | Some idx2, Some s', Some n' => Some (Comb n' idx2 items' s' (c_finished c1))
                    | _, _, _ => None
                    end
                | _, _ => None
                end
            | _ => None                                                     (* unwrap on None *)
            end
      end
  end.

(* a history of calls; one answer per `next`. None = a panic or a non-terminating exclude *)
Fixpoint comb_run (fuel : nat) (c : comb) (ops : list op) : option (list (option (list nat))) :=
  match ops with
  | [] => Some []
  | Next :: ops' => match comb_next c with
                     | None => None
                     | Some (o, c') => match comb_run fuel c' ops' with
                                       | None => None
                                       | Some os => Some (o :: os)
                                       end
                     end
  | Exclude a :: ops' => match comb_exclude fuel a c with
                          | None => None
                          | Some c' => comb_run fuel c' ops'
                          end
  end.
