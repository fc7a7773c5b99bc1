(* Model of groups/src/composition_table/{group,subset,subgroup,normal_subgroup,partition,generating_set,homomorphism}.rs.
   Elements of a composition table are the usize 0..n-1 (nat).  BTreeSet<usize> = strictly ascending list.
   HashSet/HashMap iteration order is arbitrary: `pick` stands for an arbitrary choice function `set.iter().next()`.
   None = panic or out of fuel; Some None / Some false = Err/None as said per function. *)
From Coq Require Import List Arith Bool.
From Verif Require Import GroupModel.
Import ListNotations.

(* ---------- BTreeSet<usize> *)
Fixpoint set_insert (x : nat) (l : list nat) : list nat :=
  match l with
  | [] => [x]
  | y :: l' => if x <? y then x :: l else if Nat.eqb x y then l else y :: set_insert x l'
  end.
Definition to_set (l : list nat) : list nat := fold_left (fun s x => set_insert x s) l [].
Definition has (x : nat) (l : list nat) : bool := existsb (Nat.eqb x) l.
Definition remove_all (l missing : list nat) : list nat := filter (fun y => negb (has y l)) missing.

(* ---------- group.rs *)
(* l.146-156.  The Rust indexing panics out of range; the model returns 0 there.  Every theorem is about elements < n of valid tables,
   for which all the indices are in range. *)
Definition mulT (t : table) (x y : nat) : nat := nth y (nth x (tmuls t) []) 0.
Definition invT (t : table) (x : nat) : nat := nth x (tinv t) 0.
Definition elemsT (t : table) : list nat := seq 0 (tn t).

(* l.23-76 check_state of a table without cached data: Some true = Ok, Some false = Err, None = index out of bounds *)
Fixpoint allM (f : nat -> option bool) (l : list nat) : option bool :=
  match l with [] => Some true | x :: l' => match f x with Some true => allM f l' | r => r end end.
Definition mulE (t : table) (x y : nat) : option nat := match nth_error (tmuls t) x with None => None | Some r => nth_error r y end.
Definition eqE (a b : option nat) : option bool := match a, b with Some x, Some y => Some (Nat.eqb x y) | _, _ => None end.
Definition andE (a b : option bool) : option bool := match a with Some true => b | r => r end.
Definition bindE {B} (a : option nat) (f : nat -> option B) : option B := match a with Some x => f x | None => None end.
Definition check_state (t : table) : option bool :=
  let n := tn t in
  if negb (tident t <? n) then Some false
  else if negb (length (tinv t) =? n) then Some false
  else if negb (forallb (fun x => x <? n) (tinv t)) then Some false
  else if negb (length (tmuls t) =? n) then Some false
  else if negb (forallb (fun m => (length m =? n) && forallb (fun x => x <? n) m) (tmuls t)) then Some false
  else andE (allM (fun x => andE (eqE (Some x) (mulE t x (tident t))) (eqE (Some x) (mulE t (tident t) x))) (seq 0 n))
      (andE (allM (fun x => bindE (nth_error (tinv t) x) (fun ix => andE (eqE (Some (tident t)) (mulE t ix x)) (eqE (Some (tident t)) (mulE t x ix)))) (seq 0 n))
            (allM (fun x => allM (fun y => allM (fun z =>
               bindE (mulE t y z) (fun yz => bindE (mulE t x y) (fun xy => eqE (mulE t x yz) (mulE t xy z)))) (seq 0 n)) (seq 0 n)) (seq 0 n))).
(* l.105-126 Group::new: Some (Some t) = Ok, Some None = Err *)
Definition group_new (n ident : nat) (inv : list nat) (mul : list (list nat)) : option (option table) :=
  let t := mkTable n ident inv mul in
  match check_state t with None => None | Some true => Some (Some t) | Some false => Some None end.

(* l.158-207 from_raw_model_unchecked.  idx_map: later duplicates overwrite earlier ones, so the lookup is by last occurrence. *)
Fixpoint idx_build {A} (i : nat) (elems : list A) (m : list (A * nat)) : list (A * nat) :=
  match elems with [] => m | x :: es => idx_build (S i) es ((x, i) :: m) end.
Definition from_raw_model_unchecked {A} (eqb : A -> A -> bool) (elems : list A) (ident : A) (inv : A -> A) (mul : A -> A -> A) : option table :=
  let idx := idx_build 0 elems [] in
  match lookup eqb ident idx with
  | None => None
  | Some e =>
      match collect (map (fun x => lookup eqb (inv x) idx) elems), collect (map (fun x => collect (map (fun y => lookup eqb (mul x y) idx) elems)) elems) with
      | Some iv, Some m => Some (mkTable (length elems) e iv m)
      | _, _ => None
      end
  end.
(* l.158-170 *)
Definition from_raw_model {A} (eqb : A -> A -> bool) (elems : list A) (ident : A) (inv : A -> A) (mul : A -> A -> A) : option (option table) :=
  match from_raw_model_unchecked eqb elems ident inv mul with
  | None => None
  | Some t => match check_state t with None => None | Some true => Some (Some t) | Some false => Some None end
  end.
(* l.217-226 mul_many *)
Definition mul_many (t : table) (l : list nat) : nat :=
  match l with [] => tident t | x :: l' => fold_left (mulT t) l' x end.
(* l.228-241 order; Some None = Err *)
Fixpoint order_loop (fuel : nat) (t : table) (x y ord : nat) : option nat :=
  match fuel with
  | 0 => None
  | S fuel' => if Nat.eqb y (tident t) then Some ord else order_loop fuel' t x (mulT t x y) (ord + 1)
  end.
Definition order (fuel : nat) (t : table) (x : nat) : option (option nat) :=
  if negb (x <? tn t) then Some None else match order_loop fuel t x x 1 with None => None | Some k => Some (Some k) end.
(* l.243-252 *)
Definition compute_is_abelian (t : table) : bool :=
  forallb (fun x => forallb (fun y => Nat.eqb (mulT t x y) (mulT t y x)) (seq 0 x)) (seq 0 (tn t)).
(* l.366-402 direct_product_structure *)
Definition direct_product (a b : table) : table :=
  let m := tn a in let n := tn b in
  let pair_to_single i j := i + j * m in
  mkTable (m * n) (pair_to_single (tident a) (tident b))
    (map (fun x => pair_to_single (invT a (x mod m)) (invT b (x / m))) (seq 0 (m * n)))
    (map (fun x => map (fun y => pair_to_single (mulT a (x mod m) (y mod m)) (mulT b (x / m) (y / m))) (seq 0 (m * n))) (seq 0 (m * n))).
(* l.413-422 *)
Definition cyclic_group (n : nat) : option table :=
  from_raw_model_unchecked Nat.eqb (seq 0 n) 0 (fun x => (n - x) mod n) (fun x y => (x + y) mod n).

(* ---------- partition.rs: PartitionState = (classes, lookup) *)
Definition partition := (list (list nat) * list nat)%type.
Fixpoint set_at (l : list nat) (i v : nat) : list nat :=
  match l, i with [], _ => [] | _ :: t, 0 => v :: t | h :: t, S i' => h :: set_at t i' v end.
(* the common loop of group.rs l.266-283 (conjugacy classes) and subgroup.rs l.80-96, l.102-118 (cosets) *)
Fixpoint part_loop (fuel : nat) (pick : list nat -> nat) (class : nat -> list nat) (missing : list nat) (classes : list (list nat)) (lookup : list nat) : option partition :=
  match fuel with
  | 0 => None
  | S fuel' =>
      match missing with
      | [] => Some (classes, lookup)
      | _ => let cl := class (pick missing) in
             part_loop fuel' pick class (remove_all cl missing) (classes ++ [cl]) (fold_left (fun l h => set_at l h (length classes)) cl lookup)
      end
  end.
Definition part_run (pick : list nat -> nat) (class : nat -> list nat) (n : nat) : option partition :=
  part_loop (S n) pick class (seq 0 n) [] (repeat 0 n).
(* l.49-51 *)
Definition project (p : partition) (x : nat) : list nat := nth (nth x (snd p) 0) (fst p) [].
(* l.13-44 PartitionState::check_state (only the size of the group is used) *)
Fixpoint ps_class (l acc : list nat) : option (list nat) :=
  match l with [] => Some acc | x :: l' => if has x acc then None else ps_class l' (x :: acc) end.
Fixpoint ps_classes (cs : list (list nat)) (acc : list nat) : option (list nat) :=
  match cs with
  | [] => Some acc
  | c :: cs' => if length c =? 0 then None else match ps_class c acc with None => None | Some acc' => ps_classes cs' acc' end
  end.
Definition ps_check (n : nat) (p : partition) : bool :=
  match ps_classes (fst p) [] with
  | None => false
  | Some acc =>
      (length acc =? n) && (length (snd p) =? n) &&
      forallb (fun i => let k := nth i (snd p) 0 in (k <? length (fst p)) && has i (nth k (fst p) [])) (seq 0 (length (snd p)))
  end.
(* l.63-88 Partition::eq for two partitions of the same group of n elements *)
Fixpoint peq_loop (is_ : list nat) (la lb : list nat) (f : list (option nat)) : bool :=
  match is_ with
  | [] => true
  | i :: is' =>
      match nth (nth i la 0) f None with
      | Some k => if Nat.eqb k (nth i lb 0) then peq_loop is' la lb f else false
      | None => peq_loop is' la lb
          ((fix upd (g : list (option nat)) (j : nat) := match g, j with [], _ => [] | _ :: t, 0 => Some (nth i lb 0) :: t | h :: t, S j' => h :: upd t j' end) f (nth i la 0))
      end
  end.
Definition partition_eq (n : nat) (a b : partition) : bool :=
  (length (fst a) =? length (fst b)) && peq_loop (seq 0 n) (snd a) (snd b) (repeat None (length (fst a))).
(* l.141-163 Partition::from_subsets; None = Err *)
Definition from_subsets (n : nat) (subsets : list (list nat)) : option partition :=
  if forallb (forallb (fun x => x <? n)) subsets then
    let lookup := snd (fold_left (fun kl cl => (S (fst kl), fold_left (fun l h => set_at l h (fst kl)) cl (snd kl))) subsets (0, repeat 0 n)) in
    if ps_check n (subsets, lookup) then Some (subsets, lookup) else None
  else None.

(* ---------- group.rs l.266-283 *)
Definition conj_class (t : table) (x : nat) : list nat := to_set (map (fun g => mulT t (mulT t g x) (invT t g)) (elemsT t)).
Definition conjugacy_classes (pick : list nat -> nat) (t : table) : option partition := part_run pick (conj_class t) (tn t).

(* ---------- subset.rs *)
(* l.38-46 add_elem; None = Err *)
Definition add_elem_s (t : table) (s : list nat) (x : nat) : option (list nat) :=
  if has x s then Some s else if negb (x <? tn t) then None else Some (set_insert x s).
(* l.48-66; None = Err *)
Definition left_mul (t : table) (s : list nat) (g : nat) : option (list nat) :=
  if negb (g <? tn t) then None else Some (to_set (map (fun h => mulT t g h) s)).
Definition right_mul (t : table) (s : list nat) (g : nat) : option (list nat) :=
  if negb (g <? tn t) then None else Some (to_set (map (fun h => mulT t h g) s)).
(* l.68-77 *)
Definition subset_is_subgroup (t : table) (s : list nat) : bool :=
  forallb (fun x => forallb (fun y => has (mulT t x y) s) s) s.
(* l.88-118; Some None = Err *)
Definition generated_subgroup (fuel : nat) (t : table) (s : list nat) : option (option (list nat)) :=
  if negb (forallb (fun g => g <? tn t) s) then Some None
  else match bfs Nat.eqb (tident t) fuel (fun x => map (mulT t x) s) with None => None | Some sg => Some (Some (to_set sg)) end.
(* l.120-153; Some None = Err *)
Definition normal_closure (fuel : nat) (pick : list nat -> nat) (t : table) (s : list nat) : option (option (list nat)) :=
  if negb (forallb (fun g => g <? tn t) s) then Some None
  else match conjugacy_classes pick t with
       | None => None
       | Some cj =>
           match bfs Nat.eqb (tident t) fuel (fun x => flat_map (fun g => project cj (mulT t x g)) s) with
           | None => None | Some sg => Some (Some (to_set sg))
           end
       end.

(* ---------- subgroup.rs *)
(* l.47-76 to_group *)
Fixpoint pos_of (x : nat) (l : list nat) : option nat :=
  match l with [] => None | y :: l' => if Nat.eqb x y then Some 0 else option_map S (pos_of x l') end.
Definition to_group (t : table) (s : list nat) : option table :=
  match pos_of (tident t) s, collect (map (fun x => pos_of (invT t x) s) s), collect (map (fun x => collect (map (fun y => pos_of (mulT t x y) s) s)) s) with
  | Some e, Some iv, Some m => Some (mkTable (length s) e iv m)
  | _, _, _ => None
  end.
(* l.78-120 *)
Definition left_cosets (pick : list nat -> nat) (t : table) (s : list nat) : option partition :=
  part_run pick (fun g => to_set (map (fun h => mulT t g h) s)) (tn t).
Definition right_cosets (pick : list nat -> nat) (t : table) (s : list nat) : option partition :=
  part_run pick (fun g => to_set (map (fun h => mulT t h g) s)) (tn t).
(* l.122-138 *)
Definition is_normal_subgroup (t : table) (s : list nat) : bool :=
  forallb (fun x => forallb (fun g => has (mulT t (mulT t g x) (invT t g)) s) (elemsT t)) s.

(* ---------- partition.rs l.113-139 *)
Definition is_left_cosets (pick : list nat -> nat) (t : table) (p : partition) : option bool :=
  let cl := project p (tident t) in
  if subset_is_subgroup t cl then match left_cosets pick t cl with None => None | Some q => Some (partition_eq (tn t) q p) end else Some false.
Definition is_right_cosets (pick : list nat -> nat) (t : table) (p : partition) : option bool :=
  let cl := project p (tident t) in
  if subset_is_subgroup t cl then match right_cosets pick t cl with None => None | Some q => Some (partition_eq (tn t) q p) end else Some false.
Definition is_congruence (pick pick' : list nat -> nat) (t : table) (p : partition) : option bool :=
  andE (is_left_cosets pick t p) (is_right_cosets pick' t p).
(* l.191-227 quotient_group *)
Definition quotient_group (t : table) (p : partition) : table :=
  let n := length (fst p) in
  let rep i := hd 0 (nth i (fst p) []) in          (* classes[i].iter().next().unwrap() *)
  mkTable n (nth (tident t) (snd p) 0)
    (map (fun i => nth (invT t (rep i)) (snd p) 0) (seq 0 n))
    (map (fun i => map (fun j => nth (mulT t (rep i) (rep j)) (snd p) 0) (seq 0 n)) (seq 0 n)).
(* normal_subgroup.rs l.39-47 *)
Definition normal_quotient (pick : list nat -> nat) (t : table) (s : list nat) : option table :=
  match left_cosets pick t s with None => None | Some p => Some (quotient_group t p) end.
