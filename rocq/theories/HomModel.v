(* Model of groups/src/composition_table/{generating_set,homomorphism}.rs and of Group::subgroups (group.rs l.308-364).
   None = panic or out of fuel.  `pick` = the arbitrary iteration order of a HashSet. *)
From Coq Require Import List Arith Bool.
From Verif Require Import GroupModel TableModel.
Import ListNotations.

(* ---------- generating_set.rs *)
(* l.6-10 GeneratingSet (the group is passed separately) *)
Record genset := mkGen { gs_gens : list nat; gs_elems : list (list nat) }.
(* Vec<Vec<usize>> assignment w[i] = v *)
Fixpoint set_word (l : list (list nat)) (i : nat) (v : list nat) : list (list nat) :=
  match l, i with [], _ => [] | _ :: t, 0 => v :: t | h :: t, S i' => h :: set_word t i' v end.
(* l.13-38 GeneratingSet::check_state, true = Ok.  gens[idx] out of range panics in Rust; the model reads 0 there. *)
Definition gs_check (t : table) (s : genset) : bool :=
  forallb (fun g => g <? tn t) (gs_gens s) && (length (gs_elems s) =? tn t) &&
  forallb (fun x => Nat.eqb x (mul_many t (map (fun i => nth i (gs_gens s) 0) (nth x (gs_elems s) [])))) (elemsT t).
(* l.50-83 generated_homomorphism: None = Err, Some None = Ok(None), Some (Some f) = Ok(Some f) *)
Definition generated_homomorphism (t : table) (s : genset) (partial_func : list nat) (r : table) : option (option (list nat)) :=
  if negb (length partial_func =? length (gs_gens s)) then None
  else if negb (forallb (fun x => x <? tn r) partial_func) then None
  else
    let func := map (fun x => mul_many r (map (fun g => nth g partial_func 0) (nth x (gs_elems s) []))) (elemsT t) in
    if forallb (fun x => forallb (fun g => Nat.eqb (nth (mulT t x g) func 0) (mulT r (nth x func 0) (nth g func 0))) (gs_gens s)) (elemsT t)
    then Some (Some func) else Some None.

(* state of try_find_generating_set: sg, missing, gen_words, and the boundary being filled *)
Record gst := mkGst { g_sg : list nat; g_missing : list nat; g_words : list (list nat); g_next : list nat }.
(* the body of l.117-126 and l.131-139 *)
Definition g_visit (t : table) (x g_idx g : nat) (st : gst) : gst :=
  let y := mulT t x g in
  if has y (g_sg st) then st
  else mkGst (set_insert y (g_sg st)) (remove_all [y] (g_missing st)) (set_word (g_words st) y (nth x (g_words st) [] ++ [g_idx])) (g_next st ++ [y]).
Fixpoint enum_from {A} (i : nat) (l : list A) : list (nat * A) := match l with [] => [] | x :: l' => (i, x) :: enum_from (S i) l' end.
(* l.127-145 *)
Fixpoint g_bfs (fuel : nat) (t : table) (gens : list nat) (boundary : list nat) (st : gst) : option gst :=
  match fuel with
  | 0 => None
  | S fuel' =>
      match boundary with
      | [] => Some st
      | _ =>
          let st1 := fold_left (fun st x => fold_left (fun st ig => g_visit t x (fst ig) (snd ig) st) (enum_from 0 gens) st) boundary
                               (mkGst (g_sg st) (g_missing st) (g_words st) []) in
          g_bfs fuel' t gens (g_next st1) st1
      end
  end.
(* l.86-152 try_find_generating_set.  None = panic / out of fuel, Some None = Err(()).  missing.iter().next().unwrap() panics on an empty set. *)
Fixpoint g_outer (fuel : nat) (pick : list nat -> nat) (t : table) (max_size : option nat) (gens : list nat) (st : gst) : option (option genset) :=
  match fuel with
  | 0 => None
  | S fuel' =>
      if length (g_sg st) <? tn t then
        if match max_size with Some m => length gens =? m | None => false end then Some None
        else match g_missing st with
             | [] => None
             | _ =>
                 let new_g := pick (g_missing st) in
                 let gens' := gens ++ [new_g] in
                 let st1 := fold_left (fun st s => g_visit t s (length gens' - 1) new_g st) (g_sg st) (mkGst (g_sg st) (g_missing st) (g_words st) []) in
                 match g_bfs (S (tn t)) t gens' (g_next st1) st1 with
                 | None => None
                 | Some st2 => g_outer fuel' pick t max_size gens' st2
                 end
             end
      else Some (Some (mkGen gens (g_words st)))
  end.
Definition try_find_generating_set (pick : list nat -> nat) (t : table) (max_size : option nat) : option (option genset) :=
  g_outer (S (tn t)) pick t max_size []
    (mkGst [tident t] (remove_all [tident t] (elemsT t)) (set_word (repeat [] (tn t)) (tident t) []) []).
(* l.154-156 *)
Definition generating_set (pick : list nat -> nat) (t : table) : option genset :=
  match try_find_generating_set pick t None with Some (Some g) => Some g | _ => None end.
(* l.158-174; the i-th attempt uses its own HashSet order picks i.  usize subtraction: a - 1, size() - 1 panic below 0. *)
Fixpoint sgs_loop (picks : nat -> list nat -> nat) (t : table) (attempts i : nat) (best : genset) : option genset :=
  match attempts with
  | 0 => Some best
  | S a => match length (gs_gens best) with
           | 0 => None                                       (* smallest_gens.size() - 1 underflows *)
           | S m => match try_find_generating_set (picks i) t (Some m) with
                    | None => None
                    | Some (Some g) => sgs_loop picks t a (S i) g
                    | Some None => sgs_loop picks t a (S i) best
                    end
           end
  end.
Definition small_generating_set (picks : nat -> list nat -> nat) (t : table) (attempts : option nat) : option genset :=
  let a := match attempts with Some a => a | None => 12 end in
  if a =? 0 then None else
  match generating_set (picks 0) t with None => None | Some g => sgs_loop picks t (a - 1) 1 g end.

(* ---------- homomorphism.rs *)
(* l.17-42 Homomorphism::check_state, true = Ok *)
Definition hom_check (d r : table) (func : list nat) : bool :=
  (length func =? tn d) && forallb (fun x => nth x func 0 <? tn r) (elemsT d) &&
  forallb (fun x => forallb (fun y => Nat.eqb (nth (mulT d x y) func 0) (mulT r (nth x func 0) (nth y func 0))) (elemsT d)) (elemsT d).
(* l.52-82 to_isomorphism: Some None = not an isomorphism; None = index out of bounds / panic *)
Fixpoint iso_inv (xs : list nat) (func : list nat) (inv : list (option nat)) : option (option (list (option nat))) :=
  match xs with
  | [] => Some (Some inv)
  | x :: xs' =>
      match nth_error func x with
      | None => None
      | Some y => match nth_error inv y with
                  | None => None
                  | Some (Some _) => Some None
                  | Some None => match upd inv y (fun _ => Some (Some x)) with None => None | Some inv' => iso_inv xs' func inv' end
                  end
      end
  end.
Definition to_isomorphism (d r : table) (func : list nat) : option (option (list nat * list nat)) :=
  if negb (tn d =? tn r) then Some None
  else match iso_inv (seq 0 (tn d)) func (repeat None (tn d)) with
       | None => None | Some None => Some None
       | Some (Some inv) => match collect inv with None => None | Some i => Some (Some (func, i)) end
       end.
(* l.97-137 Isomorphism::check_state, true = Ok *)
Definition iso_check (l r : table) (lf rf : list nat) : bool :=
  hom_check l r lf && hom_check r l rf && (tn l =? tn r) && forallb (fun x => Nat.eqb x (nth (nth x lf 0) rf 0)) (elemsT l).

(* l.153-171 ElementProfile::new; the unwraps of group.order never fail on a group (C42_order) *)
Definition order_of (t : table) (x : nat) : nat := match order (tn t) t x with Some (Some k) => k | _ => 0 end.
Definition profile (t : table) (x : nat) : nat * list nat := (order_of t x, to_set (map (fun y => order_of t (mulT t x y)) (elemsT t))).
Fixpoint list_eqb (a b : list nat) : bool := match a, b with [], [] => true | x :: a', y :: b' => Nat.eqb x y && list_eqb a' b' | _, _ => false end.
Definition profile_eqb (p q : nat * list nat) : bool := Nat.eqb (fst p) (fst q) && list_eqb (snd p) (snd q).
(* l.181-194: range_elem_profiles.get(p): the elements of the range with profile p in increasing order; None when there are none *)
Definition options_for (r : table) (p : nat * list nat) : option (list nat) :=
  match filter (fun y => profile_eqb (profile r y) p) (elemsT r) with [] => None | l => Some l end.
(* l.198-244 find_new_gen_info; quant_to_check as an exact natural number (Rust saturates at usize::MAX) *)
Record geninfo := mkInfo { gi_gs : genset; gi_opts : list (list nat); gi_quant : nat }.
Definition find_new_gen_info (pick : list nat -> nat) (d r : table) : option (option geninfo) :=
  match generating_set pick d with
  | None => None
  | Some gs =>
      match collect (map (fun g => options_for r (profile d g)) (gs_gens gs)) with
      | None => Some None
      | Some opts => Some (Some (mkInfo gs opts (fold_left (fun a o => a * length o) opts 1)))
      end
  end.
(* l.312-323 next counter; None = all options exhausted *)
Fixpoint next_counter (opts : list (list nat)) (c : list nat) : option (list nat) :=
  match opts, c with
  | o :: opts', i :: c' => if S i =? length o then option_map (cons 0) (next_counter opts' c') else Some (S i :: c')
  | _, _ => None
  end.
(* l.259-327; the k-th call of find_new_gen_info uses the HashSet order picks k; Some None = returns None *)
Fixpoint iso_loop (fuel : nat) (picks : nat -> list nat -> nat) (d r : table) (k : nat) (info : geninfo) (counter : list nat) (checked : nat)
  : option (option (list nat * list nat)) :=
  match fuel with
  | 0 => None
  | S fuel' =>
      let check k :=
        match generated_homomorphism d (gi_gs info) (map (fun oj => nth (snd oj) (fst oj) 0) (combine (gi_opts info) counter)) r with
        | None => None
        | Some f =>
            match (match f with None => Some None | Some f => to_isomorphism d r f end) with
            | None => None
            | Some (Some iso) => Some (Some iso)
            | Some None =>
                match next_counter (gi_opts info) counter with
                | None => Some None
                | Some c' => iso_loop fuel' picks d r k info c' (checked + 1)
                end
            end
        end in
      if checked mod 128 =? 127 then
        match find_new_gen_info (picks k) d r with
        | None => None
        | Some None => Some None
        | Some (Some info') =>
            if gi_quant info' <? gi_quant info - checked
            then iso_loop fuel' picks d r (S k) info' (repeat 0 (length (gs_gens (gi_gs info')))) 0
            else check (S k)
        end
      else check k
  end.
(* l.142-328 find_isomorphism: Some None = returns None *)
Definition find_isomorphism (fuel : nat) (picks : nat -> list nat -> nat) (d r : table) : option (option (list nat * list nat)) :=
  if negb (tn d =? tn r) then Some None
  else match find_new_gen_info (picks 0) d r with
       | None => None
       | Some None => Some None
       | Some (Some info) => iso_loop fuel picks d r 1 info (repeat 0 (length (gs_gens (gi_gs info)))) 0
       end.

(* ---------- group.rs l.308-364 subgroups / normal_subgroups.
   `close` = generated_subgroup or normal_closure of a subset; the HashMap of found subgroups is an association list and `ord`
   is the arbitrary iteration order of the boundary map. *)
Fixpoint find_sg (s : list nat) (m : list (list nat * list nat)) : bool :=
  match m with [] => false | (k, _) :: m' => list_eqb s k || find_sg s m' end.
Fixpoint sg_start (close : list nat -> option (list nat)) (xs : list nat) (m : list (list nat * list nat)) (dist : list nat)
  : option (list (list nat * list nat) * list nat) :=
  match xs with
  | [] => Some (m, dist)
  | x :: xs' => match close [x] with
                | None => None
                | Some sg => if find_sg sg m then sg_start close xs' m dist else sg_start close xs' (m ++ [(sg, [x])]) (dist ++ [x])
                end
  end.
Fixpoint sg_gens (close : list nat -> option (list nat)) (dist gens : list nat) (m next : list (list nat * list nat)) : option (list (list nat * list nat) * list (list nat * list nat)) :=
  match dist with
  | [] => Some (m, next)
  | d :: dist' => let gens' := if has d gens then gens else set_insert d gens in
                  match close gens' with
                  | None => None
                  | Some sg => if find_sg sg m then sg_gens close dist' gens m next
                               else sg_gens close dist' gens (m ++ [(sg, gens')]) (next ++ [(sg, gens')])
                  end
  end.
Fixpoint sg_bound (close : list nat -> option (list nat)) (dist : list nat) (bs m next : list (list nat * list nat)) : option (list (list nat * list nat) * list (list nat * list nat)) :=
  match bs with
  | [] => Some (m, next)
  | (_, gens) :: bs' => match sg_gens close dist gens m next with None => None | Some (m', next') => sg_bound close dist bs' m' next' end
  end.
Fixpoint sg_loop (fuel : nat) (ord : list (list nat * list nat) -> list (list nat * list nat)) (close : list nat -> option (list nat)) (dist : list nat)
  (boundary m : list (list nat * list nat)) : option (list (list nat * list nat)) :=
  match fuel with
  | 0 => None
  | S fuel' => match boundary with
               | [] => Some m
               | _ => match sg_bound close dist (ord boundary) m [] with None => None | Some (m', next) => sg_loop fuel' ord close dist next m' end
               end
  end.
Definition subgroups_impl (fuel : nat) (ord : list (list nat * list nat) -> list (list nat * list nat)) (close : list nat -> option (list nat)) (t : table) : option (list (list nat * list nat)) :=
  match sg_start close (elemsT t) [] [] with
  | None => None
  | Some (m, dist) => sg_loop fuel ord close dist m m
  end.
Definition subgroups (fuel : nat) (ord : list (list nat * list nat) -> list (list nat * list nat)) (t : table) : option (list (list nat * list nat)) :=
  subgroups_impl fuel ord (fun s => match generated_subgroup (S (tn t)) t s with Some (Some r) => Some r | _ => None end) t.
Definition normal_subgroups (fuel : nat) (ord : list (list nat * list nat) -> list (list nat * list nat)) (pick : list nat -> nat) (t : table) : option (list (list nat * list nat)) :=
  subgroups_impl fuel ord (fun s => match normal_closure (S (tn t)) pick t s with Some (Some r) => Some r | _ => None end) t.

(* ---------- group.rs l.23-102 check_state including the cached data: claimed is_abelian, cached conjugacy classes (unwrap: a bad
   partition panics), claimed is_simple (number of normal subgroups = 2) *)
Definition check_state_full (fuel : nat) (ord : list (list nat * list nat) -> list (list nat * list nat)) (pick : list nat -> nat)
  (t : table) (is_abelian : option bool) (cached : option partition) (is_simple : option bool) : option bool :=
  andE (check_state t)
  (andE (match is_abelian with Some b => Some (Bool.eqb b (compute_is_abelian t)) | None => Some true end)
  (andE (match cached with Some p => if ps_check (tn t) p then Some true else None | None => Some true end)
        (match is_simple with
         | Some b => match normal_subgroups fuel ord pick t with None => None | Some l => Some (Bool.eqb (length l =? 2) b) end
         | None => Some true
         end))).
