(* Model of groups/src/free_group/todd_coxeter.rs. *)
From Coq Require Import List Arith Bool ZArith.
From Verif Require Import PermModel GroupModel.
Import ListNotations.

(* l.9-19 Neighbor and SchreierGraph; Neighbor::None() = None.  num_gens is passed separately.  Vector reads are written with
   a default value: the invariant wf (TCProofs) shows that no index is ever out of range. *)
Record sg := mkSG { ids : list nat; nbs : list (list (option nat)) }.
Fixpoint setn {A} (l : list A) (i : nat) (v : A) : list A :=
  match l, i with [], _ => [] | _ :: t, 0 => v :: t | h :: t, S i' => h :: setn t i' v end.
Definition idOf (s : sg) (c : nat) : nat := nth c (ids s) 0.
Definition nb (s : sg) (c d : nat) : option nat := nth d (nth c (nbs s) []) None.
Definition set_id (s : sg) (c v : nat) : sg := mkSG (setn (ids s) c v) (nbs s).
Definition set_nb (s : sg) (c d : nat) (v : option nat) : sg := mkSG (ids s) (setn (nbs s) c (setn (nth c (nbs s) []) d v)).
(* l.30-35 find_coset: idents[c] <= c always (invariant wf), so c+1 iterations are enough *)
Fixpoint find_fuel (f : nat) (s : sg) (c : nat) : nat :=
  match f with 0 => c | S f' => if Nat.eqb (idOf s c) c then c else find_fuel f' s (idOf s c) end.
Definition find (s : sg) (c : nat) : nat := find_fuel (S c) s c.
(* l.37-46 *)
Definition new_coset (ng : nat) (s : sg) : sg := mkSG (ids s ++ [length (ids s)]) (nbs s ++ [repeat None (2 * ng)]).
(* for x in l { s = f(s, x)? } *)
Fixpoint loopM {A S} (f : S -> A -> option S) (l : list A) (s : S) : option S :=
  match l with [] => Some s | x :: l' => match f s x with None => None | Some s' => loopM f l' s' end end.
(* l.48-73 unify.  None = out of fuel; every nested call that does anything removes a live coset, so fuel |ids|+1 suffices
   (unify_total in TCProofs).  The overflow of the call stack is not modelled. *)
Fixpoint unify_fuel (fuel : nat) (ng : nat) (s : sg) (c1 c2 : nat) : option sg :=
  match fuel with
  | 0 => None
  | S fuel' =>
      let a := find s c1 in
      let b := find s c2 in
      if Nat.eqb a b then Some s
      else
        let '(a, b) := if b <? a then (b, a) else (a, b) in
        loopM (fun s d =>
                 match nb s a d with
                 | None => Some (set_nb s a d (nb s b d))
                 | Some n1 => match nb s b d with
                              | None => Some s
                              | Some n2 => unify_fuel fuel' ng s n1 n2
                              end
                 end) (seq 0 (2 * ng)) (set_id s b a)
  end.
Definition unify (ng : nat) (s : sg) (c1 c2 : nat) : option sg := unify_fuel (S (length (ids s))) ng s c1 c2.
(* l.75-87 *)
Definition follow (ng : nat) (s : sg) (c d : nat) : sg * nat :=
  let c := find s c in
  match nb s c d with
  | None => (set_nb (new_coset ng s) c d (Some (length (ids s))), length (ids s))
  | Some nc => (s, find s nc)
  end.
(* l.89-95 *)
Fixpoint follow_loop (ng : nat) (ds : list nat) (s : sg) (c : nat) : sg * nat :=
  match ds with [] => (s, c) | d :: ds' => let '(s', c') := follow ng s c d in follow_loop ng ds' s' c' end.
Definition follow_path (ng : nat) (s : sg) (c : nat) (ds : list nat) : sg * nat := follow_loop ng (rev ds) s (find s c).

(* l.130-134 and l.139-143: trace a word from c and identify its end with c *)
Definition trace (ng : nat) (c : nat) (s : sg) (w : list nat) : option sg :=
  let '(s', e) := follow_path ng s c w in unify ng s' e c.
(* l.136-147: the main loop.  None = still running after `fuel` iterations. *)
Fixpoint visit (fuel ng : nat) (rels : list (list nat)) (s : sg) (t : nat) : option sg :=
  match fuel with
  | 0 => None
  | S fuel' =>
      if t <? length (ids s) then
        if Nat.eqb (find s t) t then
          match loopM (trace ng t) rels s with None => None | Some s' => visit fuel' ng rels s' (S t) end
        else visit fuel' ng rels s (S t)
      else Some s
  end.
(* l.107-111 *)
Definition full_rels (ng : nat) (rels : list (list nat)) : list (list nat) := rels ++ map (fun i => [2 * i + 1; 2 * i]) (seq 0 ng).
(* l.114-123 *)
Definition words_ok (ng : nat) (ws : list (list nat)) : bool := forallb (forallb (fun a => a <? 2 * ng)) ws.
(* l.154-163 *)
Definition live_cosets (s : sg) : list nat := filter (fun i => Nat.eqb (idOf s i) i) (seq 0 (length (ids s))).
Fixpoint index_of (x i : nat) (l : list nat) : option nat := match l with [] => None | y :: l' => if Nat.eqb x y then Some i else index_of x (S i) l' end.
(* l.165-184: the list of images under generator g, threading the graph (follow may create cosets); None = panic *)
Fixpoint images (ng : nat) (cosets : list nat) (g : nat) (cs : list nat) (s : sg) : option (sg * list nat) :=
  match cs with
  | [] => Some (s, [])
  | c :: cs' =>
      let '(s', x) := follow ng s c (2 * g) in
      match index_of x 0 cosets with
      | None => None
      | Some i => match images ng cosets g cs' s' with None => None | Some (s'', l) => Some (s'', i :: l) end
      end
  end.
Fixpoint gen_perms (ng : nat) (cosets : list nat) (gs : list nat) (s : sg) : option (list (list nat)) :=
  match gs with
  | [] => Some []
  | g :: gs' =>
      match images ng cosets g cosets s with
      | None => None
      | Some (s', l) =>
          match perm_new l with
          | Some (Some p) => match gen_perms ng cosets gs' s' with None => None | Some ps => Some (p :: ps) end
          | _ => None                                     (* .unwrap() on Err *)
          end
      end
  end.
(* l.102-187 enumerate_cosets_impl.  None = the main loop has not ended after `fuel` iterations, Some None = panic *)
Definition enumerate_cosets (fuel ng : nat) (rels subs : list (list nat)) : option (option (nat * list (list nat))) :=
  let rels' := full_rels ng rels in
  if negb (words_ok ng rels' && words_ok ng subs) then Some None
  else
    match loopM (trace ng 0) subs (new_coset ng (mkSG [] [])) with
    | None => None
    | Some s0 =>
        match visit fuel ng rels' s0 0 with
        | None => None
        | Some s => match gen_perms ng (live_cosets s) (seq 0 ng) s with
                    | None => Some None
                    | Some ps => Some (Some (length (live_cosets s), ps))
                    end
        end
    end.
(* l.331-333 *)
Definition enumerate_elements (fuel ng : nat) (rels : list (list nat)) := enumerate_cosets fuel ng rels [].

(* l.342-419 into_finite_group, from the result (n, perms) of enumerate_elements; None = panic (assert!(p.0) fails) or out of fuel.
   paths[c] = None until c is reached. *)
Fixpoint path_gens (perms : list (list nat)) (b : nat) (bp : list nat) (gs : list nat) (paths : list (option (list nat))) (next : list nat)
  : list (option (list nat)) * list nat :=
  match gs with
  | [] => (paths, next)
  | g :: gs' =>
      let c := call (nth g perms []) b in
      match nth c paths None with
      | None => path_gens perms b bp gs' (setn paths c (Some (bp ++ [g]))) (next ++ [c])
      | Some _ => path_gens perms b bp gs' paths next
      end
  end.
Fixpoint path_bound (perms : list (list nat)) (bs : list nat) (paths : list (option (list nat))) (next : list nat) : list (option (list nat)) * list nat :=
  match bs with
  | [] => (paths, next)
  | b :: bs' => match nth b paths None with
                | None => path_bound perms bs' paths next           (* cannot happen: debug_assert!(b_done) *)
                | Some bp => let '(paths', next') := path_gens perms b bp (seq 0 (length perms)) paths next in path_bound perms bs' paths' next'
                end
  end.
Fixpoint path_loop (fuel : nat) (perms : list (list nat)) (boundary : list nat) (paths : list (option (list nat))) : option (list (option (list nat))) :=
  match fuel with
  | 0 => None
  | S fuel' => match boundary with
               | [] => Some paths
               | _ => let '(paths', next) := path_bound perms boundary paths [] in path_loop fuel' perms next paths'
               end
  end.
Definition run_path (perms : list (list nat)) (p : list nat) (x : nat) : nat := fold_left (fun z g => call (nth g perms []) z) p x.
Definition finite_group_of (fuel n : nat) (perms : list (list nat)) : option table :=
  match collect (map perm_inverse perms) with
  | None => None
  | Some invs =>
      match path_loop fuel perms [0] (setn (repeat None n) 0 (Some [])) with
      | None => None
      | Some paths =>
          match collect paths with
          | None => None
          | Some ps =>
              Some (mkTable n 0
                (map (fun x => run_path invs (rev (nth x ps [])) 0) (seq 0 n))
                (map (fun x => map (fun y => run_path perms (nth y ps []) (run_path perms (nth x ps []) 0)) (seq 0 n)) (seq 0 n)))
          end
      end
  end.

(* ---------- FinitelyGeneratedGroupElement: l.189-251; product : Vec<isize> *)
Definition fg_identity : list Z := [].
Definition fg_inv (x : list Z) : list Z := map Z.opp (rev x).
Definition fg_mul (x y : list Z) : list Z := x ++ y.
Fixpoint fg_pow_pos (x : list Z) (n : nat) : list Z := match n with 0 => [] | S m => x ++ fg_pow_pos x m end.
Definition fg_pow (x : list Z) (n : Z) : list Z :=
  if (n =? 0)%Z then fg_identity else if (n <? 0)%Z then fg_inv (fg_pow_pos x (Z.to_nat (- n))) else fg_pow_pos x (Z.to_nat n).
(* l.287-318; generators = association list ident -> index; None = panic (unknown generator) *)
Fixpoint gen_index (id : Z) (gens : list (Z * nat)) : option nat :=
  match gens with [] => None | (k, i) :: gens' => if Z.eqb k id then Some i else gen_index id gens' end.
Definition translate (gens : list (Z * nat)) (x : list Z) : option (list nat) :=
  collect (map (fun id => match gen_index (Z.abs id) gens with None => None | Some i => Some (if (id <? 0)%Z then 2 * i + 1 else 2 * i) end) x).
(* l.272-283 add_generator: a fresh ident gets the next index *)
Definition add_generator (id : Z) (gens : list (Z * nat)) : list (Z * nat) := (id, length gens) :: gens.
(* l.320-329 add_relation, add_two_sided_relation: the relator added *)
Definition two_sided (r1 r2 : list Z) : list Z := fg_mul r1 (fg_inv r2).
