(* Model of rings/src/polynomial/multipoly.rs: multivariate polynomials (symmetric.rs is in SymModel.v).
   Conventions: a Variable is its ident (nat; Variable::new hands out a fresh one, names are for display only); a VariablePower is a
   pair (ident, pow); a Monomial is its vector `prod` (the field ident_lookup is determined by it: it maps an ident to the last index
   where it occurs); a Term is a pair (monomial, coeff); a MultiPolynomial is its vector of terms.  usize is nat.
   option None = the Rust code panics unless a comment says that it is the Rust None.
   A HashMap is the list of its entries in order of first insertion; that nothing depends on this choice is a theorem (C29_hash_order).
   HashMap<Variable, T> arguments are functions to option.  Display is not modelled. *)
From Coq Require Import List Arith NArith Bool.
From Verif Require Import RingSpec RingModel PermModel MatModel PolyModel SetsModel.
Import ListNotations.
Close Scope rs_scope.
Open Scope nat_scope.

(* slice::sort_by: any stable sort gives this result *)
Section Sort.
Context {A : Type} (le : A -> A -> bool).
Fixpoint ins (x : A) (l : list A) : list A := match l with [] => [x] | y :: l' => if le x y then x :: l else y :: ins x l' end.
Fixpoint isort (l : list A) : list A := match l with [] => [] | x :: l' => ins x (isort l') end.
End Sort.
(* *map.entry(k).or_insert(zero) += v *)
Section Hash.
Context {K V : Type} (eqb : K -> K -> bool) (zero : V) (plus : V -> V -> V).
Fixpoint entry_add (k : K) (v : V) (m : list (K * V)) : list (K * V) :=
  match m with
  | [] => [(k, plus zero v)]
  | (k', v') :: m' => if eqb k k' then (k', plus v' v) :: m' else (k', v') :: entry_add k v m'
  end.
End Hash.
(* elements of a vector in order of first occurrence: a HashSet *)
Section Set_.
Context {A : Type} (eqb : A -> A -> bool).
Fixpoint hset (l : list A) : list A := match l with [] => [] | x :: l' => x :: filter (fun y => negb (eqb x y)) (hset l') end.
End Set_.

Notation mono := (list (nat * nat)).
Definition vp_eqb (x y : nat * nat) : bool := (fst x =? fst y) && (snd x =? snd y).
(* l.53-57 *)
Fixpoint mono_eqb (a b : mono) : bool :=
  match a, b with
  | [], [] => true
  | x :: a', y :: b' => vp_eqb x y && mono_eqb a' b'
  | _, _ => false
  end.
(* l.109-120 *)
Definition mono_new (prod : mono) : mono := isort (fun x y => fst x <=? fst y) (filter (fun x => negb (snd x =? 0)) prod).
(* l.122-127 *)
Definition mono_one : mono := [].
(* l.129-135 *)
Definition mono_degree (m : mono) : nat := fold_left (fun d x => d + snd x) m 0.
(* l.137-149 *)
Definition mono_homogenize (m : mono) (target : nat) (v : nat) : option mono :=
  if mono_degree m <=? target then Some (mono_new (m ++ [(v, target - mono_degree m)])) else None.
(* l.151-157: ident_lookup holds the last index of each ident *)
Definition get_var_pow (m : mono) (v : nat) : nat :=
  match find (fun x => fst x =? v) (rev m) with Some x => snd x | None => 0 end.
(* l.159-164 *)
Definition mono_free_vars (m : mono) : list nat := hset Nat.eqb (map fst m).
(* l.181-196 *)
Definition mono_mul (a b : mono) : mono :=
  mono_new (fold_left (fun h x => entry_add Nat.eqb 0 Nat.add (fst x) (snd x) h) b
           (fold_left (fun h x => entry_add Nat.eqb 0 Nat.add (fst x) (snd x) h) a [])).
(* l.198-222: Less = Lt *)
Fixpoint lex (a b : mono) : comparison :=
  match a, b with
  | x :: a', y :: b' =>
      if fst x <? fst y then Lt else if fst y <? fst x then Gt
      else if snd y <? snd x then Lt else if snd x <? snd y then Gt
      else lex a' b'
  | _ :: _, [] => Lt
  | [], _ :: _ => Gt
  | [], [] => Eq
  end.
(* l.224-232 *)
Definition graded_lex (a b : mono) : comparison :=
  if mono_degree a <? mono_degree b then Gt else if mono_degree b <? mono_degree a then Lt else lex a b.
(* l.85-107; the lookup table is right by construction *)
Fixpoint distinct_vars (m : mono) : bool := match m with [] => true | x :: m' => negb (existsb (fun y => fst y =? fst x) m') && distinct_vars m' end.
Definition mono_check (m : mono) : bool :=
  forallb (fun x => negb (snd x =? 0)) m && distinct_vars m && mono_eqb m (isort (fun x y => fst x <=? fst y) m).
Definition lex_le (a b : mono) : bool := match lex a b with Gt => false | _ => true end.

Section Terms.
Context {C : Type}.
Notation mp := (list (mono * C)).
(* l.280-283 *)
Definition mp_new (terms : mp) : mp := isort (fun s t => lex_le (fst s) (fst t)) terms.
(* l.257-278: the subtraction len - 1 underflows (panics) on the empty vector *)
Fixpoint lex_sorted (l : list mono) : bool := match l with a :: (b :: _) as l' => lex_le a b && lex_sorted l' | _ => true end.
Definition mp_check (p : mp) : option bool :=
  if negb (forallb (fun t => mono_check (fst t)) p) then Some false
  else match p with [] => None | _ => Some (lex_sorted (map fst p)) end.
(* l.285-296 *)
Definition mp_constant (c : C) : mp := [(mono_one, c)].
Definition mp_term (t : mono * C) : mp := [t].
(* l.298-304 *)
Definition mp_free_vars (p : mp) : list nat := hset Nat.eqb (concat (map (fun t => mono_free_vars (fst t)) p)).
(* l.319-342: None = a variable is missing from f *)
Fixpoint map_vars (f : nat -> option nat) (m : mono) : option mono :=
  match m with [] => Some [] | (v, k) :: m' => do w <- f v; do r <- map_vars f m'; Some ((w, k) :: r) end.
Definition mp_apply_map_vars (f : nat -> option nat) (p : mp) : option mp :=
  mapM (fun t : mono * C => do m <- map_vars f (fst t); Some (mono_new m, snd t)) p.
(* l.344-352, 355-363 *)
Definition mp_evaluate_var_zero (p : mp) (v : nat) : mp := filter (fun t => get_var_pow (fst t) v =? 0) p.
Definition mp_has_all_vars_parts (p : mp) (vs : list nat) : mp := filter (fun t => forallb (fun v => 0 <? get_var_pow (fst t) v) vs) p.
(* l.588-590: Rust option *)
Definition mp_degree (p : mp) : option nat :=
  match p with [] => None | t :: p' => Some (fold_left (fun d t => Nat.max d (mono_degree (fst t))) p' (mono_degree (fst t))) end.
(* l.592-609 *)
Fixpoint push_at (d : nat) (t : mono * C) (h : list (nat * mp)) : list (nat * mp) :=
  match h with [] => [(d, [t])] | (d', l) :: h' => if d =? d' then (d', l ++ [t]) :: h' else (d', l) :: push_at d t h' end.
Definition mp_split_by_degree (p : mp) : list (nat * mp) := fold_left (fun h t => push_at (mono_degree (fst t)) t h) p [].
End Terms.
(* l.306-317 *)
Definition mp_apply_map {C D : Type} (f : C -> D) (p : list (mono * C)) : list (mono * D) := map (fun t => (fst t, f (snd t))) p.

Section Mp.
Context {R : ring_ops}.
Notation T := (T R).
Notation mp := (list (mono * RingSpec.T R)).
(* l.551-558 *)
Definition mp_reduce (p : mp) : mp := mp_new (filter (fun t => negb (is_zero (snd t))) p).
(* l.407-421 *)
Fixpoint mp_eqb (a b : mp) : bool :=
  match a, b with
  | [], [] => true
  | s :: a', t :: b' => req (snd s) (snd t) && mono_eqb (fst s) (fst t) && mp_eqb a' b'
  | _, _ => false
  end.
Definition mp_equal (a b : mp) : bool := mp_eqb (mp_reduce a) (mp_reduce b).
(* l.426-437 *)
Definition mp_zero : mp := [].
Definition mp_one : mp := [(mono_one, r1)].
(* l.439-466: existing_monomials is not updated by the pushes; it holds the last index of each monomial of a *)
Fixpoint upd_last (m : mono) (c : T) (p : mp) : mp :=
  match p with
  | [] => []
  | t :: p' => if mono_eqb m (fst t) && negb (existsb (fun s => mono_eqb m (fst s)) p') then (fst t, radd (snd t) c) :: p' else t :: upd_last m c p'
  end.
Definition mp_add (a b : mp) : mp :=
  mp_reduce (fold_left (fun acc t => if existsb (fun s => mono_eqb (fst t) (fst s)) a then upd_last (fst t) (snd t) acc else acc ++ [t]) b a).
(* l.468-492 *)
Definition mp_mul (a b : mp) : mp :=
  mp_reduce (mp_new (fold_left (fun h s => fold_left (fun h t => entry_add mono_eqb r0 radd (mono_mul (fst s) (fst t)) (rmul (snd s) (snd t)) h) b h) a [])).
(* l.496-511 *)
Definition mp_neg (a : mp) : mp := map (fun t => (fst t, rneg (snd t))) a.
Definition mp_ops : ring_ops := {| RingSpec.T := mp; req := mp_equal; r0 := mp_zero; r1 := mp_one; radd := mp_add; rmul := mp_mul; rneg := mp_neg |}.
(* l.560-571 *)
Definition mp_var_pow (v k : nat) : mp := [(mono_new [(v, k)], r1)].
Definition mp_var (v : nat) : mp := mp_var_pow v 1.
(* l.573-586: Rust option *)
Definition mp_as_constant (p : mp) : option T :=
  match p with [] => Some r0 | [t] => if mono_eqb (fst t) mono_one then Some (snd t) else None | _ => None end.
(* l.611-632, debug assertion included *)
Definition mp_homogenize (p : mp) (v : nat) : option mp :=
  if mp_equal p mp_zero then Some mp_zero
  else
    do d <- mp_degree p;
    do ts <- mapM (fun t => do m <- mono_homogenize (fst t) d v; Some (m, snd t)) p;
    let h := mp_new ts in
    do c <- mp_check h;
    assert! c;
    Some h.
(* l.634-663: a polynomial in v with multivariate coefficients *)
Fixpoint upd_at (k : nat) (q : mp) (cs : list mp) : list mp :=
  match cs, k with
  | [], _ => []
  | c :: cs', O => mp_add c q :: cs'
  | c :: cs', S k' => c :: upd_at k' q cs'
  end.
Definition mp_expand (p : mp) (v : nat) : list mp :=
  fold_left (fun cs t =>
    let k := get_var_pow (fst t) v in
    let cs := cs ++ repeat mp_zero (S k - length cs) in
    upd_at k [(mono_new (filter (fun x => negb (fst x =? v)) (fst t)), snd t)] cs) p [].
(* l.166-179, 665-680: None = a variable has no value *)
Definition mono_evaluate (values : nat -> option T) (m : mono) : option T :=
  do l <- mapM (fun x => do a <- values (fst x); Some (nat_pow a (N.of_nat (snd x)))) m; Some (product l).
Definition mp_evaluate (values : nat -> option T) (p : mp) : option T :=
  do l <- mapM (fun t => do x <- mono_evaluate values (fst t); Some (rmul (snd t) x)) p; Some (sum l).
(* l.516-547: pick is the first element that the HashSet of variables yields; fuel = recursion depth.
   p_div takes a total division of coefficients: if a recursive division panicked, its result here would be the arbitrary
   dflt x y; theorem C29_div holds for every dflt *)
Fixpoint mp_div (div : div_op R) (pick : list nat -> nat) (dflt : mp -> mp -> divres mp) (fuel : nat) (a b : mp) : option (divres mp) :=
  match fuel with
  | O => None
  | S fuel' =>
      let vars := hset Nat.eqb (mp_free_vars a ++ mp_free_vars b) in
      match vars with
      | [] =>
          assert! length a <=? 1;
          assert! length b <=? 1;
          match b, a with
          | [], _ => Some DivideByZero
          | _, [] => Some (DivOk mp_zero)
          | t :: _, s :: _ =>
              match div (snd s) (snd t) with
              | DivOk c => Some (DivOk (mp_constant c))
              | NotDivisible => Some NotDivisible
              | DivideByZero => None
              end
          end
      | _ =>
          let v := pick vars in
          let d : div_op mp_ops := fun x y => match mp_div div pick dflt fuel' x y with Some r => r | None => dflt x y end in
          do r <- @p_div mp_ops d (mp_expand a v) (mp_expand b v);
          Some match r with
               | DivOk c => DivOk (@p_evaluate mp_ops c (mp_var v))
               | DivideByZero => DivideByZero
               | NotDivisible => NotDivisible
               end
      end
  end.
End Mp.
Arguments mp_ops R : clear implicits.
