(* Model of rings/src/polynomial/symmetric.rs: symmetric polynomials. Conventions as in MpModel.v; None = panic, the Rust Option and Result
   values are inner options. `pick` and `dflt` are those of mp_div; `shuffle` is the order in which the HashMap of split_by_degree is
   visited; `fresh` is the value of the variable counter (Variable::new returns fresh, fresh+1, ...). ss_num (display) is not modelled. *)
From Coq Require Import List Arith NArith Bool.
From Verif Require Import RingSpec RingModel PermModel MatModel PolyModel SetsModel MpModel.
Import ListNotations.
Close Scope rs_scope.
Open Scope nat_scope.
Section Sym.
Context {R : ring_ops}.
Notation T := (T R).
Notation mp := (list (mono * RingSpec.T R)).
(* HashMap from pairs: the last pair with a given key wins *)
Definition lookup_last {V} (l : list (nat * V)) (k : nat) : option V :=
  match find (fun x => fst x =? k) (rev l) with Some x => Some (snd x) | None => None end.
(* l.50-81: generators of the symmetric group on n letters, as images of 0..n-1 *)
Definition swap01 (n : nat) : list nat := map (fun i => match i with 0 => 1 | 1 => 0 | x => x end) (seq 0 n).
Definition cycle_perm (n : nat) : list nat := map (fun i => (i + 1) mod n) (seq 0 n).
Definition sym_gens (n : nat) : list (list nat) :=
  match n with
  | 0 => []
  | 1 => [[0]]
  | 2 => [swap01 n]
  | _ => [swap01 n; cycle_perm n]
  end.
Fixpoint forallM {A} (f : A -> option bool) (l : list A) : option bool :=
  match l with [] => Some true | x :: l' => do b <- f x; if b : bool then forallM f l' else Some false end.
(* l.37-92 *)
Definition perm_pairs (vars : list nat) (perm : list nat) : option (list (nat * nat)) :=
  mapM (fun ij => do a <- nth_error vars (fst ij); do b <- nth_error vars (snd ij); Some (a, b)) (combine (seq 0 (length perm)) perm).
Definition is_symmetric (vars : list nat) (p : mp) : option bool :=
  if negb (forallb (fun v => existsb (Nat.eqb v) vars) (mp_free_vars p)) then Some false
  else forallM (fun perm =>
         do prs <- perm_pairs vars perm;
         do q <- mp_apply_map_vars (lookup_last prs) p;
         Some (mp_equal p q)) (sym_gens (length vars)).
(* l.94-109 *)
Definition elementary_symmetric (n : nat) (vars : list nat) : option mp :=
  do ss <- subsets_vec vars n;
  Some (fold_left (fun e vs => mp_add e (fold_left (fun p v => mp_mul p (mp_var v)) vs mp_one)) ss mp_zero).
(* l.123-128, 201-206: substitute the elementary symmetric polynomials of vars for the variables e *)
Definition elem_values (vars es : list nat) : option (list (nat * mp)) :=
  mapM (fun ie => do s <- elementary_symmetric (S (fst ie)) vars; Some (snd ie, s)) (combine (seq 0 (length es)) es).
Definition subst_elem (vars es : list nat) (p : mp) : option mp :=
  do vals <- elem_values vars es;
  @mp_evaluate (mp_ops R) (lookup_last vals) (mp_apply_map mp_constant p).

Variables (div : div_op R) (pick : list nat -> nat) (dflt : mp -> mp -> divres mp) (shuffle : list (nat * mp) -> list (nat * mp)).
(* l.111-158; rec is the recursive call of as_elementary_symmetric_polynomials_impl *)
Definition hom_impl (rec : list nat -> mp -> option mp) (vars : list nat) (p : mp) (e : list nat) : option mp :=
  match rev vars with
  | [] => None
  | last_var :: _ =>
      let first_vars := removelast vars in
      let p_tilde := mp_evaluate_var_zero p last_var in
      do r_sym <- rec first_vars p_tilde;
      do es <- (if length first_vars <=? length e then Some (firstn (length first_vars) e) else None);
      do r <- subst_elem vars es r_sym;
      let q := mp_add p (mp_neg r) in
      let en := @product (mp_ops R) (map mp_var vars) in
      do en_var <- nth_error e (length vars - 1);
      do d <- mp_div div pick dflt (S (length (mp_free_vars q) + length (mp_free_vars en))) q en;
      match d with
      | DivOk q' => do s <- rec vars q'; Some (mp_add r_sym (mp_mul (mp_var en_var) s))
      | _ => None
      end
  end.
(* l.160-179 *)
Fixpoint sym_impl (fuel : nat) (e : list nat) (vars : list nat) (poly : mp) : option mp :=
  match fuel with
  | O => None
  | S fuel' =>
      fold_left (fun total dh =>
        do t <- total;
        if fst dh =? 0 then Some (mp_add t (snd dh))
        else do s <- hom_impl (sym_impl fuel' e) vars (snd dh) e; Some (mp_add t s))
      (shuffle (mp_split_by_degree poly)) (Some mp_zero)
  end.
(* l.181-212, debug assertion included *)
Definition as_elem_unchecked (fuel fresh : nat) (vars : list nat) (poly : mp) : option (list nat * mp) :=
  let e := seq fresh (length vars) in
  do s <- sym_impl fuel e vars poly;
  do c <- subst_elem vars e s;
  assert! mp_equal poly c;
  Some (e, s).
(* l.214-225 *)
Definition as_elem (fuel fresh : nat) (vars : list nat) (poly : mp) : option (option (list nat * mp)) :=
  do b <- is_symmetric vars poly;
  if b : bool then do r <- as_elem_unchecked fuel fresh vars poly; Some (Some r) else Some None.
End Sym.
