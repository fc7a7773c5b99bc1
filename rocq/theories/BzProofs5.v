(* MemoryStack: the product of the requested subset, whatever was asked before. *)
From Coq Require Import List Arith Bool.
From mathcomp Require Import all_ssreflect.
From mathcomp Require Import zify.
From Coq Require Import Lia.
From Verif Require Import MatModel PermModel BzModel.
Set Implicit Arguments.
Unset Strict Implicit.
Unset Printing Implicit Defensive.

Section MS.
Variables (A : Type) (compose : A -> A -> A) (vals : list A) (d : A).
Notation v i := (List.nth i vals d).
Definition stp (last : option A) (i : nat) : A := match last with None => v i | Some a => compose a (v i) end.
Fixpoint partials (last : option A) (s : list nat) : list (nat * A) :=
  match s with nil => nil | i :: s' => (i, stp last i) :: partials (Some (stp last i)) s' end.
(* the product of v i over s, in order *)
Definition prod_in (s : list nat) : A := match s with nil => d | i :: s' => List.fold_left (fun a j => compose a (v j)) s' (v i) end.
Definition lastof (last : option A) (s : list nat) : option A := List.fold_left (fun o i => Some (stp o i)) s last.
Lemma partials_cat last s t : partials last (s ++ t) = partials last s ++ partials (lastof last s) t.
Proof. by elim: s last => [|i s IH] last //=; rewrite IH. Qed.
Lemma push_ok rest : (forall i, List.In i rest -> i < List.length vals) -> forall prev last, ms_push compose vals prev last rest = Some (prev ++ partials last rest).
Proof.
  elim: rest => [|i rest IH] H prev last; first by rewrite cats0. cbn [ms_push]. rewrite (List.nth_error_nth' vals d); last by apply/ssrnat.ltP; apply: H; left. cbn [obind]. rewrite IH; last by move=> j Hj; apply: H; right. by rewrite -catA.
Qed.
Lemma size_partials last s : size (partials last s) = size s. Proof. by elim: s last => [|i s IH] last //=; rewrite IH. Qed.
Lemma agree_ok last s0 s : let i := ms_agree (partials last s0) s in List.firstn i (partials last s0) = partials last (List.firstn i s) /\ i <= size s.
Proof.
  elim: s0 last s => [|j s0 IH] last [|k s] //. rewrite [partials last _]/= [ms_agree _ _]/=. case: (PeanoNat.Nat.eqb_spec j k) => [->|_] //. have [H1 H2] := IH (Some (stp last k)) s. split=> //. cbn [List.firstn partials]. by rewrite H1.
Qed.
Lemma rev_partials s last : match rev (partials last s) with (_, a) :: _ => Some a | nil => None end = match s with nil => None | _ => lastof last s end.
Proof.
  case/lastP: s => [|s i] //. rewrite -cats1 partials_cat rev_cat /=. have -> : lastof last (s ++ [:: i]) = Some (stp (lastof last s) i) by rewrite /lastof List.fold_left_app. by case: s.
Qed.
Lemma lastof_prod i s : lastof None (i :: s) = Some (prod_in (i :: s)).
Proof. rewrite /= . move: (v i) => a. elim: s a => [|j s IH] a //=. Qed.
Lemma last_nth last s : s <> nil -> exists a, List.nth_error (partials last s) (size s - 1) = Some a /\ lastof last s = Some (snd a).
Proof.
  case/lastP: s => [|s i] // _. rewrite -cats1 partials_cat size_cat addnK. exists (i, stp (lastof last s) i). split; last by rewrite /lastof List.fold_left_app.
  rewrite List.nth_error_app2; last by rewrite -[List.length _]/(size _) size_partials. by rewrite -[List.length _]/(size _) size_partials PeanoNat.Nat.sub_diag.
Qed.
Definition mem_ok (prev : list (nat * A)) : Prop := exists s0, prev = partials None s0.
Lemma ms_get_ok prev s : mem_ok prev -> s <> nil -> (forall i, List.In i s -> i < List.length vals) -> exists prev', ms_get compose vals prev s = Some (prod_in s, prev') /\ mem_ok prev'.
Proof.
  move=> [s0 ->] Hs Hv. exists (partials None s). split; last by exists s. rewrite /ms_get. have -> : negb (Nat.eqb (List.length s) 0) by case: s Hs {Hv}. 
  have [H1 H2] := agree_ok None s0 s. set i := ms_agree _ _ in H1 H2 *. rewrite -[List.firstn _ _]/(List.firstn i (partials None s0)) H1 rev_partials push_ok; last first.
  { move=> j Hj. apply: Hv. rewrite -(List.firstn_skipn i s). apply: List.in_or_app. by right. }
  have E : partials None (List.firstn i s) ++ partials (match List.firstn i s with nil => None | _ => lastof None (List.firstn i s) end) (List.skipn i s) = partials None s.
  { have -> : (match List.firstn i s with nil => None | _ => lastof None (List.firstn i s) end) = lastof None (List.firstn i s) by case: (List.firstn i s). rewrite -partials_cat. congr partials. exact: List.firstn_skipn. }
  rewrite E. cbn [obind]. have [a [E1 E2]] := last_nth None Hs. rewrite -[List.length s]/(size s) E1. cbn [obind]. case: s Hs E2 {Hv E E1 H1 H2 i} => [|j s] // _. rewrite lastof_prod. case=> E3. by rewrite -E3.
Qed.
End MS.
