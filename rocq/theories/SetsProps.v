(* Property theorems for the `sets` crate: C01 - C05. *)
From Coq Require Import List Arith Bool Lia Sorted.
From Verif Require Import SetsSpec SetsModel SetsProofs1 SetsProofs2.
Import ListNotations.

(* C01. subsets(n,k): exactly the k-subsets of {0..n-1}, strictly lexicographically increasing (hence without
   repetition), and there are binom n k of them. *)
Theorem C01_subsets_exact : forall n k,
  (forall s, In s (subsets n k) <-> is_k_subset n k s) /\
  StronglySorted lex_lt (subsets n k) /\
  NoDup (subsets n k) /\
  length (subsets n k) = binom n k.
Proof.
  intros n k. split; [exact (subsets_in k n)|]. split; [exact (subsets_sorted k n)|].
  split; [|exact (subsets_count k n)].
  eapply StronglySorted_NoDup; [exact lex_lt_irrefl|exact (subsets_sorted k n)].
Qed.
Print Assumptions C01_subsets_exact.

(* subsets_vec never panics and is the image of subsets under indexing *)
Theorem C01_subsets_vec : forall (T : Type) (items : list T) (d : T) k,
  subsets_vec items k = Some (map (map (fun i => nth i items d)) (subsets (length items) k)).
Proof. intros T items d k. exact (subsets_vec_ok items d k). Qed.
Print Assumptions C01_subsets_vec.

Example C01_example : is_k_subset 5 3 [0;2;4] /\ In [0;2;4] (subsets 5 3) /\ length (subsets 5 3) = 10.
Proof. split; [|split]; [|apply C01_subsets_exact|rewrite (proj2 (proj2 (proj2 (C01_subsets_exact 5 3)))); reflexivity];
  repeat split; repeat constructor. Qed.

(* C02. The iterator behind predicated_partitions_sized(n,x,p): there is a list l that contains exactly the partitions
   of n into x positive parts satisfying p, strictly lexicographically increasing, such that for every m the first m
   calls to next() return (without running out of recursion depth) the items of l and then None for ever. *)
Theorem C02_partitions_sized_exact : forall (p : nat -> bool) n x,
  exists l, (forall m, pit_calls m p (pit_new n x) = Some (answers m l)) /\
            (forall m, length l < m -> predicated_partitions_sized m n x p = Some l) /\
            StronglySorted lex_lt l /\ (forall s, In s l <-> is_partition p 1 n x s).
Proof. exact partitions_sized_ok. Qed.
Print Assumptions C02_partitions_sized_exact.

Theorem C02_partitions_sized_zero_exact : forall (p : nat -> bool) n x,
  exists l, (forall m, length l < m -> predicated_partitions_sized_zero m n x p = Some l) /\
            StronglySorted lex_lt l /\ (forall s, In s l <-> is_partition p 0 n x s).
Proof. exact partitions_sized_zero_ok. Qed.
Print Assumptions C02_partitions_sized_zero_exact.

Example C02_example : predicated_partitions_sized 10 7 3 Nat.odd = Some [[1;1;5];[1;3;3]]
  /\ is_partition Nat.odd 1 7 3 [1;3;3].
Proof. split; [reflexivity|]. repeat split; repeat constructor. Qed.

(* C03, for n >= 1; the code is wrong at n = 0 (next theorem). *)
Theorem C03_partitions_exact_partial : forall (p : nat -> bool) n, 1 <= n ->
  exists l M, (forall m, M <= m -> predicated_partitions m n p = Some l) /\ NoDup l /\
            (forall s, In s l <-> is_partition p 1 n (length s) s).
Proof. exact partitions_ok. Qed.
Print Assumptions C03_partitions_exact_partial.

Theorem C03_partitions_zero_refuted : forall (p : nat -> bool) m,
  predicated_partitions m 0 p = Some [] /\ is_partition p 1 0 0 [] /\
  (1 < m -> predicated_partitions_sized m 0 0 p = Some [[]]).
Proof.
  intros p m. split; [reflexivity|]. split; [repeat split; constructor|].
  intros H. destruct m as [|[|m]]; [lia|lia|]. reflexivity.
Qed.
Print Assumptions C03_partitions_zero_refuted.

Example C03_example : predicated_partitions 10 5 Nat.odd = Some [[5];[1;1;3];[1;1;1;1;1]].
Proof. reflexivity. Qed.

(* C04. Any interleaving of next() and exclude(a), a < n, of the iterator new(n,k) with k < n: no call panics or
   diverges and the answers are those of the abstract iterator that holds the sorted list of all k-subsets, hands out
   the first, and on exclude drops the subsets containing the excluded element. *)
Theorem C04_combinations_history : forall n k, k < n ->
  exists L, StronglySorted lex_lt L /\ (forall s, In s L <-> is_k_subset n k s) /\
    exists F, forall fuel ops, F <= fuel ->
      (forall a, In (Exclude a) ops -> a < n) ->
      comb_run fuel (comb_new n k) ops = Some (abs_run L ops).
Proof.
  intros n k Hk. exists (subsets n k). split; [exact (subsets_sorted k n)|]. split; [exact (subsets_in k n)|].
  exists (length (subsets n k) + 2). intros fuel ops Hf Ho. apply comb_run_ok; auto.
  apply Forall_forall. intros [|a] Hin; cbn; auto.
Qed.
Print Assumptions C04_combinations_history.

Example C04_example :
  comb_run 20 (comb_new 4 2) [Next; Exclude 1; Next; Exclude 0; Next; Next; Next]
  = Some [Some [0;1]; Some [0;2]; Some [2;3]; None; None].
Proof. reflexivity. Qed.

(* C05. Refuted: for k = n the only subset is never produced; for k > n next() panics. *)
Theorem C05_combinations_full_refuted : forall n,
  is_k_subset n n (seq 0 n) /\ (forall fuel, comb_run fuel (comb_new n n) [Next] = Some [None]).
Proof.
  intros n. split; [|intros; apply comb_full_none].
  repeat split; [apply seq_length|apply StronglySorted_seq|].
  apply Forall_forall. intros x Hx. apply in_seq in Hx. lia.
Qed.
Print Assumptions C05_combinations_full_refuted.

Theorem C05_combinations_over_panics_refuted : forall n k, n < k -> comb_next (comb_new n k) = None.
Proof. exact comb_over_panics. Qed.
Print Assumptions C05_combinations_over_panics_refuted.
