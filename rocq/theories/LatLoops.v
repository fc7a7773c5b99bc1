(* Loops that fill matrices entry by entry *)
From Coq Require Import List Arith Lia Bool.
From Verif Require Import RingSpec RingModel PermModel MatModel MatProofs.
Import ListNotations.
Close Scope rs_scope.
Open Scope nat_scope.

Section L.
Context {A : Type}.
Lemma put_row_shape P n (m : matrix A) f r (v : nat -> A) body : shape P (S n) m f -> r < P ->
  (forall idx s, idx < n -> body idx s = put s r (S idx) (v idx)) ->
  exists m', forM (range 0 n) body m = Some m' /\ shape P (S n) m' (fun i j => if (i =? r) && (1 <=? j) then v (j - 1) else f i j).
Proof.
  intros Hm Hr Hb. destruct (@forM_range (matrix A) body (fun t m' => shape P (S n) m' (fun i j => if (i =? r) && ((1 <=? j) && (j <=? t)) then v (j - 1) else f i j)) 0 n m) as (m' & E & H).
  - lia.
  - apply (shape_ext _ _ _ _ _ Hm). intros i j _ _. destruct (Nat.leb_spec 1 j), (Nat.leb_spec j 0); try lia; destruct (i =? r); reflexivity.
  - intros t s Ht Hs. rewrite (Hb t s) by lia. destruct (put_shape P (S n) s _ r (S t) (v t) Hs Hr ltac:(lia)) as (s' & E & H). exists s'. split; auto.
    apply (shape_ext _ _ _ _ _ H). intros i j Hi Hj. cbn beta.
    destruct (Nat.eqb_spec i r); cbn [andb]; [|reflexivity]. destruct (Nat.eqb_spec j (S t)) as [->|].
    + destruct (Nat.leb_spec (S t) (t + 1)); [|lia]. cbn. f_equal. lia.
    + destruct (Nat.leb_spec 1 j); cbn; [|reflexivity]. destruct (Nat.leb_spec j t), (Nat.leb_spec j (t + 1)); try lia; reflexivity.
  - exists m'. split; auto. apply (shape_ext _ _ _ _ _ H). intros i j Hi Hj. destruct (Nat.leb_spec j n); [|lia]. rewrite andb_true_r. reflexivity.
Qed.
Lemma put_rows_shape k n (m : matrix A) f (v : nat -> nat -> A) body : shape (S k) (S n) m f ->
  (forall bn idx s, bn < k -> idx < n -> body bn idx s = put s (S bn) (S idx) (v bn idx)) ->
  exists m', forM (range 0 k) (fun bn m => forM (range 0 n) (fun idx m => body bn idx m) m) m = Some m' /\
     shape (S k) (S n) m' (fun i j => if (1 <=? i) && (1 <=? j) then v (i - 1) (j - 1) else f i j).
Proof.
  intros Hm Hb. destruct (@forM_range (matrix A) (fun bn m => forM (range 0 n) (fun idx m => body bn idx m) m)
    (fun t m' => shape (S k) (S n) m' (fun i j => if ((1 <=? i) && (i <=? t)) && (1 <=? j) then v (i - 1) (j - 1) else f i j)) 0 k m) as (m' & E & H).
  - lia.
  - apply (shape_ext _ _ _ _ _ Hm). intros i j _ _. destruct (Nat.leb_spec 1 i), (Nat.leb_spec i 0); try lia; reflexivity.
  - intros t s Ht Hs. destruct (put_row_shape (S k) n s _ (S t) (v t) (fun idx m => body t idx m) Hs ltac:(lia)) as (s' & E & H); [intros; apply Hb; lia|]. exists s'. split; auto.
    apply (shape_ext _ _ _ _ _ H). intros i j Hi Hj. cbn beta. destruct (Nat.eqb_spec i (S t)) as [->|].
    + destruct (Nat.leb_spec (S t) (t + 1)); [|lia]. destruct (Nat.leb_spec 1 (S t)); [|lia]. destruct (Nat.leb_spec (S t) t); [lia|]. cbn [andb]. destruct (1 <=? j); [f_equal; lia|reflexivity].
    + cbn [andb]. destruct (Nat.leb_spec i t), (Nat.leb_spec i (t + 1)); try lia; reflexivity.
  - exists m'. split; auto. apply (shape_ext _ _ _ _ _ H). intros i j Hi Hj. destruct (Nat.leb_spec i k); [|lia]. rewrite andb_true_r. reflexivity.
Qed.
Lemma fill_shape p q (m : matrix A) f (v : nat -> A) body : shape p q m f ->
  (forall idx s, idx < p * q -> body idx s = put s (idx / q) (idx mod q) (v idx)) ->
  exists m', forM (range 0 (p * q)) body m = Some m' /\ shape p q m' (fun i j => v (j + i * q)).
Proof.
  intros Hm Hb. destruct (@forM_range (matrix A) body (fun t m' => shape p q m' (fun i j => if j + i * q <? t then v (j + i * q) else f i j)) 0 (p * q) m) as (m' & E & H).
  - lia.
  - exact Hm.
  - intros t s Ht Hs. rewrite (Hb t s) by lia. destruct (flat_idx p q t ltac:(lia)) as [H1 H2].
    destruct (put_shape p q s _ (t / q) (t mod q) (v t) Hs H1 H2) as (s' & E & H). exists s'. split; auto.
    apply (shape_ext _ _ _ _ _ H). intros i j Hi Hj. cbn beta. pose proof (Nat.div_mod t q ltac:(lia)) as D.
    destruct (Nat.eqb_spec i (t / q)) as [->|Ni]; [destruct (Nat.eqb_spec j (t mod q)) as [->|Nj]|]; cbn [andb].
    + replace (t mod q + t / q * q) with t by lia. destruct (Nat.ltb_spec t (t + 1)); [reflexivity|lia].
    + destruct (Nat.ltb_spec (j + t / q * q) t), (Nat.ltb_spec (j + t / q * q) (t + 1)); try lia; reflexivity.
    + assert (j + i * q <> t). { intros E'. apply Ni. rewrite <- E'. rewrite Nat.div_add, Nat.div_small by lia. reflexivity. }
      destruct (Nat.ltb_spec (j + i * q) t), (Nat.ltb_spec (j + i * q) (t + 1)); try lia; reflexivity.
  - exists m'. split; auto. apply (shape_ext _ _ _ _ _ H). intros i j Hi Hj. destruct (Nat.ltb_spec (j + i * q) (p * q)); [reflexivity|nia].
Qed.
End L.
