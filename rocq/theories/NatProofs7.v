(* every attempt of Pollard's rho terminates (Floyd's cycle argument) *)
From Coq Require Import NArith ZArith List Bool Lia.
From Verif Require Import RingSpec RingModel NatSpec NatModel NatProofs.
Import ListNotations.
Local Open Scope N_scope.
Section Rho.
Variable n : N.
Hypothesis Hn : 1 < n.
Definition ff (z : N) : N := g1 z mod n.
Definition it (k : nat) (z : N) : N := Nat.iter k ff z.
Lemma it_add a b z : it (a + b) z = it a (it b z). Proof. unfold it. induction a; cbn; auto. f_equal. auto. Qed.
Lemma g1g1 y : g1 (g1 y) mod n = ff (ff y).
Proof. unfold ff, g1. set (u := y * y + 1). rewrite (N.add_mod (u * u)), (N.add_mod (u mod n * (u mod n))), (N.mul_mod u u) by lia. reflexivity. Qed.
Lemma it_lt k z : (0 < k)%nat -> it k z < n. Proof. destruct k; [lia|]. intros _. cbn. unfold ff. apply N.mod_lt. lia. Qed.
Lemma collision z : exists i j, (0 < i < j)%nat /\ (j <= S (N.to_nat n))%nat /\ it i z = it j z.
Proof.
  set (l := map (fun k => it k z) (seq 1 (S (N.to_nat n)))).
  assert (ND : ~ NoDup l).
  { intros ND. assert (I : incl l (map N.of_nat (seq 0 (N.to_nat n)))).
    { intros x Hx. apply in_map_iff in Hx as (k & <- & Hk). apply in_seq in Hk. apply in_map_iff. exists (N.to_nat (it k z)). split; [lia|]. apply in_seq. pose proof (it_lt k z ltac:(lia)). lia. }
    pose proof (NoDup_incl_length ND I) as L. unfold l in L. rewrite !map_length, !seq_length in L. lia. }
  assert (G : forall s len, ~ NoDup (map (fun k => it k z) (seq s len)) -> exists i j, (s <= i < j)%nat /\ (j < s + len)%nat /\ it i z = it j z).
  { intros s len. revert s. induction len as [|len IH]; intros s H; [exfalso; apply H; constructor|]. cbn [seq map] in H. destruct (in_dec N.eq_dec (it s z) (map (fun k => it k z) (seq (S s) len))) as [Hin|Hin].
    - apply in_map_iff in Hin as (j & E & Hj). apply in_seq in Hj. exists s, j. split; [lia|]. split; [lia|]. auto.
    - destruct (IH (S s)) as (i & j & H1 & H2 & H3); [intros C; apply H; constructor; auto|]. exists i, j. split; [lia|]. split; [lia|]. auto. }
  destruct (G 1%nat (S (N.to_nat n)) ND) as (i & j & H1 & H2 & H3). exists i, j. split; [lia|]. split; [lia|]. auto.
Qed.
Lemma meeting z : exists k, (0 < k)%nat /\ it k z = it (2 * k) z.
Proof.
  destruct (collision z) as (i & j & H1 & H2 & E). set (d := (j - i)%nat).
  assert (P : forall t a, (i <= a)%nat -> it (a + t * d) z = it a z).
  { induction t as [|t IH]; intros a Ha; [f_equal; lia|]. replace (a + S t * d)%nat with ((a - i) + t * d + j)%nat by (unfold d; nia). rewrite it_add, <- E, <- it_add. replace (a - i + t * d + i)%nat with (a + t * d)%nat by lia. auto. }
  exists (i * d)%nat. split; [unfold d; nia|]. replace (2 * (i * d))%nat with (i * d + i * d)%nat by lia. symmetry. apply P. unfold d. nia.
Qed.
Lemma rho_run z k : forall fuel a, (k - a < fuel)%nat -> (a < k)%nat -> it k z = it (2 * k) z -> exists d, rho_inner fuel n (it a z) (it (2 * a) z) = Some d.
Proof.
  induction fuel as [|f IH]; intros a Hf Ha E; [lia|]. cbn [rho_inner]. rewrite gcd_spec. cbn [obind]. rewrite g1g1. change (g1 (it a z) mod n) with (it (S a) z). change (ff (ff (it (2 * a) z))) with (it (S (S (2 * a))) z).
  destruct (N.ltb_spec 1 (N.gcd (N.max (it (S a) z) (it (S (S (2 * a))) z) - N.min (it (S a) z) (it (S (S (2 * a))) z)) n)); [eauto|].
  replace (S (S (2 * a))) with (2 * S a)%nat in * by lia. destruct (Nat.eq_dec (S a) k) as [Hk|Hk]; [|apply IH; auto; lia].
  exfalso. subst k. rewrite <- E, N.max_id, N.min_id, N.sub_diag, N.gcd_0_l in H. lia.
Qed.
Lemma rho_attempt z : exists F, forall fuel, (F <= fuel)%nat -> exists d, rho_inner fuel n z z = Some d.
Proof.
  destruct (meeting z) as (k & Hk & E). exists (S k). intros fuel Hf. apply (rho_run z k fuel 0); auto; lia.
Qed.
End Rho.
