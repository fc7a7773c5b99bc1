(* number theory from mathcomp, transported to N *)
From Coq Require Import NArith Arith Lia List.
Set Warnings "-notation-overridden,-ambiguous-paths".
From mathcomp Require Import all_ssreflect.
From mathcomp Require Import binomial cyclic zmodp finalg.
From Verif Require Import NatSpec.
Local Open Scope N_scope.

Lemma modn_mod m d : (m %% d)%N = Nat.modulo m d.
Proof.
  case: d => [|d]; first by rewrite modn0.
  apply (Nat.mod_unique m d.+1 (m %/ d.+1)); first by apply/ltP; rewrite ltn_mod.
  by rewrite {1}(divn_eq m d.+1) multE plusE mulnC.
Qed.
Lemma expn_pow m n : (m ^ n)%N = Nat.pow m n.
Proof. elim: n => [|n IH] //. by rewrite expnS IH /= multE. Qed.
Lemma to_nat_mod a b : N.to_nat (a mod b) = (N.to_nat a %% N.to_nat b)%N.
Proof. by rewrite N2Nat.inj_mod modn_mod. Qed.
Lemma to_nat_pow a b : N.to_nat (a ^ b) = (N.to_nat a ^ N.to_nat b)%N.
Proof. by rewrite N2Nat.inj_pow expn_pow. Qed.
Lemma to_nat_mul a b : N.to_nat (a * b) = (N.to_nat a * N.to_nat b)%N.
Proof. by rewrite N2Nat.inj_mul multE. Qed.
Lemma to_nat_add a b : N.to_nat (a + b) = (N.to_nat a + N.to_nat b)%N.
Proof. by rewrite N2Nat.inj_add plusE. Qed.
Lemma to_nat_dvd a b : (N.to_nat a %| N.to_nat b)%N <-> (a | b).
Proof.
  split.
  - move/dvdnP => [k Hk]. exists (N.of_nat k). apply N2Nat.inj. by rewrite to_nat_mul Nat2N.id.
  - move=> [k ->]. by rewrite to_nat_mul dvdn_mull.
Qed.
Lemma to_nat_lt a b : (N.to_nat a < N.to_nat b)%N <-> a < b.
Proof. split; [move/ltP; lia|move=> H; apply/ltP; lia]. Qed.
Lemma to_nat_le a b : (N.to_nat a <= N.to_nat b)%N <-> a <= b.
Proof. split; [move/leP; lia|move=> H; apply/leP; lia]. Qed.
Lemma to_nat_gcd a b : N.to_nat (N.gcd a b) = gcdn (N.to_nat a) (N.to_nat b).
Proof.
  apply/eqP. rewrite eqn_dvd. apply/andP; split.
  - rewrite dvdn_gcd. apply/andP; split; apply/to_nat_dvd; [apply N.gcd_divide_l|apply N.gcd_divide_r].
  - rewrite -(Nat2N.id (gcdn _ _)). apply/to_nat_dvd. apply N.gcd_greatest; apply/to_nat_dvd; rewrite Nat2N.id; [apply dvdn_gcdl|apply dvdn_gcdr].
Qed.
Lemma prime_bridge p : prime (N.to_nat p) <-> prime_N p.
Proof.
  split.
  - move/primeP => [H1 H2]. split; first by apply to_nat_lt.
    move=> d Hd. have := H2 (N.to_nat d). move/to_nat_dvd: Hd => Hd. move/(_ Hd)/orP => [/eqP E|/eqP E]; [left|right]; apply N2Nat.inj; by rewrite E.
  - move=> [H1 H2]. apply/primeP; split; first by (apply (to_nat_lt 1)).
    move=> d Hd. have Hd' : (N.of_nat d | p) by apply/to_nat_dvd; rewrite Nat2N.id. case: (H2 _ Hd') => E; apply/orP; [left|right]; apply/eqP; rewrite -(Nat2N.id d) E //.
Qed.
Lemma fermat_N p a : prime_N p -> ~ (p | a) -> a ^ (p - 1) mod p = 1.
Proof.
  move=> Hp Hd. have H1 : 1 < p by apply Hp. have P : prime (N.to_nat p) by apply/prime_bridge.
  have C : coprime (N.to_nat a) (N.to_nat p). { rewrite coprime_sym prime_coprime //. apply/negP => /to_nat_dvd. exact: Hd. }
  have E2 := Euler_exp_totient C. rewrite totient_prime // in E2.
  apply N2Nat.inj. rewrite to_nat_mod to_nat_pow. have -> : N.to_nat (p - 1) = (N.to_nat p).-1 by lia.
  rewrite E2 modn_small //. by apply/prime_gt1.
Qed.
Lemma euclid_N p a b : prime_N p -> (p | a * b) -> (p | a) \/ (p | b).
Proof.
  move=> Hp /to_nat_dvd. rewrite to_nat_mul Euclid_dvdM; last by apply/prime_bridge. move/orP => [H|H]; [left|right]; by apply/to_nat_dvd.
Qed.
Lemma primes_unbounded m : exists p, m < p /\ prime_N p.
Proof.
  have [p Hp1 Hp2] := prime_above (N.to_nat m). exists (N.of_nat p). split; [apply to_nat_lt|apply/prime_bridge]; by rewrite Nat2N.id.
Qed.
Lemma euler_N n x : 0 < n -> N.gcd x n = 1 -> x ^ N.of_nat (totient (N.to_nat n)) mod n = 1 mod n.
Proof.
  move=> Hn G. apply N2Nat.inj. rewrite !to_nat_mod to_nat_pow Nat2N.id. apply: Euler_exp_totient. by rewrite /coprime -to_nat_gcd G.
Qed.
