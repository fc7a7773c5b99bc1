(* Euler's function and multiplicative orders *)
From Coq Require Import NArith Arith Lia List.
Set Warnings "-notation-overridden,-ambiguous-paths".
From mathcomp Require Import all_ssreflect.
From mathcomp Require Import binomial cyclic zmodp finalg.
From Verif Require Import NatSpec NatBridge.
Local Open Scope N_scope.

Lemma length_filter_count (T : Type) (p : T -> bool) l : List.length (List.filter p l) = count p l.
Proof. elim: l => [|x l IH] //=. by case: (p x) => /=; rewrite IH. Qed.
Lemma seq_iota m n : List.seq m n = iota m n. Proof. by elim: n m => [|n IH] m //=; rewrite IH. Qed.
Lemma totient_bridge n : 0 < n -> totient_spec n = N.of_nat (totient (N.to_nat n)).
Proof.
  move=> Hn. rewrite /totient_spec length_filter_count seq_iota. congr N.of_nat. rewrite totient_count_coprime.
  have -> : (\sum_(0 <= d < N.to_nat n) coprime (N.to_nat n) d = count (coprime (N.to_nat n)) (iota 0 (N.to_nat n)))%N.
  { rewrite -sum1_count /index_iota subn0. symmetry. rewrite big_mkcond /=. apply: eq_bigr => i _. by case: (coprime _ _). }
  have E : forall l, count (fun x => N.gcd (N.of_nat x) n =? 1) l = count (coprime (N.to_nat n)) l.
  { move=> l. apply eq_count => x. rewrite coprime_sym /coprime. apply/idP/idP.
    - move/N.eqb_eq => E. by rewrite -(Nat2N.id x) -to_nat_gcd E.
    - move/eqP => E. apply/N.eqb_eq. apply N2Nat.inj. by rewrite to_nat_gcd Nat2N.id E. }
  rewrite E. case En : (N.to_nat n) => [|k]; first by lia. rewrite -addn1 addn1. rewrite -[X in iota 1 X]addn1 iotaD count_cat /= addn0 add1n.
  rewrite /coprime gcdnn gcdn0. by rewrite addnC.
Qed.
Fixpoint tot_prod (l : list (N * N)) : N := match l with nil => 1 | cons (p, k) l' => (p - 1) * p ^ (k - 1) * tot_prod l' end.
Lemma to_nat_prod_coprime p l : prime_N p -> (forall q k, List.In (q, k) l -> prime_N q /\ 0 < k) -> ~ List.In p (List.map fst l) -> coprime (N.to_nat p) (N.to_nat (prod_powers l)).
Proof.
  move=> Hp. elim: l => [|[q k] l IH] H Hin; first by rewrite coprimen1. rewrite [prod_powers _]/= to_nat_mul to_nat_pow coprimeMr. apply/andP; split.
  - apply coprimeXr. rewrite prime_coprime; last by apply/prime_bridge. apply/negP => D. rewrite dvdn_prime2 in D; try (apply/prime_bridge); auto.
    + apply Hin. left. rewrite /=. apply N2Nat.inj. by rewrite (eqP D).
    + apply (H q k). by left.
  - apply IH; [by move=> r j Hr; apply (H r j); right|by move=> C; apply Hin; right].
Qed.
Lemma tot_prod_spec l : List.NoDup (List.map fst l) -> (forall q k, List.In (q, k) l -> prime_N q /\ 0 < k) -> tot_prod l = N.of_nat (totient (N.to_nat (prod_powers l))).
Proof.
  elim: l => [|[p k] l IH] ND H; first by []. inversion ND as [|a b Hp ND']; subst. have [Pp Hk] := H p k (or_introl Logic.eq_refl).
  have H' : forall q j, List.In (q, j) l -> prime_N q /\ 0 < j by move=> q j Hq; apply (H q j); right.
  rewrite [prod_powers _]/= [tot_prod _]/= IH // to_nat_mul to_nat_pow totient_coprime; last by apply coprimeXl; apply to_nat_prod_coprime.
  rewrite totient_pfactor; [|by apply/prime_bridge|by apply/ltP; lia].
  apply N2Nat.inj. rewrite !to_nat_mul !Nat2N.id to_nat_pow. congr muln. congr muln; [|congr expn]; lia.
Qed.
Lemma totient_formula n l : factorisation_of n l -> tot_prod l = totient_spec n.
Proof.
  move=> [ND [H E]]. have Hn : 0 < n. { rewrite -E. clear E ND. elim: l H => [|[p k] l IH] H; first by []. rewrite [prod_powers _]/=. have [[Hp _] _] := H p k (or_introl Logic.eq_refl).
    have H1 : 0 < prod_powers l by apply IH => q j Hq; apply (H q j); right. have H2 : p ^ k <> 0 by apply N.pow_nonzero; lia. nia. }
  by rewrite totient_bridge // -E; apply tot_prod_spec.
Qed.
Lemma totient_pos n : 0 < n -> 0 < totient_spec n.
Proof. move=> Hn. rewrite totient_bridge //. have : (0 < totient (N.to_nat n))%N by rewrite totient_gt0; apply/ltP; lia. move/ltP. lia. Qed.
Lemma euler_spec n x : 0 < n -> N.gcd x n = 1 -> x ^ totient_spec n mod n = 1 mod n.
Proof. move=> Hn G. rewrite totient_bridge //. by apply euler_N. Qed.

Lemma pow_one_mul n x a b : n <> 0 -> x ^ a mod n = 1 mod n -> x ^ (a * b) mod n = 1 mod n.
Proof.
  move=> Hn Ha. rewrite N.pow_mul_r. elim/N.peano_ind: b => [|b IH]; first by rewrite N.pow_0_r. rewrite N.pow_succ_r'. by rewrite N.mul_mod // Ha IH -N.mul_mod.
Qed.
Lemma pow_one_gcd n x j phi : n <> 0 -> 0 < j -> x ^ j mod n = 1 mod n -> x ^ phi mod n = 1 mod n -> x ^ N.gcd j phi mod n = 1 mod n.
Proof.
  move=> Hn Hj Ej E. have [a [b Hab]] := N.gcd_bezout_pos j phi Hj.
  have E1 := pow_one_mul _ _ _ a Hn Ej. have E2 := pow_one_mul _ _ _ b Hn E. rewrite (N.mul_comm j a) Hab N.pow_add_r (N.mul_comm b phi) in E1.
  rewrite N.mul_mod // E2 -N.mul_mod // N.mul_1_r in E1. exact E1.
Qed.
(* x^phi = 1 and x^(phi/p) <> 1 for every prime p | phi: then phi is the order *)
Lemma order_criterion1 n x phi : n <> 0 -> 0 < phi -> x ^ phi mod n = 1 mod n ->
  (forall p, prime_N p -> (p | phi) -> x ^ (phi / p) mod n <> 1 mod n) -> mult_order n x phi.
Proof.
  move=> Hn Hphi E H. split; auto. split; auto. move=> j Hj Ej. have [//|C] := N.le_gt_cases phi j. exfalso.
  have Eg := pow_one_gcd _ _ _ _ Hn Hj Ej E. have [c Hc] := N.gcd_divide_r j phi.
  have Hg : N.gcd j phi <= j by apply N.divide_pos_le; [assumption|apply N.gcd_divide_l].
  have Hc1 : 1 < c. { have [H1|//] := N.le_gt_cases c 1. exfalso. have [H0|H0] : c = 0 \/ c = 1 by lia. all: rewrite H0 in Hc; lia. }
  have P1 : (1 < N.to_nat c)%N by apply/ltP; lia.
  have Pq : prime_N (N.of_nat (pdiv (N.to_nat c))) by apply/prime_bridge; rewrite Nat2N.id; apply pdiv_prime.
  have Dq : (N.of_nat (pdiv (N.to_nat c)) | c) by apply/to_nat_dvd; rewrite Nat2N.id; apply pdiv_dvd.
  move: Pq Dq. move: (N.of_nat _) => q Pq [e He]. have q0 : q <> 0 by case: Pq => Pq _ Z; rewrite Z in Pq.
  have E3 : phi = N.gcd j phi * e * q. { rewrite {1}Hc He. ring. }
  apply (H q Pq). { exists (N.gcd j phi * e). exact E3. }
  have -> : phi / q = N.gcd j phi * e by rewrite {1}E3; apply N.div_mul.
  by apply pow_one_mul.
Qed.
Lemma order_criterion2 n x phi : 0 < phi -> mult_order n x phi -> forall p, prime_N p -> (p | phi) -> x ^ (phi / p) mod n <> 1 mod n.
Proof.
  move=> Hphi [_ [_ H]] p Pp [c Hc] Ec. have p1 : 1 < p by apply Pp. have Hd : phi / p = c by rewrite Hc; apply N.div_mul => Z; rewrite Z in p1. rewrite Hd in Ec.
  have Hc0 : 0 < c. { case: (N.eq_dec c 0) => Hz; [rewrite Hz in Hc|]; lia. } have L := H c Hc0 Ec. have L2 : c * 2 <= c * p by apply N.mul_le_mono_l; lia. lia.
Qed.
