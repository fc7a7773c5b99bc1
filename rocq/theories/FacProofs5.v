(* The integer factor() as a correct factoriser of the coefficient ring. *)
From Coq Require FinFun.
From Coq Require Import List Arith NArith ZArith Bool.
From mathcomp Require Import all_ssreflect all_algebra.
From mathcomp Require Import zify.
From Coq Require Import Lia.
From Verif Require Import RingSpec RingModel RingProofs RingProps FactoredSpec FactoredModel FactoredProofs FactoredProps NatSpec PermModel MatModel MatSpec ZRing MatInst PolyModel PolyProofs PolyProofs3 FacModel FacModel2.
From Verif Require NatBridge.
Close Scope rs_scope.
Set Implicit Arguments.
Unset Strict Implicit.
Unset Printing Implicit Defensive.
Import GRing.Theory.

Definition nat_factor_right (nf : N -> option (option (list (N * N)))) : Prop := forall n, N.lt 0 n -> exists l, nf n = Some (Some l) /\ factorisation_of n l.
Lemma Zrdvd (x y : Z) : @rdvd ZO x y <-> Z.divide x y.
Proof.
  split=> -[q E]; exists q; first by move: E => /eqP E; have E1 : y = Z.mul x q := E; lia.
  apply/eqP. have E1 : y = Z.mul x q by lia. exact: E1.
Qed.
Lemma Zrunit (u : Z) : @runit ZO u <-> u = Zpos 1 \/ u = Zneg 1.
Proof.
  split.
  - case=> v /eqP E. exact: (Z.mul_eq_1 u v).
  - by case=> ->; [exists (Zpos 1)|exists (Zneg 1)].
Qed.
Lemma Zrprime p : prime_N p -> @rprime ZO (Z.of_N p).
Proof.
  move=> H. have H1 : N.lt 1 p := proj1 H. split; [|split].
  - apply/eqP => E. have E1 : Z.of_N p = Z0 := E. lia.
  - move/Zrunit. lia.
  - move=> a b /Zrdvd Hd. have K (z : Z) : Z.divide (Z.of_N p) z <-> N.divide p (Z.abs_N z).
    { split=> -[q E]; [exists (Z.abs_N q)|exists (Z.mul (Z.sgn z) (Z.of_N q))]; nia. }
    move/K: Hd. rewrite [@rmul ZO a b]/(Z.mul a b) Zabs2N.inj_mul => /(NatBridge.euclid_N _ _ _ H) [] /K Hx; [left|right]; exact/Zrdvd.
Qed.
Lemma Zassoc_pos (x y : Z) : @rassoc ZO x y -> Z.lt 0 x -> Z.lt 0 y -> x = y.
Proof. case=> u [/Zrunit Hu /eqP E] Hx Hy. have E1 : x = Z.mul u y := E. nia. Qed.
Lemma Zexpand (u : Z) l : @expand ZO (@Factored ZO u (List.map (fun pk => (Z.of_N (fst pk), snd pk)) l)) = Z.mul u (Z.of_N (prod_powers l)).
Proof.
  have := C21_expand ZO Zdiv Zidom (@Factored ZO u (List.map (fun pk => (Z.of_N (fst pk), snd pk)) l)). move/eqP => ->. cbn [f_unit f_factors]. rewrite [@rmul ZO _ _]/(Z.mul _ _). congr Z.mul.
  elim: l => [|[p k] l IH] //. cbn [List.map powers_prod prod_powers fst snd]. rewrite IH [@rmul ZO _ _]/(Z.mul _ _) N2Z.inj_mul N2Z.inj_pow. congr Z.mul.
  rewrite -{2}(N2Nat.id k). elim: (N.to_nat k) => [|n IHn] //. rewrite Nat2N.inj_succ N2Z.inj_succ Z.pow_succ_r; last by lia. by rewrite -IHn.
Qed.
Lemma Zfactor_ok nf : nat_factor_right nf -> forall c : Z, c <> Z0 -> exists cf, Zfactor nf c = Some (Some cf) /\
  [/\ @runit ZO (f_unit cf), @valid_factors ZO (f_factors cf), @favs ZO Zffa (f_factors cf) & @expand ZO cf = c].
Proof.
  move=> H c Hc. rewrite /Zfactor. case: (Z.eqb_spec c Z0) => // _. have [|l [-> [L1 [L2 L3]]]] := H (Z.abs_N c); first by lia.
  eexists. split; first reflexivity. have Pp x : List.In x l -> prime_N (fst x) /\ N.lt 0 (snd x) by case: x => p k; exact: L2.
  split.
  - apply/Zrunit. by case: Z.ltb; [right|left].
  - split.
    + cbn [f_factors]. apply/List.Forall_forall => x /List.in_map_iff [y [<- /Pp [Hy Hk]]]. split=> //. exact: Zrprime.
    + rewrite /non_associate. cbn [f_factors]. elim: l L1 Pp {L2 L3} => [|x l IH] L1 Pp; first by constructor. cbn [List.map]. inversion L1 as [|? ? Hn Hl]; subst. constructor; last by apply: IH => // y Hy; apply: Pp; right.
      apply/List.Forall_forall => y /List.in_map_iff [z [<- Hz]] Has. cbn [fst] in Has. apply: Hn. have E : Z.of_N (fst x) = Z.of_N (fst z).
      { apply: Zassoc_pos Has _ _; [have [[? _] _] := Pp x (or_introl erefl)|have [[? _] _] := Pp z (or_intror Hz)]; lia. }
      have -> : fst x = fst z by lia. exact: List.in_map.
  - rewrite /favs. cbn [f_factors]. apply/List.Forall_forall => x /List.in_map_iff [y [<- /Pp [[Hy _] _]]]. cbn [fst]. apply/eqP. rewrite /Zffa /Z_ffa. by case: (fst y) Hy.
  - rewrite Zexpand L3. case: (Z.ltb_spec c Z0); lia.
Qed.
(* the contract of number/natural/factor.rs can be met *)
Definition nf_spec (n : N) : option (option (list (N * N))) :=
  if N.eqb n 0 then Some None else Some (Some (List.map (fun pk => (N.of_nat pk.1, N.of_nat pk.2)) (prime_decomp (N.to_nat n)))).
Lemma nf_spec_right : nat_factor_right nf_spec.
Proof.
  move=> n Hn. rewrite /nf_spec. case: (N.eqb_spec n 0) => [E|_]; first by lia. eexists. split; first reflexivity. set m := N.to_nat n. have Hm : (0 < m)%N by lia.
  have Hin p e : (p, e) \in prime_decomp m -> prime p /\ (0 < e)%N by move/mem_prime_decomp=> [].
  split; [|split].
  - rewrite List.map_map. cbn [fst]. rewrite -(List.map_map (fun pk : nat * nat => pk.1) N.of_nat). apply: FinFun.Injective_map_NoDup; first exact: Nat2N.inj.
    have : uniq (primes m) := primes_uniq m. rewrite /primes /unzip1. have -> : List.map (fun pk : nat * nat => pk.1) (prime_decomp m) = [seq x.1 | x <- prime_decomp m] by []. elim: [seq x.1 | x <- prime_decomp m] => [|x s IH] /=; first by constructor.
    case/andP=> Hx Hs. constructor; last exact: IH. move=> K. move/negP: Hx; apply. elim: s K {IH Hs} => [|y s IH] //= []; rewrite in_cons; first by move=> ->; rewrite eqxx. by move/IH ->; rewrite orbT.
  - move=> p k /List.in_map_iff [[q e] [[<- <-] Hq]]. have : (q, e) \in prime_decomp m. { elim: (prime_decomp m) Hq => //= y s IH [->|/IH K]; rewrite in_cons ?eqxx // K orbT //. }
    move/Hin => [H1 H2]. split; last by cbn [snd]; lia. apply/NatBridge.prime_bridge. by rewrite Nat2N.id.
  - have : m = (\prod_(f <- prime_decomp m) f.1 ^ f.2)%N by apply: prod_prime_decomp. have -> : n = N.of_nat m by lia. move=> {2}->.
    elim: (prime_decomp m) => [|[q e] s IH]; first by rewrite big_nil. rewrite big_cons. cbn [List.map prod_powers]. rewrite IH. cbn [fst snd]. have -> : N.pow (N.of_nat q) (N.of_nat e) = N.of_nat (q ^ e)%N; lia.
Qed.
Lemma Zelems_inj : injective Zelems.
Proof.
  have CZ : char_zero ZO.
  { by have := proj1 C18_example. }
  have [z [_ [_ [_ [H1 H2]]]]] := C18_generate_distinct ZO (id_ring _ _ Zidom) CZ.
  move=> i j E. set m := (S (i + j))%coq_nat. have K k : (k < m)%coq_nat -> List.nth k (@generate_distinct_elements ZO m) Z0 = Zelems k.
  { move=> Hk. rewrite /Zelems. have /eqP E1 := H1 m k Hk. have /eqP E2 := H1 k.+1 k (Nat.lt_succ_diag_r k). etransitivity; [exact: E1|symmetry; exact: E2]. }
  apply: (H2 m i j); [by rewrite /m; lia|by rewrite /m; lia|]. apply/eqP. etransitivity; first by apply: K; rewrite /m; lia. rewrite E. symmetry. apply: K. rewrite /m. lia.
Qed.
