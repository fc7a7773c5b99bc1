(* Property theorems for the generic ring layer: C14 - C20, C53, C54. *)
From Coq Require Import List Arith NArith ZArith Znumtheory Bool Lia.
From Verif Require Import RingSpec RingModel RingProofs RingProofs2.
Import ListNotations.
Open Scope nat_scope.
Open Scope rs_scope.

(* C14. nat_pow is the n-fold product in every commutative ring. *)
Theorem C14_nat_pow : forall (R : ring_ops), ring_laws R -> forall (a : T R) n, nat_pow a n == npow a (N.to_nat n).
Proof. intros R L a n. exact (nat_pow_ok R L a n). Qed.
Print Assumptions C14_nat_pow.
(* int_pow: for n >= 0 the n-fold product, for n < 0 the inverse of a^|n| when a is a unit, None for a nonzero non-unit. *)
Theorem C14_int_pow_partial : forall R div, idom_laws R div -> forall (a : T R) (n : Z),
  ((0 <= n)%Z -> exists b, int_pow div a n = Some (Some b) /\ b == npow a (Z.to_nat n)) /\
  ((n < 0)%Z -> runit a -> exists b, int_pow div a n = Some (Some b) /\ b * npow a (Z.to_nat (- n)) == r1) /\
  ((n < 0)%Z -> ~ runit a -> a =/= r0 -> int_pow div a n = Some None).
Proof. intros R div D a n. exact (int_pow_ok R (id_ring _ _ D) div D a n). Qed.
Print Assumptions C14_int_pow_partial.
(* For the remaining case, the non-unit 0, the code answers Some(0) instead of None: in every integral domain. *)
Theorem C14_int_pow_zero_negative_refuted : forall R div, idom_laws R div -> forall n, (n < 0)%Z ->
  ~ @runit R r0 /\ int_pow div (@r0 R) n = Some (Some r0).
Proof.
  intros R div D n Hn. split.
  - intros H. apply (unit_ne_zero R (id_ring _ _ D) div D r0 H). apply (req_refl _ (id_ring _ _ D)).
  - unfold int_pow. destruct (Z.eqb_spec n 0); [lia|]. unfold is_zero. rewrite (req_refl _ (id_ring _ _ D)). reflexivity.
Qed.
Print Assumptions C14_int_pow_zero_negative_refuted.
Example C14_example : @nat_pow Z_ops (-3)%Z 5 = (-243)%Z /\ int_pow Z_div (-1)%Z (-3) = Some (Some (-1)%Z) /\ int_pow Z_div 2%Z (-1) = Some None
  /\ @nat_pow F4_ops Alpha 2 = Beta.
Proof. vm_compute. auto. Qed.

(* C15. Euclid's algorithm terminates (with any sufficient amount of fuel the answer is the same kind of answer) and
   returns a gcd in favourite-associate form with Bezout coefficients. *)
Theorem C15_euclidean_xgcd : forall R div ffa norm quorem,
  idom_laws R div -> ffa_laws R ffa -> euclid_laws R norm quorem ->
  forall x y : T R, exists enough g a b, forall fuel, enough <= fuel ->
    euclidean_xgcd div ffa quorem fuel x y = Some (g, a, b) /\
    euclidean_gcd ffa quorem fuel x y = Some g /\
    is_gcd g x y /\ snd (ffa g) == g /\ g == a * x + b * y.
Proof.
  intros R div ffa norm quorem D F E x y. pose proof (id_ring _ _ D) as L.
  destruct (euclidean_xgcd_ok R L div D ffa F norm quorem E (S (nrm R norm y)) x y (Nat.lt_succ_diag_r _)) as (g & a & b & H1 & H2 & H3 & H4 & H5).
  exists (S (nrm R norm y)), g, a, b. intros fuel Hf.
  assert (M1 : forall f1 f2 x y r, f1 <= f2 -> euclidean_gcd ffa quorem f1 x y = Some r -> euclidean_gcd ffa quorem f2 x y = Some r).
  { clear. induction f1 as [|f1 IH]; intros [|f2] x y r Hle; cbn [euclidean_gcd]; try discriminate; [lia|].
    destruct (negb (is_zero y)); auto. destruct (rem quorem x y); auto. apply IH. lia. }
  assert (M2 : forall f1 f2 x y pa a pb b r, f1 <= f2 -> xgcd_loop div ffa quorem f1 x y pa a pb b = Some r -> xgcd_loop div ffa quorem f2 x y pa a pb b = Some r).
  { clear. induction f1 as [|f1 IH]; intros [|f2] x y pa a pb b r Hle; cbn [xgcd_loop]; try discriminate; [lia|].
    destruct (negb (is_zero y)); auto. destruct (quorem x y) as [[q r']|]; auto. apply IH. lia. }
  split; [eapply M2; eauto|]. split; [eapply M1; eauto|]. auto.
Qed.
Print Assumptions C15_euclidean_xgcd.
(* the contracts are met by the integers and by every field *)
Theorem C15_contracts_Z : idom_laws Z_ops Z_div /\ ffa_laws Z_ops Z_ffa /\ euclid_laws Z_ops Z_norm Z_quorem /\ norm_mono Z_ops Z_norm.
Proof. exact (conj Z_idom_laws (conj Z_ffa_laws (conj Z_euclid_laws Z_norm_mono))). Qed.
Print Assumptions C15_contracts_Z.
Theorem C15_contracts_field : forall R div, field_laws R div ->
  ffa_laws R field_ffa /\ euclid_laws R field_norm (field_quorem div).
Proof. intros R div FL. exact (conj (field_ffa_laws R div FL) (field_euclid_laws R div FL)). Qed.
Print Assumptions C15_contracts_field.
Example C15_example : euclidean_xgcd Z_div Z_ffa Z_quorem 20 (-12)%Z 18%Z = Some (6%Z, 1%Z, 1%Z) /\ euclidean_gcd Z_ffa Z_quorem 20 0%Z 0%Z = Some 0%Z.
Proof. vm_compute. auto. Qed.

(* C16 *)
Theorem C16_gcd_list : forall R ffa gcd, ring_laws R -> ffa_laws R ffa -> gcd_laws R ffa gcd ->
  forall l : list (T R), is_gcd_list (gcd_list gcd l) l /\ (l <> [] -> snd (ffa (gcd_list gcd l)) == gcd_list gcd l).
Proof. intros R ffa gcd L F G l. split; [exact (gcd_list_ok R L ffa gcd G l)|exact (gcd_list_fav R ffa gcd G l)]. Qed.
Print Assumptions C16_gcd_list.
Theorem C16_lcm : forall R div ffa gcd, idom_laws R div -> gcd_laws R ffa gcd ->
  (forall x y : T R, exists m, lcm div gcd x y = Some m /\ is_lcm m x y) /\
  (forall l : list (T R), exists m, lcm_list div gcd l = Some m /\ is_lcm_list m l).
Proof. intros R div ffa gcd D G. split; [exact (lcm_ok R (id_ring _ _ D) div D ffa gcd G)|exact (lcm_list_ok R (id_ring _ _ D) div D ffa gcd G)]. Qed.
Print Assumptions C16_lcm.
Theorem C16_xgcd_list : forall R div ffa xgcd, idom_laws R div -> ffa_laws R ffa -> xgcd_laws R xgcd ->
  forall l fuel, length l < fuel -> exists g cs, xgcd_list div ffa xgcd fuel l = Some (g, cs) /\ length cs = length l /\
    is_gcd_list g l /\ rdot cs l == g.
Proof. intros R div ffa xgcd D F X l fuel Hl. exact (xgcd_list_ok R (id_ring _ _ D) div D ffa F xgcd X fuel l Hl). Qed.
Print Assumptions C16_xgcd_list.
(* The gcd/xgcd that Euclidean domains get from Euclid's algorithm meet the contracts assumed in C16. *)
Theorem C16_contracts_euclidean : forall R div ffa norm quorem,
  idom_laws R div -> ffa_laws R ffa -> euclid_laws R norm quorem ->
  exists gcd xgcd, (forall x y : T R, exists enough, forall fuel, enough <= fuel ->
      euclidean_gcd ffa quorem fuel x y = Some (gcd x y) /\ euclidean_xgcd div ffa quorem fuel x y = Some (xgcd x y)) /\
    gcd_laws R ffa gcd /\ xgcd_laws R xgcd.
Proof.
  intros R div ffa norm quorem D F E.
  exists (fun x y => match euclidean_gcd ffa quorem (S (nrm R norm y)) x y with Some g => g | None => r0 end),
         (fun x y => match euclidean_xgcd div ffa quorem (S (nrm R norm y)) x y with Some g => g | None => (r0, r0, r0) end).
  split; [|split].
  - intros x y. destruct (C15_euclidean_xgcd R div ffa norm quorem D F E x y) as (n & g & a & b & H).
    exists (n + S (nrm R norm y))%nat. intros fuel Hf.
    destruct (H fuel ltac:(lia)) as (H1 & H2 & _).
    destruct (euclidean_xgcd_ok R (id_ring _ _ D) div D ffa F norm quorem E (S (nrm R norm y)) x y (Nat.lt_succ_diag_r _)) as (g' & a' & b' & H1' & H2' & _).
    rewrite H1', H2'.
    assert (M1 : forall f1 f2 x y r, f1 <= f2 -> euclidean_gcd ffa quorem f1 x y = Some r -> euclidean_gcd ffa quorem f2 x y = Some r).
    { clear. induction f1 as [|f1 IH]; intros [|f2] x y r Hle; cbn [euclidean_gcd]; try discriminate; [lia|].
      destruct (negb (is_zero y)); auto. destruct (rem quorem x y); auto. apply IH. lia. }
    assert (M2 : forall f1 f2 x y pa a pb b r, f1 <= f2 -> xgcd_loop div ffa quorem f1 x y pa a pb b = Some r -> xgcd_loop div ffa quorem f2 x y pa a pb b = Some r).
    { clear. induction f1 as [|f1 IH]; intros [|f2] x y pa a pb b r Hle; cbn [xgcd_loop]; try discriminate; [lia|].
      destruct (negb (is_zero y)); auto. destruct (quorem x y) as [[q r']|]; auto. apply IH. lia. }
    split; [eapply M1; [|exact H2']; lia|eapply M2; [|exact H1']; lia].
  - intros x y. destruct (euclidean_xgcd_ok R (id_ring _ _ D) div D ffa F norm quorem E (S (nrm R norm y)) x y (Nat.lt_succ_diag_r _)) as (g & a & b & H1 & H2 & H3 & H4 & H5).
    rewrite H2. auto.
  - intros x y. destruct (euclidean_xgcd_ok R (id_ring _ _ D) div D ffa F norm quorem E (S (nrm R norm y)) x y (Nat.lt_succ_diag_r _)) as (g & a & b & H1 & H2 & H3 & H4 & H5).
    rewrite H1. auto.
Qed.
Print Assumptions C16_contracts_euclidean.
Example C16_example :
  let gcd x y := match euclidean_gcd Z_ffa Z_quorem 50 x y with Some g => g | None => 0%Z end in
  let xgcd x y := match euclidean_xgcd Z_div Z_ffa Z_quorem 50 x y with Some g => g | None => (0, 0, 0)%Z end in
  @gcd_list Z_ops gcd [-12; 18; 0; 27]%Z = 3%Z /\ @lcm_list Z_ops Z_div gcd [4; 6; -10]%Z = Some (-60)%Z /\ @lcm Z_ops Z_div gcd 0%Z 0%Z = Some 0%Z
  /\ option_map fst (@xgcd_list Z_ops Z_div Z_ffa xgcd 10 [-12; 18; 0; 27]%Z) = Some 3%Z.
Proof. vm_compute. repeat split. Qed.

(* C17. Quotient structure: equality is congruence, it is a commutative ring under the structure's own equality, and the
   operations agree with those of the ring modulo the modulus. *)
Theorem C17_quotient_ring : forall R div norm quorem, idom_laws R div -> euclid_laws R norm quorem -> norm_mono R norm ->
  forall m : T R, m =/= r0 ->
  let Q := quotient_ops quorem m in
  (forall a b : T R, @req Q a b = true <-> rdvd m (a + - b)) /\ ring_laws Q /\
  (forall a b : T R, rdvd m ((@radd Q a b : T R) + - (a + b))) /\
  (forall a b : T R, rdvd m ((@rmul Q a b : T R) + - (a * b))) /\
  (forall a : T R, rdvd m ((@rneg Q a : T R) + - (- a))).
Proof.
  intros R div norm quorem D E M m Hm Q. 
  assert (Hq : forall a b : T R, @req Q a b = true <-> rdvd m (a + - b)) by (intros; exact (q_eq R div norm quorem D E m Hm M a b)).
  split; [exact Hq|]. split; [exact (quotient_ring_laws R div norm quorem D E m Hm M)|].
  split; [|split].
  - intros a b. apply (proj1 (Hq _ _)). exact (q_radd R div norm quorem D E m Hm M a b).
  - intros a b. apply (proj1 (Hq _ _)). exact (q_rmul R div norm quorem D E m Hm M a b).
  - intros a. apply (proj1 (Hq _ _)). exact (q_refl R div norm quorem D E m Hm M (- a)).
Qed.
Print Assumptions C17_quotient_ring.
(* With an irreducible modulus division never panics, is right, and makes the quotient a field. *)
Theorem C17_quotient_field : forall R div ffa norm quorem,
  idom_laws R div -> ffa_laws R ffa -> euclid_laws R norm quorem -> norm_mono R norm ->
  forall m : T R, irreducible m -> exists enough (qd : div_op (quotient_ops quorem m)),
    (forall fuel a b, enough <= fuel -> exists r, quotient_div div ffa quorem m fuel a b = Some r /\
       match r with
       | DivOk c => ~ rdvd m b /\ rdvd m (a + - (c * b))
       | DivideByZero => rdvd m b
       | NotDivisible => False
       end) /\
    (forall a b, quotient_div div ffa quorem m enough a b = Some (qd a b)) /\
    field_laws (quotient_ops quorem m) qd.
Proof.
  intros R div ffa norm quorem D F E M m Hi. assert (Hm : m =/= r0) by apply Hi.
  exists (S (nrm R norm m)), (qdiv R div ffa norm quorem m). split; [|split].
  - intros fuel a b Hf. exact (quotient_div_spec R div ffa norm quorem D F E m Hm M fuel a b Hf Hi).
  - intros a b. destruct (quotient_div_spec R div ffa norm quorem D F E m Hm M (S (nrm R norm m)) a b (Nat.lt_succ_diag_r _) Hi) as (r & Hr & _).
    unfold qdiv. rewrite Hr. reflexivity.
  - exact (quotient_field_laws R div ffa norm quorem D F E m Hm M Hi).
Qed.
Print Assumptions C17_quotient_field.
(* The trait contract alone (without monotonicity of the norm) does not give the right equality: F4 with an unusual but
   lawful Euclidean structure, modulus 1. *)
Definition odd_norm (a : F4) : option N := match a with Zero => None | One => Some 5%N | _ => Some 1%N end.
Definition odd_quorem (a b : F4) : option (F4 * F4) :=
  match a, b with
  | _, Zero => None
  | Alpha, One => Some (Zero, Alpha)
  | _, _ => match F4_div a b with DivOk q => Some (q, Zero) | _ => None end
  end.
Theorem C17_norm_mono_needed : euclid_laws F4_ops odd_norm odd_quorem /\
  rdvd (@r1 F4_ops) (@radd F4_ops Alpha (@rneg F4_ops Zero)) /\ @req (@quotient_ops F4_ops odd_quorem One) Alpha Zero = false.
Proof.
  split; [|split; [exists Alpha; reflexivity|reflexivity]].
  split.
  - intros []; cbn; split; congruence.
  - intros [] []; cbn; split; congruence.
  - intros [] [] q r; cbn; intros H; inversion H; reflexivity.
  - intros [] [] q r n k; cbn; intros H1 H2 H3; inversion H1; subst; cbn in *; inversion H2; inversion H3; subst; try reflexivity; discriminate.
Qed.
Print Assumptions C17_norm_mono_needed.
Example C17_example : @irreducible Z_ops 7%Z /\ quotient_div Z_div Z_ffa Z_quorem 7%Z 10 10%Z 5%Z = Some (DivOk 2%Z) /\ @req (@quotient_ops Z_ops Z_quorem 7%Z) (-4)%Z 10%Z = true.
Proof. split; [apply Z_irreducible_prime, prime_intro; [lia|]|vm_compute; auto].
  intros n Hn. assert (n = 1 \/ n = 2 \/ n = 3 \/ n = 4 \/ n = 5 \/ n = 6)%Z by lia.
  apply Zgcd_1_rel_prime. destruct H as [->|[->|[->|[->|[->| ->]]]]]; reflexivity. Qed.

(* C18. The stream: the i-th item is z_i.1 where z_0, z_1, ... = 0,1,-1,2,-2,...: an enumeration of Z without repetition. *)
Theorem C18_generate_distinct : forall R, ring_laws R -> char_zero R -> exists z : nat -> Z,
  (forall i j, z i = z j -> i = j) /\ (forall x, exists i, z i = x) /\
  (forall m, length (@generate_distinct_elements R m) = m) /\
  (forall m i, i < m -> nth i (@generate_distinct_elements R m) r0 == zmul (z i)) /\
  (forall m i j, i < m -> j < m -> nth i (@generate_distinct_elements R m) r0 == nth j (generate_distinct_elements m) r0 -> i = j).
Proof.
  intros R L Hc. exists nth_int. split; [exact nth_int_inj|]. split; [exact nth_int_surj|].
  assert (G : forall m, @generate_distinct_elements R m = map (fun j => from_int (nth_int j)) (seq 0 m)).
  { intros m. exact (int_iter_take_spec R m 0). }
  assert (N : forall m i, i < m -> nth i (@generate_distinct_elements R m) r0 == zmul (nth_int i)).
  { intros m i Hi. rewrite G.
    rewrite (nth_indep _ _ (@from_int R (nth_int 0))) by (rewrite map_length, seq_length; auto).
    rewrite (map_nth (fun j => @from_int R (nth_int j))), seq_nth by auto. exact (from_int_ok R L (nth_int i)). }
  split; [intros m; rewrite G, map_length, seq_length; reflexivity|]. split; [exact N|].
  intros m i j Hi Hj H. apply nth_int_inj, (zmul_inj R L Hc).
  eapply (req_trans _ L); [apply (req_sym _ L), (N m i Hi)|]. eapply (req_trans _ L); [exact H|apply N; auto].
Qed.
Print Assumptions C18_generate_distinct.
Example C18_example : char_zero Z_ops /\ @generate_distinct_elements Z_ops 5 = [0; 1; -1; 2; -2]%Z.
Proof. split; [exact Z_char_zero|vm_compute; reflexivity]. Qed.

(* C19. Modulo<N>: conversions from usize and isize, arithmetic and division. *)
Theorem C19_modulo_partial : forall N, 0 < N ->
  (forall v, mod_from_usize N v < N /\ Z.of_nat (mod_from_usize N v) = (Z.of_nat v mod Z.of_nat N)%Z) /\
  (forall v, mod_from_isize N v < N /\ Z.of_nat (mod_from_isize N v) = (v mod Z.of_nat N)%Z) /\
  (forall v, (0 <= v)%Z -> mod_from_Integer N v < N /\ Z.of_nat (mod_from_Integer N v) = (v mod Z.of_nat N)%Z) /\
  (let M := modulo_ops N in
   (Z.of_nat (@r0 M) = 0 mod Z.of_nat N)%Z /\ (Z.of_nat (@r1 M) = 1 mod Z.of_nat N)%Z /\
   (forall a b : nat, @radd M a b < N /\ Z.of_nat (@radd M a b) = ((Z.of_nat a + Z.of_nat b) mod Z.of_nat N)%Z) /\
   (forall a b : nat, @rmul M a b < N /\ Z.of_nat (@rmul M a b) = ((Z.of_nat a * Z.of_nat b) mod Z.of_nat N)%Z) /\
   (forall a : nat, a < N -> @rneg M a < N /\ Z.of_nat (@rneg M a) = ((- Z.of_nat a) mod Z.of_nat N)%Z)).
Proof.
  intros N HN. split; [intros v; exact (mod_from_usize_ok N HN v)|]. split; [intros v; exact (mod_modulo_ok N HN v)|].
  split; [intros v Hv; exact (mod_from_Integer_nonneg N HN v Hv)|exact (mod_ops_ok N HN)].
Qed.
Print Assumptions C19_modulo_partial.
Theorem C19_modulo_div : forall N, prime (Z.of_nat N) -> forall fuel top bot, N < fuel -> top < N -> bot < N ->
  exists res, mod_div N fuel top bot = Some res /\
   match res with
   | DivOk c => bot <> 0 /\ c < N /\ ((Z.of_nat c * Z.of_nat bot) mod Z.of_nat N = Z.of_nat top)%Z
   | DivideByZero => bot = 0
   | NotDivisible => False
   end.
Proof.
  intros N Hp fuel top bot Hf H1 H2. assert (HN : 0 < N) by lia. exact (mod_div_ok N HN fuel top bot Hf Hp H1 H2).
Qed.
Print Assumptions C19_modulo_div.
(* From<Integer> is wrong for every negative integer that is not 0 mod N, except when v = -v mod N. *)
Theorem C19_from_Integer_negative_refuted : forall N v, 0 < N -> (v < 0)%Z ->
  (Z.of_nat (mod_from_Integer N v) = (- v) mod Z.of_nat N)%Z /\
  (mod_from_Integer N v = mod_from_isize N v <-> ((2 * v) mod Z.of_nat N = 0)%Z).
Proof.
  intros N v HN Hv.
  assert (E : (Z.of_nat (mod_from_Integer N v) = (- v) mod Z.of_nat N)%Z).
  { unfold mod_from_Integer. replace v with (- (- v))%Z at 1 by lia. rewrite Z.rem_opp_l by lia. rewrite Z.rem_mod_nonneg by lia.
    pose proof (Z.mod_pos_bound (- v) (Z.of_nat N)). lia. }
  split; [exact E|]. pose proof (mod_modulo_ok N HN v) as [_ E2]. fold (mod_from_isize N v) in E2.
  split.
  - intros H. rewrite H, E2 in E. replace (2 * v)%Z with (v - - v)%Z by lia. rewrite Zminus_mod, E, Z.sub_diag. reflexivity.
  - intros H. apply Nat2Z.inj. rewrite E, E2. replace (- v)%Z with (v - 2 * v)%Z by lia. rewrite Zminus_mod, H, Z.sub_0_r, Z.mod_mod by lia. reflexivity.
Qed.
Print Assumptions C19_from_Integer_negative_refuted.
Example C19_example : mod_from_Integer 5 (-1) = 1 /\ mod_from_isize 5 (-1) = 4 /\ mod_div 7 10 3 5 = Some (DivOk 2) /\ mod_from_Integer 5 (-1) <> mod_from_isize 5 (-1).
Proof. vm_compute. repeat split. discriminate. Qed.

(* C20 *)
Theorem C20_quaternary_field : field_laws F4_ops F4_div /\ (forall a b : F4, F4_eqb a b = true <-> a = b) /\
  (forall a : F4, In a F4_units <-> @runit F4_ops a) /\ NoDup [Zero; One; Alpha; Beta] /\ (forall a : F4, In a [Zero; One; Alpha; Beta]).
Proof.
  split; [exact F4_field_laws|]. split; [intros [] []; split; (reflexivity || discriminate)|].
  split; [|split].
  - intros a. split.
    + intros [<-|[<-|[<-|[]]]]; [exists One|exists Beta|exists Alpha]; reflexivity.
    + intros [[] H]; destruct a; try discriminate; cbn; auto.
  - repeat constructor; cbn; intuition discriminate.
  - intros []; cbn; auto.
Qed.
Print Assumptions C20_quaternary_field.

(* C53. from_nat/from_int: the unique ring homomorphism from the integers. *)
Theorem C53_from_int_hom : forall R, ring_laws R ->
  (forall n, @from_nat R n == nmul (N.to_nat n) r1) /\ @from_int R 0 == r0 /\ @from_int R 1 == r1 /\
  (forall x y, @from_int R (x + y) == from_int x + from_int y) /\
  (forall x y, @from_int R (x * y) == from_int x * from_int y) /\
  (forall x, @from_int R (- x) == - from_int x) /\
  (char_zero R -> forall x y, @from_int R x == from_int y -> x = y).
Proof.
  intros R L. pose proof (from_int_ok R L) as F.
  assert (S : forall a b, @from_int R a == b -> b == from_int a) by (intros; apply (req_sym _ L); auto).
  split; [exact (from_nat_ok R L)|]. split; [exact (F 0%Z)|]. split; [eapply (req_trans _ L); [exact (F 1%Z)|exact (zmul_1 R L)]|].
  split; [|split; [|split]].
  - intros x y. eapply (req_trans _ L); [exact (F _)|]. eapply (req_trans _ L); [exact (zmul_add R L x y)|]. apply (radd_ext _ L); apply S, F.
  - intros x y. eapply (req_trans _ L); [exact (F _)|]. eapply (req_trans _ L); [exact (zmul_mul R L x y)|]. apply (rmul_ext _ L); apply S, F.
  - intros x. eapply (req_trans _ L); [exact (F _)|]. eapply (req_trans _ L); [exact (zmul_opp R L x)|]. apply (rneg_ext _ L); apply S, F.
  - intros Hc x y H. apply (zmul_inj R L Hc). eapply (req_trans _ L); [apply S, F|]. eapply (req_trans _ L); [exact H|apply F].
Qed.
Print Assumptions C53_from_int_hom.
Example C53_example : @from_int F4_ops (-3) = One /\ @from_nat Z_ops 13 = 13%Z /\ @from_int (@quotient_ops Z_ops Z_quorem 7%Z) (-10) = (-3)%Z.
Proof. vm_compute. auto. Qed.

(* C54. divisible / is_unit / are_associate decide the mathematical relations (divisible(a,0) is false even for a=0). *)
Theorem C54_decide : forall R div, idom_laws R div -> forall a b : T R,
  (divisible div a b = true <-> b =/= r0 /\ rdvd b a) /\
  (is_unit div a = true <-> runit a) /\
  (are_associate div a b = true <-> rdvd a b /\ rdvd b a) /\
  (are_associate div a b = true <-> rassoc a b).
Proof.
  intros R div D a b. pose proof (id_ring _ _ D) as L.
  assert (H1 := divisible_ok R L div D a b). assert (H3 := are_associate_ok R L div D a b).
  split; [|split; [exact (is_unit_ok R L div D a)|split; [exact H3|]]].
  - rewrite H1. rewrite <- (neqv R b r0). reflexivity.
  - rewrite H3. split; [intros [? ?]; apply (mutual_assoc R L div D); auto|apply (assoc_dvd R L)].
Qed.
Print Assumptions C54_decide.
Example C54_example : divisible Z_div 6%Z (-3)%Z = true /\ divisible Z_div 0%Z 0%Z = false /\ are_associate Z_div 0%Z 0%Z = true /\ are_associate Z_div 4%Z (-4)%Z = true.
Proof. vm_compute. auto. Qed.
