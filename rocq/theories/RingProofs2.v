(* quotient rings, blanket field impls, Z, F4, Modulo *)
From Coq Require Import List Arith NArith ZArith Znumtheory Bool Lia Setoid Morphisms Ring Ring_theory.
From Verif Require Import RingSpec RingModel RingProofs.
Import ListNotations.
Open Scope nat_scope.
Open Scope rs_scope.

Section Q.
Context (R : ring_ops) (div : div_op R) (ffa : ffa_op R) (norm : T R -> option N)
        (quorem : T R -> T R -> option (T R * T R)).
Context (D : idom_laws R div) (F : ffa_laws R ffa) (E : euclid_laws R norm quorem).
Variable m : T R.
Hypothesis Hm : m =/= r0.
Let L := id_ring _ _ D.
Local Instance i_eqv_equiv1 : Equivalence (eqv R) := eqv_equiv R L.
Local Instance i_add_proper1 : Proper (eqv R ==> eqv R ==> eqv R) (@radd R) := add_proper R L.
Local Instance i_mul_proper1 : Proper (eqv R ==> eqv R ==> eqv R) (@rmul R) := mul_proper R L.
Local Instance i_neg_proper1 : Proper (eqv R ==> eqv R) (@rneg R) := neg_proper R L.
Local Instance i_rdvd_proper1 : Proper (eqv R ==> eqv R ==> iff) (@rdvd R) := rdvd_proper R L.
Add Ring RQ : (rth R L) (setoid (eqv_equiv R L) (rext R L)).
Notation Q := (quotient_ops quorem m).
Notation "a ~ b" := (eqv R a b) (at level 70).

Lemma m_nz : ~ m ~ r0. Proof. apply neqv; auto. Qed.
Lemma q_rem_spec a : exists q, a ~ q * m + q_rem quorem m a /\
  forall n k, norm m = Some n -> norm (q_rem quorem m a) = Some k -> (k < n)%N.
Proof.
  unfold q_rem, rem. destruct (is_zero m) eqn:Ez; [exfalso; apply m_nz; exact Ez|]. cbn [negb].
  destruct (quorem a m) as [[q r]|] eqn:Eq.
  - exists q. split; [eapply quorem_ok; eauto|]. intros. eapply quorem_lt; eauto.
  - apply (quorem_zero _ _ _ E) in Eq. exfalso. apply m_nz. exact Eq.
Qed.

Hypothesis NM : norm_mono R norm.
(* a multiple of m reduces to zero: the remainder is a multiple of m of smaller norm *)
Lemma q_rem_zero a : is_zero (q_rem quorem m a) = true <-> rdvd m a.
Proof.
  destruct (q_rem_spec a) as (q & Hq & Hn). split.
  - intros H. apply is_zero_true in H. rewrite Hq, H. exists q. change (q * m + r0 ~ m * q). ring.
  - intros [d Hd]. change (a ~ m * d) in Hd.
    destruct (is_zero (q_rem quorem m a)) eqn:Ez; [reflexivity|]. apply is_zero_false in Ez.
    assert (Hr : q_rem quorem m a ~ m * (d + - q)).
    { clear Hn Ez. revert Hq. generalize (q_rem quorem m a). intros r Hq. transitivity (a + - (q * m)); [rewrite Hq; ring|]. rewrite Hd. ring. }
    destruct (norm m) as [n|] eqn:En; [|apply (norm_zero _ _ _ E) in En; exfalso; apply m_nz; exact En].
    destruct (norm (q_rem quorem m a)) as [k|] eqn:Ek; [|apply (norm_zero _ _ _ E) in Ek; contradiction].
    specialize (Hn n k eq_refl eq_refl). pose proof (NM m _ _ _ _ Hr En Ek). lia.
Qed.
Lemma q_eq (a b : T R) : @req Q a b = true <-> rdvd m (a + - b).
Proof. apply q_rem_zero. Qed.
Lemma q_eq_of_eqv (a b : T R) : a ~ b -> @req Q a b = true.
Proof. intros H. apply q_eq. assert (H' : a + - b ~ r0) by (rewrite H; ring). rewrite H'. apply rdvd_0; auto. Qed.
Lemma q_rem_eq (a : T R) : @req Q (q_rem quorem m a) a = true.
Proof.
  apply q_eq. destruct (q_rem_spec a) as (q & Hq & _). exists (- q).
  change (q_rem quorem m a + - a ~ m * - q). revert Hq. generalize (q_rem quorem m a). intros r Hq. rewrite Hq. ring.
Qed.
Lemma q_trans (a b c : T R) : @req Q a b = true -> @req Q b c = true -> @req Q a c = true.
Proof.
  rewrite !q_eq. intros H1 H2. assert (Hx : a + - c ~ (a + - b) + (b + - c)) by ring. rewrite Hx. apply rdvd_add; auto.
Qed.
Lemma q_sym (a b : T R) : @req Q a b = true -> @req Q b a = true.
Proof.
  rewrite !q_eq. intros H1. assert (Hx : b + - a ~ - r1 * (a + - b)) by ring. rewrite Hx. apply rdvd_mul_l; auto.
Qed.
Lemma q_add (a a' b b' : T R) : @req Q a a' = true -> @req Q b b' = true -> @req Q (a + b) (a' + b') = true.
Proof.
  rewrite !q_eq. intros H1 H2. assert (Hx : (a + b) + - (a' + b') ~ (a + - a') + (b + - b')) by ring. rewrite Hx. apply rdvd_add; auto.
Qed.
Lemma q_mul (a a' b b' : T R) : @req Q a a' = true -> @req Q b b' = true -> @req Q (a * b) (a' * b') = true.
Proof.
  rewrite !q_eq. intros H1 H2. assert (Hx : (a * b) + - (a' * b') ~ b * (a + - a') + a' * (b + - b')) by ring. rewrite Hx.
  apply rdvd_add; auto; apply rdvd_mul_l; auto.
Qed.
Lemma q_neg (a a' : T R) : @req Q a a' = true -> @req Q (- a) (- a') = true.
Proof.
  rewrite !q_eq. intros H1. assert (Hx : - a + - - a' ~ - r1 * (a + - a')) by ring. rewrite Hx. apply rdvd_mul_l; auto.
Qed.
Lemma q_radd (a b : T R) : @req Q (@radd Q a b) (a + b) = true. Proof. apply q_rem_eq. Qed.
Lemma q_rmul (a b : T R) : @req Q (@rmul Q a b) (a * b) = true. Proof. apply q_rem_eq. Qed.
Lemma q_refl (a : T R) : @req Q a a = true. Proof. apply q_eq_of_eqv; reflexivity. Qed.

Theorem quotient_ring_laws : ring_laws Q.
Proof.
  split.
  - exact q_refl.
  - exact q_sym.
  - exact q_trans.
  - intros a a' b b' H1 H2. eapply q_trans; [apply q_radd|]. eapply q_trans; [|apply q_sym, q_radd]. apply q_add; auto.
  - intros a a' b b' H1 H2. eapply q_trans; [apply q_rmul|]. eapply q_trans; [|apply q_sym, q_rmul]. apply q_mul; auto.
  - intros a a' H. apply q_neg; auto.
  - intros a. eapply q_trans; [apply q_radd|]. apply q_eq_of_eqv. cbn. ring.
  - intros a b. eapply q_trans; [apply q_radd|]. eapply q_trans; [|apply q_sym, q_radd]. apply q_eq_of_eqv. ring.
  - intros a b c. eapply q_trans; [apply q_radd|]. eapply q_trans; [apply q_add; [apply q_refl|apply q_radd]|].
    eapply q_trans; [|apply q_sym, q_radd]. eapply q_trans; [|apply q_add; [apply q_sym, q_radd|apply q_refl]]. apply q_eq_of_eqv. ring.
  - intros a. eapply q_trans; [apply q_radd|]. apply q_eq_of_eqv. cbn. ring.
  - intros a. eapply q_trans; [apply q_rmul|]. apply q_eq_of_eqv. cbn. ring.
  - intros a b. eapply q_trans; [apply q_rmul|]. eapply q_trans; [|apply q_sym, q_rmul]. apply q_eq_of_eqv. ring.
  - intros a b c. eapply q_trans; [apply q_rmul|]. eapply q_trans; [apply q_mul; [apply q_refl|apply q_rmul]|].
    eapply q_trans; [|apply q_sym, q_rmul]. eapply q_trans; [|apply q_mul; [apply q_sym, q_rmul|apply q_refl]]. apply q_eq_of_eqv. ring.
  - intros a b c. eapply q_trans; [apply q_rmul|]. eapply q_trans; [apply q_mul; [apply q_radd|apply q_refl]|].
    eapply q_trans; [|apply q_sym, q_radd]. eapply q_trans; [|apply q_add; apply q_sym, q_rmul]. apply q_eq_of_eqv. ring.
Qed.

(* division with an irreducible modulus *)
Lemma quotient_div_spec fuel (top bot : T R) : (nrm R norm m < fuel)%nat -> irreducible m ->
  exists res, quotient_div div ffa quorem m fuel top bot = Some res /\
    match res with
    | DivOk c => ~ rdvd m bot /\ rdvd m (top + - (c * bot))
    | DivideByZero => rdvd m bot
    | NotDivisible => False
    end.
Proof.
  intros Hf (_ & Hnu & Hirr). unfold quotient_div.
  assert (Hz : @req Q bot (@r0 Q) = true <-> rdvd m bot).
  { rewrite q_eq. cbn. assert (Hx : bot + - r0 ~ bot) by ring. rewrite Hx. tauto. }
  destruct (@req Q bot (@r0 Q)) eqn:Ez.
  - eexists; split; [reflexivity|]. apply Hz; auto.
  - assert (Hnb : ~ rdvd m bot). { intros H. apply Hz in H. congruence. }
    destruct (euclidean_xgcd_ok R L div D ffa F norm quorem E fuel bot m Hf) as (g & a & b & -> & _ & (Hgb & Hgm & _) & _ & Hbez).
    assert (Hg : runit g).
    { destruct Hgm as [c Hc]. destruct (Hirr _ _ Hc) as [|Hc']; auto. exfalso. apply Hnb.
      destruct Hc' as [c' Hc']. change (c * c' ~ r1) in Hc'. change (m ~ g * c) in Hc.
      eapply (rdvd_trans R L); [|exact Hgb]. exists c'. change (g ~ m * c'). rewrite Hc. transitivity (g * (c * c')); [rewrite Hc'; ring|ring]. }
    destruct (div_unit R L div D top g Hg) as (d & -> & Hd).
    eexists; split; [reflexivity|]. split; [exact Hnb|].
    pose proof (q_rem_eq (a * d)) as Hq. apply q_eq in Hq.
    assert (Hx : top + - (q_rem quorem m (a * d) * bot) ~ (d * b) * m + - bot * (q_rem quorem m (a * d) + - (a * d))).
    { rewrite Hd, Hbez. ring. }
    rewrite Hx. apply rdvd_add; auto; apply rdvd_mul_l; auto. apply rdvd_ref; auto.
Qed.
(* the quotient is a field *)
Definition qdiv : div_op Q := fun a b =>
  match quotient_div div ffa quorem m (S (nrm R norm m)) a b with Some r => r | None => NotDivisible end.
Theorem quotient_field_laws : irreducible m -> field_laws Q qdiv.
Proof.
  intros Hi. pose proof quotient_ring_laws as QL.
  assert (Hspec : forall a b : T R, match qdiv a b with
    | DivOk c => ~ @rdvd R m b /\ @rdvd R m (@radd R a (@rneg R (@rmul R c b))) | DivideByZero => @rdvd R m b | NotDivisible => False end).
  { intros a b. unfold qdiv. destruct (quotient_div_spec (S (nrm R norm m)) a b (Nat.lt_succ_diag_r _) Hi) as (res & -> & H). exact H. }
  assert (Hz : forall b : T R, @req Q b (@r0 Q) = true <-> rdvd m b).
  { intros b. rewrite q_eq. cbn. assert (Hx : b + - r0 ~ b) by ring. rewrite Hx. tauto. }
  assert (Hdo : forall a b c : T R, rdvd m (a + - (c * b)) -> @req Q a (@rmul Q c b) = true).
  { intros a b c H. eapply q_trans; [|apply q_sym, q_rmul]. apply q_eq. exact H. }
  split; [split|].
  - exact QL.
  - destruct (@req Q (@r1 Q) (@r0 Q)) eqn:E1; [|reflexivity]. exfalso. apply Hz in E1. destruct Hi as (_ & Hnu & _). apply Hnu.
    destruct E1 as [c Hc]. exists c. change (m * c ~ r1). symmetry. exact Hc.
  - change (forall a b : T R, @req Q (@rmul Q a b) (@r0 Q) = true -> @req Q a (@r0 Q) = true \/ @req Q b (@r0 Q) = true).
    intros a b Hab. destruct (@req Q a (@r0 Q)) eqn:Ea; [left; reflexivity|right].
    assert (Hab' : rdvd m (a * b)). { apply Hz. eapply q_trans; [apply q_sym, q_rmul|exact Hab]. }
    (* a has an inverse *)
    pose proof (Hspec (@r1 R) a) as Hs. destruct (qdiv (@r1 R) a) as [c| |].
    + apply Hz. destruct Hs as [_ Hs].
      assert (Hx : b ~ @radd R (@rmul R b (@radd R r1 (@rneg R (@rmul R c a)))) (@rmul R c (@rmul R a b))) by ring. rewrite Hx. apply rdvd_add; auto; apply rdvd_mul_l; auto.
    + apply Hz in Hs. congruence.
    + contradiction.
  - intros a b. rewrite (Hz b). pose proof (Hspec a b) as Hs. destruct (qdiv a b).
    + split; [discriminate|tauto].
    + split; auto.
    + contradiction.
  - intros a b q Hq. pose proof (Hspec a b) as Hs. rewrite Hq in Hs. apply Hdo. tauto.
  - intros a b Hq. pose proof (Hspec a b) as Hs. rewrite Hq in Hs. contradiction.
  - intros a b Hb. pose proof (Hspec a b) as Hs. destruct (qdiv a b) as [q| |]; [eauto| |contradiction].
    apply Hz in Hs. cbn in Hb, Hs. congruence.
Qed.
End Q.

(* ---------------- blanket impls for fields *)
Section Fld.
Context (R : ring_ops) (div : div_op R) (FL : field_laws R div).
Let D := fl_idom _ _ FL.
Let L := id_ring _ _ D.
Local Instance i_eqv_equiv2 : Equivalence (eqv R) := eqv_equiv R L.
Local Instance i_add_proper2 : Proper (eqv R ==> eqv R ==> eqv R) (@radd R) := add_proper R L.
Local Instance i_mul_proper2 : Proper (eqv R ==> eqv R ==> eqv R) (@rmul R) := mul_proper R L.
Local Instance i_neg_proper2 : Proper (eqv R ==> eqv R) (@rneg R) := neg_proper R L.
Add Ring RF : (rth R L) (setoid (eqv_equiv R L) (rext R L)).
Notation "a ~ b" := (eqv R a b) (at level 70).
Lemma field_unit (a : T R) : ~ a ~ r0 -> runit a.
Proof.
  intros H. destruct (fl_div _ _ FL r1 a) as [q Hq]; [apply neqv; auto|]. exists q.
  apply (div_ok _ _ D) in Hq. change (r1 ~ q * a) in Hq. change (a * q ~ r1). rewrite Hq. ring.
Qed.
Lemma field_ffa_laws : ffa_laws R field_ffa.
Proof.
  split.
  - intros a. unfold field_ffa. destruct (is_zero a) eqn:E; cbn.
    + change (a ~ r1 * r0). apply is_zero_true in E. rewrite E. ring.
    + change (a ~ a * r1). ring.
  - intros a. unfold field_ffa. destruct (is_zero a) eqn:E; cbn; [apply runit_1; auto|].
    apply field_unit. apply is_zero_false; auto.
  - intros a b (u & Hu & Hab). change (a ~ u * b) in Hab. unfold field_ffa.
    destruct (is_zero a) eqn:Ea, (is_zero b) eqn:Eb; cbn; try (apply (req_refl _ L)).
    + exfalso. apply is_zero_true in Ea. apply is_zero_false in Eb. rewrite Ea in Hab. symmetry in Hab.
      destruct (id_nozerodiv _ _ D _ _ Hab) as [H|H]; [|auto]. eapply (unit_ne_zero R L div D u); eauto.
    + exfalso. apply is_zero_true in Eb. apply is_zero_false in Ea. apply Ea. rewrite Hab, Eb. ring.
  - intros a H. unfold field_ffa, is_zero. rewrite H. cbn. apply (req_refl _ L).
  - intros a H. unfold field_ffa. destruct (is_zero a) eqn:E; cbn; [|apply (req_refl _ L)].
    exfalso. eapply (unit_ne_zero R L div D a); eauto.
Qed.
Lemma field_euclid_laws : euclid_laws R field_norm (field_quorem div).
Proof.
  split.
  - intros a. unfold field_norm. destruct (is_zero a) eqn:E; split; try discriminate; auto.
    intros H. unfold is_zero in E. congruence.
  - intros a b. unfold field_quorem. destruct (is_zero b) eqn:E; [split; auto|].
    destruct (fl_div _ _ FL a b E) as [q ->]. split; [discriminate|]. intros H. unfold is_zero in E. congruence.
  - intros a b q r. unfold field_quorem. destruct (is_zero b) eqn:E; [discriminate|].
    destruct (div a b) as [q'| |] eqn:Eq; try discriminate. intros H. inversion H; subst.
    apply (div_ok _ _ D) in Eq. change (a ~ q * b + r0). change (a ~ q * b) in Eq. rewrite Eq. ring.
  - intros a b q r n k. unfold field_quorem, field_norm. destruct (is_zero b); [discriminate|].
    destruct (div a b); try discriminate. intros H; inversion H; subst. intros _.
    assert (Hz : is_zero (@r0 R) = true) by (apply (req_refl _ L)). rewrite Hz. discriminate.
Qed.
End Fld.

(* ---------------- Z *)
Lemma Z_ring_laws : ring_laws Z_ops.
Proof.
  split; cbn -[Z.mul Z.add Z.opp]; intros; repeat match goal with H : Z.eqb _ _ = true |- _ => apply Z.eqb_eq in H end; apply Z.eqb_eq; subst; ring.
Qed.
Lemma Z_idom_laws : idom_laws Z_ops Z_div.
Proof.
  split.
  - exact Z_ring_laws.
  - reflexivity.
  - cbn. intros a b H. rewrite !Z.eqb_eq in *. lia.
  - intros a b. unfold Z_div, Z_quorem. cbn. rewrite Z.eqb_eq. destruct (Z.eqb_spec b 0) as [->|H]; [tauto|].
    destruct (Z.eqb (a mod b) 0); split; try discriminate; contradiction.
  - intros a b q. unfold Z_div, Z_quorem. cbn. rewrite Z.eqb_eq. destruct (Z.eqb_spec b 0) as [->|H]; [discriminate|].
    destruct (Z.eqb_spec (a mod b) 0) as [E|E]; [|discriminate]. intros Hq; inversion Hq; subst.
    pose proof (Z.div_mod a b H). lia.
  - intros a b. unfold Z_div, Z_quorem. destruct (Z.eqb_spec b 0) as [->|H]; [discriminate|].
    destruct (Z.eqb_spec (a mod b) 0) as [E|E]; [discriminate|]. intros _ [c Hc]. cbn in Hc. rewrite Z.eqb_eq in Hc.
    apply E. subst a. rewrite Z.mul_comm. apply Z.mod_mul; auto.
Qed.
Lemma Z_unit (a : Z) : @runit Z_ops a -> a = 1%Z \/ a = (-1)%Z.
Proof. intros [c Hc]. cbn in Hc. rewrite Z.eqb_eq in Hc. apply Z.eq_mul_1 in Hc. tauto. Qed.
Lemma Z_ffa_laws : ffa_laws Z_ops Z_ffa.
Proof.
  assert (Hu1 : @runit Z_ops 1%Z) by (exists 1%Z; reflexivity).
  assert (Hu2 : @runit Z_ops (-1)%Z) by (exists (-1)%Z; reflexivity).
  split; unfold Z_ffa.
  - intros a. cbn. rewrite Z.eqb_eq. destruct (Z.eqb_spec a 0); [subst; reflexivity|]. destruct (Z.ltb_spec a 0); cbn -[Z.mul]; lia.
  - intros a. cbn. destruct (Z.eqb_spec a 0); [auto|]. destruct (Z.ltb_spec a 0); cbn; auto.
  - intros a b (u & Hu & Hab). cbn in *. rewrite Z.eqb_eq in *. apply Z_unit in Hu.
    destruct (Z.eqb_spec a 0), (Z.eqb_spec b 0); cbn; try lia.
    destruct (Z.ltb_spec a 0), (Z.ltb_spec b 0); cbn; lia.
  - intros a H. cbn in *. apply Z.eqb_eq in H. subst. reflexivity.
  - intros a H. apply Z_unit in H as [->| ->]; reflexivity.
Qed.
Lemma Z_euclid_laws : euclid_laws Z_ops Z_norm Z_quorem.
Proof.
  split.
  - intros a. unfold Z_norm. cbn. rewrite Z.eqb_eq. destruct (Z.eqb_spec a 0); split; try discriminate; auto. contradiction.
  - intros a b. unfold Z_quorem. cbn. rewrite Z.eqb_eq. destruct (Z.eqb_spec b 0); split; try discriminate; auto. contradiction.
  - intros a b q r. unfold Z_quorem. cbn. rewrite Z.eqb_eq. destruct (Z.eqb_spec b 0) as [|H]; [discriminate|].
    intros Hq; inversion Hq; subst. pose proof (Z.div_mod a b H). lia.
  - intros a b q r n k. unfold Z_quorem, Z_norm. destruct (Z.eqb_spec b 0) as [|H]; [discriminate|].
    intros Hq; inversion Hq; subst. intros Hn; inversion Hn; subst. destruct (Z.eqb_spec (a mod b) 0); [discriminate|].
    intros Hk; inversion Hk; subst. pose proof (Z.mod_bound_or a b H). lia.
Qed.
Lemma Z_norm_mono : norm_mono Z_ops Z_norm.
Proof.
  intros a b c n k Hc. cbn in Hc. apply Z.eqb_eq in Hc. subst c. unfold Z_norm.
  destruct (Z.eqb_spec a 0); [discriminate|]. destruct (Z.eqb_spec (a * b) 0); [discriminate|].
  intros Hn Hk; inversion Hn; inversion Hk; subst. rewrite Zabs2N.inj_mul. assert (Z.abs_N b <> 0%N) by (intros E; apply n1; assert (b = 0%Z) by lia; subst b; lia). nia.
Qed.
Lemma Z_char_zero : char_zero Z_ops.
Proof.
  intros n H. assert (E : @nmul Z_ops n (@r1 Z_ops) = Z.of_nat n).
  { clear H. induction n as [|n IH]; [reflexivity|]. cbn [nmul]. rewrite IH. cbn [radd Z_ops r1]. lia. }
  rewrite E in H. cbn in H. apply Z.eqb_eq in H. lia.
Qed.
Lemma Z_irreducible_prime p : prime p -> @irreducible Z_ops p.
Proof.
  intros Hp. pose proof (prime_ge_2 p Hp). split; [|split].
  - cbn. apply Z.eqb_neq. lia.
  - intros Hu. apply Z_unit in Hu. lia.
  - intros a b Hab. cbn in Hab. apply Z.eqb_eq in Hab. rewrite Hab in Hp.
    assert (Hd : (a | p)%Z) by (exists b; lia). rewrite <- Hab in Hp.
    destruct (prime_divisors p Hp a Hd) as [->|[->|[->| ->]]].
    + left; exists (-1)%Z; reflexivity.
    + left; exists 1%Z; reflexivity.
    + right; exists 1%Z; cbn; apply Z.eqb_eq. nia.
    + right; exists (-1)%Z; cbn; apply Z.eqb_eq. nia.
Qed.

(* ---------------- F4 *)
Lemma F4_field_laws : field_laws F4_ops F4_div.
Proof.
  split; [split; [split|..]|]; cbn; intros;
  repeat match goal with x : F4 |- _ => destruct x end; cbn in *; try reflexivity; try discriminate; auto;
  try (split; intros; (discriminate || reflexivity)); try (eexists; reflexivity); try congruence.
Qed.

(* ---------------- Modulo *)
Section Mod.
Variable N : nat.
Hypothesis HN : 1 <= N.
Lemma mod_modulo_ok a : mod_modulo a N < N /\ Z.of_nat (mod_modulo a N) = (a mod Z.of_nat N)%Z.
Proof.
  unfold mod_modulo. set (n := Z.of_nat N). assert (Hn : (0 < n)%Z) by lia.
  pose proof (Z.quot_rem' a n) as H1. pose proof (Z.rem_bound_abs a n ltac:(lia)) as H2.
  destruct (Z.ltb_spec (Z.rem a n) 0) as [H|H].
  - split; [lia|]. rewrite Z2Nat.id by lia. apply Z.mod_unique with (q := (Z.quot a n - 1)%Z); lia.
  - split; [lia|]. rewrite Z2Nat.id by lia. apply Z.mod_unique with (q := Z.quot a n); lia.
Qed.
Lemma mod_from_usize_ok v : mod_from_usize N v < N /\ Z.of_nat (mod_from_usize N v) = (Z.of_nat v mod Z.of_nat N)%Z.
Proof. unfold mod_from_usize. split; [apply Nat.mod_upper_bound; lia|]. apply Nat2Z.inj_mod. Qed.
Lemma mod_from_Integer_nonneg v : (0 <= v)%Z -> mod_from_Integer N v < N /\ Z.of_nat (mod_from_Integer N v) = (v mod Z.of_nat N)%Z.
Proof.
  intros Hv. unfold mod_from_Integer. rewrite Z.rem_mod_nonneg by lia.
  pose proof (Z.mod_pos_bound v (Z.of_nat N)). lia.
Qed.
Lemma mod_ops_ok : let M := modulo_ops N in
  (Z.of_nat (@r0 M) = 0 mod Z.of_nat N)%Z /\ (Z.of_nat (@r1 M) = 1 mod Z.of_nat N)%Z /\
  (forall a b : nat, @radd M a b < N /\ Z.of_nat (@radd M a b) = ((Z.of_nat a + Z.of_nat b) mod Z.of_nat N)%Z) /\
  (forall a b : nat, @rmul M a b < N /\ Z.of_nat (@rmul M a b) = ((Z.of_nat a * Z.of_nat b) mod Z.of_nat N)%Z) /\
  (forall a : nat, a < N -> @rneg M a < N /\ Z.of_nat (@rneg M a) = ((- Z.of_nat a) mod Z.of_nat N)%Z).
Proof.
  cbn. split; [|split; [|split; [|split]]].
  - reflexivity.
  - destruct (Nat.eqb_spec N 1) as [E|E]; [rewrite E; reflexivity|]. cbn. symmetry. apply Z.mod_small; lia.
  - intros a b. split; [apply Nat.mod_upper_bound; lia|]. rewrite Nat2Z.inj_mod, Nat2Z.inj_add. reflexivity.
  - intros a b. split; [apply Nat.mod_upper_bound; lia|]. rewrite Nat2Z.inj_mod, Nat2Z.inj_mul. reflexivity.
  - intros a Ha. destruct (Nat.eqb_spec a 0) as [->|H]; [split; [lia|reflexivity]|]. split; [lia|].
    apply Z.mod_unique with (q := (-1)%Z); lia.
Qed.
Lemma mod_xgcd_loop_ok x0 y0 fuel : forall x y pa a pb b, y < fuel ->
  (Z.of_nat x = pa * x0 + pb * y0 -> Z.of_nat y = a * x0 + b * y0 ->
  exists g a' b', mod_xgcd_loop fuel x y pa a pb b = Some (g, a', b') /\
    Z.of_nat g = a' * x0 + b' * y0 /\ g = Nat.gcd x y)%Z.
Proof.
  induction fuel as [|fuel IH]; intros x y pa a pb b Hf Hx Hy; [lia|]. cbn [mod_xgcd_loop].
  destruct (Nat.eqb_spec y 0) as [->|Hy0].
  - exists x, pa, pb. repeat split; auto. rewrite Nat.gcd_0_r. auto.
  - pose proof (Nat.mod_upper_bound x y Hy0).
    destruct (IH y (x mod y) a (pa - Z.of_nat (x / y) * a)%Z b (pb - Z.of_nat (x / y) * b)%Z) as (g & a' & b' & -> & H1 & H2); auto; [lia| |].
    + pose proof (Nat.div_mod x y Hy0) as Hd. assert (Hz : (Z.of_nat (x mod y) = Z.of_nat x - Z.of_nat (x / y) * Z.of_nat y)%Z) by lia.
      rewrite Hz, Hx, Hy. ring.
    + exists g, a', b'. repeat split; auto. rewrite H2. rewrite Nat.gcd_comm, (Nat.gcd_comm x y). apply Nat.gcd_mod; auto.
Qed.
Lemma mod_div_ok fuel top bot : N < fuel -> prime (Z.of_nat N) -> top < N -> bot < N ->
  exists res, mod_div N fuel top bot = Some res /\
   match res with
   | DivOk c => bot <> 0 /\ c < N /\ ((Z.of_nat c * Z.of_nat bot) mod Z.of_nat N = Z.of_nat top)%Z
   | DivideByZero => bot = 0
   | NotDivisible => False
   end.
Proof.
  intros Hf Hp Ht Hb. unfold mod_div. destruct (Nat.eqb_spec bot 0) as [->|Hb0]; [eexists; split; [reflexivity|reflexivity]|].
  unfold mod_xgcd.
  destruct (mod_xgcd_loop_ok (Z.of_nat bot) (Z.of_nat N) fuel bot N 1 0 0 1 Hf) as (g & a & b & -> & Hg & Hgcd); [lia|lia|].
  assert (Hg1 : g = 1).
  { assert (Hdn : (Z.of_nat g | Z.of_nat N)%Z). { destruct (Nat.gcd_divide_r bot N) as [c Hc]. exists (Z.of_nat c). subst g. lia. }
    assert (Hdb : (Z.of_nat g | Z.of_nat bot)%Z). { destruct (Nat.gcd_divide_l bot N) as [c Hc]. exists (Z.of_nat c). subst g. lia. }
    destruct (prime_divisors _ Hp _ Hdn) as [H|[H|[H|H]]]; try lia.
    exfalso. apply Z.divide_pos_le in Hdb; lia. }
  clear Hgcd. rewrite Hg1 in *. clear Hg1. cbn [Nat.eqb]. rewrite Nat.mod_1_r, Nat.div_1_r. cbn [Nat.eqb].
  eexists; split; [reflexivity|]. split; [exact Hb0|]. split; [apply Nat.mod_upper_bound; lia|].
  destruct (mod_modulo_ok a) as [_ Ha]. rewrite Nat2Z.inj_mod, Nat2Z.inj_mul, Ha.
  rewrite Z.mul_mod_idemp_l by lia.
  replace (a mod Z.of_nat N * Z.of_nat top * Z.of_nat bot)%Z with (a mod Z.of_nat N * (Z.of_nat top * Z.of_nat bot))%Z by ring.
  rewrite Z.mul_mod_idemp_l by lia.
  replace (a * (Z.of_nat top * Z.of_nat bot))%Z with (Z.of_nat top + (- b * Z.of_nat top) * Z.of_nat N)%Z.
  2:{ replace (a * (Z.of_nat top * Z.of_nat bot))%Z with (Z.of_nat top * (a * Z.of_nat bot))%Z by ring.
      replace (a * Z.of_nat bot)%Z with (1 - b * Z.of_nat N)%Z by (change (Z.of_nat 1) with 1%Z in Hg; lia). ring. }
  rewrite Z.mod_add by lia. apply Z.mod_small. lia.
Qed.
End Mod.
Lemma mod_from_Integer_bad : mod_from_Integer 5 (-1) = 1 /\ mod_from_isize 5 (-1) = 4.
Proof. split; reflexivity. Qed.
