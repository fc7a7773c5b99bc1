(* Polynomials in v with coefficients not involving v. *)
From Coq Require Import List Arith Bool.
From mathcomp Require Import all_ssreflect all_algebra.
From mathcomp Require Import zify.
From Coq Require Import Lia.
From Verif Require Import MpModel FinSupp MpRing MpRing2 MpRing3.
Set Implicit Arguments. Unset Strict Implicit. Unset Printing Implicit Defensive.
Import GRing.Theory.
Local Open Scope ring_scope.
Section Sub.
Variables (R : comRingType).
Notation tm := (seq (mon * R)).
Lemma okm_vars ok (l : tm) : all (fun t => okm ok t.1) l -> all (fun t => all (fun x => ok x.1) t.1) l.
Proof. by apply: sub_all => t /andP[]. Qed.
Lemma okm_sub (ok ok' : pred nat) m : (forall v, ok v -> ok' v) -> okm ok m -> okm ok' m.
Proof. move=> H /andP[H1 H2]. rewrite /okm H1 /=. apply: sub_all H2 => x. exact: H. Qed.
Lemma ev_cf ok (l : tm) k : all (fun t => okm ok t.1) l -> cf (evl [rmorphism of kconst ok] (kvar R ok) l) k = cf l k.
Proof.
  rewrite /evl. elim: l => [|t l IH] /=; first by rewrite big_nil cf0. move=> /andP[H1 H2]. rewrite big_cons cfD IH // coef_cons -km_ev // cf_km //. case: eqP => _ //. by rewrite add0r.
Qed.
(* a bigger set of variables *)
Section Incl.
Variables (ok ok' : pred nat).
Hypothesis S : forall v, ok v -> ok' v.
Definition incl : mpoly R ok -> mpoly R ok' := @evk R _ [rmorphism of kconst ok'] (kvar R ok') ok.
Lemma incl_rm : rmorphism incl. Proof. exact: evk_rmorphism. Qed.
Canonical incl_additive := Additive incl_rm.
Canonical incl_rmorphism := RMorphism incl_rm.
Lemma incl_mv x : mv (incl x) = mv x.
Proof.
  apply: tcan_ext; try exact: mv_can. move=> m. rewrite /incl /evk ev_cf //. apply: sub_all (mv_ok x) => t. exact: okm_sub.
Qed.
Lemma incl_var v : ok v -> incl (kvar R ok v) = kvar R ok' v.
Proof. move=> Hv. apply: val_inj => /=. rewrite incl_mv !kmE //; apply: ok_vmon => //. exact: S. Qed.
Lemma incl_const c : incl (kconst ok c) = kconst ok' c. Proof. exact: evk_const. Qed.
End Incl.
Variable ok : pred nat.
Variable v : nat.
Hypothesis Hv : ok v.
Definition ok1 : pred nat := fun u => ok u && (u != v).
Lemma ok1_sub u : ok1 u -> ok u. Proof. by case/andP. Qed.
Notation K := (mpoly R ok).
Notation K' := (mpoly R ok1).
Notation I := (@incl ok1 ok).
Definition th_psi (u : nat) : {poly K'} := if u == v then 'X else (kvar R ok1 u)%:P.
Definition psi : K -> {poly K'} := @evk R _ [rmorphism of polyC \o kconst ok1] th_psi ok.
Lemma psi_rm : rmorphism psi. Proof. exact: evk_rmorphism. Qed.
Canonical psi_additive := Additive psi_rm.
Canonical psi_rmorphism := RMorphism psi_rm.
Lemma comI : commr_rmorph [rmorphism of I] (kvar R ok v). Proof. move=> p. exact: mulrC. Qed.
Definition evp : {poly K'} -> K := horner_morph comI.
Lemma evp_rm : rmorphism evp. Proof. exact: (horner_is_lrmorphism comI). Qed.
Canonical evp_additive := Additive evp_rm.
Canonical evp_rmorphism := RMorphism evp_rm.
Lemma evpC c : evp c%:P = I c. Proof. exact: horner_morphC. Qed.
Lemma evpX : evp 'X = kvar R ok v. Proof. exact: horner_morphX. Qed.
Lemma evpE P : evp P = \sum_(i < size P) I P`_i * kvar R ok v ^+ i.
Proof.
  rewrite -{1}[P]coefK poly_def rmorph_sum. apply: eq_bigr => i _. rewrite -mul_polyC rmorphM rmorphX /=. by rewrite evpC evpX.
Qed.
Lemma psiK x : evp (psi x) = x.
Proof.
  rewrite -[RHS]ev_id /psi /evk evl_rmorph. apply: (evl_eq (ok := ok)) => [c|u Hu|]; last by apply: okm_vars; exact: mv_ok.
  - by rewrite /= evpC incl_const //; exact: ok1_sub.
  - rewrite /= /th_psi. case: eqP => [->|/eqP N]; first exact: evpX. rewrite evpC incl_var //; first exact: ok1_sub. by rewrite /ok1 Hu N.
Qed.
Lemma psi_incl p : psi (I p) = p%:P.
Proof.
  rewrite /incl [in LHS]/evk evl_rmorph -{2}[p]ev_id /evk evl_rmorph. apply: (evl_eq (ok := ok1)) => [c|u Hu|]; last by apply: okm_vars; exact: mv_ok.
  - by rewrite /= /psi evk_const.
  - rewrite /= /psi /kvar km_ev ?ok_vmon ?ok1_sub //. 
    have -> : mev (kvar R ok) (vmon u 1) = kvar R ok u by rewrite /mev big_seq1 expr1.
    rewrite rmorph1 mul1r /evk /kvar kmE ?ok_vmon ?ok1_sub // evl_nf /evl big_seq1 rmorph1 mul1r /mev big_seq1 expr1 /th_psi. case/andP: Hu => _ /negbTE ->. by [].
Qed.
Lemma psi_var : psi (kvar R ok v) = 'X.
Proof. rewrite /psi /evk /kvar kmE ?ok_vmon // evl_nf /evl big_seq1 rmorph1 mul1r /mev big_seq1 expr1 /th_psi eqxx. by []. Qed.
Lemma evpK P : psi (evp P) = P.
Proof.
  rewrite evpE rmorph_sum -[RHS]coefK poly_def. apply: eq_bigr => i _. rewrite rmorphM rmorphX /=. by rewrite psi_incl psi_var mul_polyC.
Qed.
Lemma psi_inj : injective psi. Proof. exact: can_inj psiK. Qed.
(* the terms *)
Definition rmv (m : mon) : mon := [seq x <- m | x.1 != v].
Lemma rmv_can m : mcan m -> mcan (rmv m).
Proof.
  rewrite /mcan /canon => /and3P[H1 H2 H3]. have E : [seq t.1 | t <- rmv m] = [seq u <- [seq t.1 | t <- m] | u != v] by rewrite filter_map.
  rewrite E filter_uniq // sorted_filter //; last exact: leq_trans. apply/allP => t. rewrite mem_filter => /andP[_]. exact: (allP H3).
Qed.
Lemma rmv_ok m : okm ok m -> okm ok1 (rmv m).
Proof. move=> /andP[H1 H2]. rewrite /okm rmv_can //=. apply/allP => x. rewrite mem_filter => /andP[N Hx]. rewrite /ok1 N andbT. exact: (allP H2). Qed.
Lemma expo_rmv m u : expo (rmv m) u = if u == v then 0%N else expo m u.
Proof.
  elim: m => [|x m IH]; first by rewrite coef_nil if_same. rewrite /rmv /=. case: (x.1 =P v) => [E|N] /=; rewrite !coef_cons -/(rmv m) IH.
  - rewrite E eq_sym. by case: eqP.
  - case: (x.1 =P u) => [E|_]; case: (u =P v) => [E'|_] //. by case: N; rewrite E.
Qed.
Lemma rmv_mm m : mcan m -> mm (rmv m) (vmon v (expo m v)) = m.
Proof.
  move=> H. apply: mcan_ext => //; first exact: mcan_mm. move=> u. rewrite expo_mm expo_rmv expo_vmon eq_sym. case: eqP => [->|_]; [by rewrite add0n|by rewrite addn0].
Qed.
Lemma psi_km m c : okm ok m -> psi (km ok m c) = (km ok1 (rmv m) c)%:P * 'X^(expo m v).
Proof.
  move=> H. have Hr := rmv_ok H. have Hr' : okm ok (rmv m) by apply: okm_sub Hr; exact: ok1_sub. have E : km ok m c = I (km ok1 (rmv m) c) * kvar R ok v ^+ (expo m v).
  { have -> : I (km ok1 (rmv m) c) = km ok (rmv m) c by apply: val_inj; rewrite /= incl_mv ?kmE //; exact: ok1_sub. rewrite kvarX // km_mul ?ok_vmon // mulr1 rmv_mm //. by case/andP: H. }
  rewrite E rmorphM rmorphX /=. by rewrite psi_incl psi_var.
Qed.
Lemma km_sum (x : K) : x = \sum_(t <- x : tm) km ok t.1 t.2.
Proof.
  rewrite -{1}[x]ev_id /evk /evl [LHS]big_seq [RHS]big_seq. apply: eq_bigr => t Ht. rewrite -km_ev //. exact: (allP (mv_ok x)).
Qed.
Lemma psi_sum (x : K) : psi x = \sum_(t <- x : tm) (km ok1 (rmv t.1) t.2)%:P * 'X^(expo t.1 v).
Proof.
  rewrite {1}[x]km_sum rmorph_sum [LHS]big_seq [RHS]big_seq. apply: eq_bigr => t Ht. apply: psi_km. exact: (allP (mv_ok x)).
Qed.
(* v-free *)
Lemma psi_free (x : K) : (size (psi x) <= 1)%N = all (fun t => okm ok1 t.1) (x : tm).
Proof.
  apply/idP/idP.
  - move=> /size1_polyC E. have Ex : x = I (psi x)`_0 by rewrite -evpC -E psiK. rewrite Ex incl_mv; [exact: mv_ok|exact: ok1_sub].
  - move=> H. have V : valid ok1 (x : tm) by rewrite /valid mv_can. have -> : x = I (MkMp V) by apply: val_inj => /=; rewrite incl_mv //; exact: ok1_sub.
    rewrite psi_incl. exact: size_polyC_leq1.
Qed.
End Sub.
(* a factor only involves the variables of the product *)
Lemma factor_vars (R : idomainType) (ok : pred nat) (q b : mpoly R predT) : q * b != 0 -> all (fun t => okm ok t.1) (q * b : seq (mon * R)) -> all (fun t => okm ok t.1) (q : seq (mon * R)).
Proof.
  move=> N H. apply/allP => t Ht. rewrite /okm. have /andP[C _] := allP (mv_ok q) _ Ht. rewrite C /=. apply/(all_vars ok C) => v Hv. apply: contraT => Nv.
  have S : (size (psi v (q * b)%R) <= 1)%N.
  { rewrite psi_free //. apply: sub_all H => s /andP[Cs Os]. rewrite /okm Cs /=. apply: sub_all Os => x Hx. rewrite /ok1 /=. apply/eqP => E. move: Nv. by rewrite -E Hx. }
  have N0 : psi v (q * b) != 0 by apply/eqP => E; move: N; rewrite -[q * b](psiK v) E rmorph0 eqxx.
  have S2 : (size (psi v q) <= 1)%N.
  { move: S N0. rewrite rmorphM /= => S N0. move: (N0). rewrite mulf_eq0 negb_or => /andP[N1 N2]. move: S. rewrite size_mul //. have : (0 < size (psi v b))%N by rewrite size_poly_gt0. set x := size _. set y := size _. lia. }
  rewrite psi_free // in S2. have /andP[_ O] := allP S2 _ Ht. have := (all_vars (ok1 predT v) C).1 O v Hv. by rewrite /ok1 eqxx.
Qed.
