(* Elementary symmetric polynomials and substitutions in the ring of MpRing2. *)
From Coq Require Import List Arith NArith Bool.
From mathcomp Require Import all_ssreflect all_algebra all_fingroup.
From mathcomp Require Import zify.
From Coq Require Import Lia.
From Verif Require Import SetsModel MpModel FinSupp MpRing MpRing2 MpRing3 MpRing4.
Set Implicit Arguments. Unset Strict Implicit. Unset Printing Implicit Defensive.
Import GRing.Theory.
Local Open Scope ring_scope.

(* the coefficients of the product of the 1 + x X *)
Section El.
Variable A : comRingType.
Implicit Types (x : A) (xs : seq A).
Definition elg xs (k : nat) : A := (\prod_(x <- xs) (1 + x *: 'X))`_k.
Lemma elg_cons x xs k : elg (x :: xs) k.+1 = elg xs k.+1 + x * elg xs k.
Proof. by rewrite /elg big_cons mulrDl mul1r coefD -scalerAl coefZ coefXM. Qed.
Lemma elg0 xs : elg xs 0 = 1.
Proof. elim: xs => [|x xs IH]; first by rewrite /elg big_nil coef1. by rewrite /elg big_cons mulrDl mul1r coefD -scalerAl coefZ coefXM mulr0 addr0. Qed.
Lemma elg_nil k : elg [::] k.+1 = 0. Proof. by rewrite /elg big_nil coef1. Qed.
Lemma elg_zero xs k : elg (0 :: xs) k = elg xs k.
Proof. case: k => [|k]; first by rewrite !elg0. by rewrite elg_cons mul0r addr0. Qed.
Lemma elg_perm xs ys k : perm_eq xs ys -> elg xs k = elg ys k. Proof. move=> H. by rewrite /elg (perm_big _ H). Qed.
Lemma elg_big xs k : (size xs < k)%N -> elg xs k = 0.
Proof. elim: xs k => [|x xs IH] [|k] //= H; first exact: elg_nil. by rewrite elg_cons !IH ?mulr0 ?addr0 //; lia. Qed.
Lemma elg_top xs : elg xs (size xs) = \prod_(x <- xs) x.
Proof. elim: xs => [|x xs IH]; first by rewrite elg0 big_nil. by rewrite /= elg_cons elg_big // add0r IH big_cons. Qed.
Lemma elg_drop xs k : elg xs k.+1 = \sum_(i < size xs) nth 0 xs i * elg (drop i.+1 xs) k.
Proof. elim: xs => [|x xs IH]; first by rewrite big_ord0 elg_nil. rewrite elg_cons IH /= big_ord_recl /= drop0 addrC. by congr (_ + _). Qed.
Lemma subsetsE k xs : \sum_(s <- subsets_k k (size xs)) \prod_(i <- s) nth 0 xs i = elg xs k.
Proof.
  elim: k xs => [|k IH] xs; first by rewrite /= big_seq1 big_nil elg0. cbn [subsets_k]. case: Nat.ltb_spec => H; first by rewrite big_nil elg_big //; apply/ssrnat.ltP.
  rewrite elg_drop. have SE n : forall m, List.seq m n = iota m n by elim: n => //= n IHn m; rewrite IHn. rewrite SE.
  have F (f : nat -> seq (seq nat)) l : List.flat_map f l = flatten (map f l) by elim: l => //= a l ->.
  rewrite F big_flatten big_map /= -[iota 0 (size xs)](_ : index_iota 0 (size xs) = _); last by rewrite /index_iota subn0. rewrite big_mkord. apply: eq_bigr => i _. rewrite -[List.map _ _]/(map _ _) big_map -IH size_drop big_distrr /=.
  have -> : Nat.sub (Nat.sub (size xs) i) 1 = (size xs - i.+1)%N by lia. apply: eq_bigr => s _. rewrite big_cons. congr (_ * _). rewrite -[List.map _ _]/(map _ _) big_map. apply: eq_bigr => j _. rewrite nth_drop. congr nth. lia.
Qed.
End El.
Lemma elg_map (A B : comRingType) (g : {rmorphism A -> B}) xs k : g (elg xs k) = elg (map g xs) k.
Proof.
  elim: xs k => [|x xs IH] [|k]; rewrite ?elg0 ?rmorph1 //=; first by rewrite !elg_nil rmorph0. by rewrite !elg_cons rmorphD rmorphM !IH.
Qed.

Section K.
Variable R : comRingType.
Notation K := (mpoly R predT).
Notation tm := (seq (mon * R)).
Notation X := (kvar R predT).
Notation cst := [rmorphism of kconst predT].
Definition sub (th : nat -> K) : K -> K := @evk R _ cst th predT.
Lemma sub_rm th : rmorphism (sub th). Proof. exact: evk_rmorphism. Qed.
Canonical sub_additive th := Additive (sub_rm th).
Canonical sub_rmorphism th := RMorphism (sub_rm th).
Lemma subX th v : sub th (X v) = th v.
Proof. rewrite /sub /evk kmE // evl_nf /evl big_seq1 rmorph1 mul1r /mev big_seq1. exact: expr1. Qed.
Lemma subC th c : sub th (kconst predT c) = kconst predT c. Proof. exact: evk_const. Qed.
Lemma sub_id x : sub X x = x. Proof. exact: ev_id. Qed.
Lemma sub_evk (A : comRingType) (f : {rmorphism R -> A}) th g (x : K) : evk f g (sub th x) = evk f (fun v => evk f g (th v)) x.
Proof.
  rewrite /sub {2}/evk. rewrite (evl_rmorph _ (evk_rmorph f g predT)). apply: (@evl_eq _ _ _ _ _ _ predT) => //; last by apply/allP => t _; apply/allP. move=> c. exact: evk_const.
Qed.
Lemma sub_sub th g x : sub g (sub th x) = sub (fun v => sub g (th v)) x. Proof. exact: sub_evk. Qed.
(* the variables of x *)
Definition varsin (P : pred nat) (x : K) : bool := all (fun t => all (fun y => P y.1) t.1) (x : tm).
Lemma sub_eq P th th' x : varsin P x -> (forall v, P v -> th v = th' v) -> sub th x = sub th' x.
Proof. move=> H E. exact: (@evl_eq _ _ _ _ _ _ P). Qed.
Lemma varsinP (P : pred nat) x : varsin P x <-> forall m, cf x m != 0 -> all (fun y => P y.1) m.
Proof.
  have /and3P[U _ Nz] := mv_can x. split.
  - move=> /allP H m Hm. have : m \in [seq t.1 | t <- (x : tm)] by move: Hm; apply: contraR => N; rewrite coef_out. case/mapP=> t Ht ->. exact: H.
  - move=> H. apply/allP => t Ht. apply: H. rewrite (coef_uniq _ U Ht). exact: (allP Nz).
Qed.
Lemma okm_all (P : pred nat) (x : K) : varsin P x = all (fun t => okm P t.1) (x : tm).
Proof. apply: eq_in_all => t Ht. rewrite /okm. by case/andP: (allP (mv_ok x) t Ht) => ->. Qed.
(* an element in the variables P comes from the smaller ring *)
Lemma varsin_incl P x : varsin P x <-> exists y : mpoly R P, x = @incl R P predT y.
Proof.
  split.
  - rewrite okm_all => H. exists (MkMp (introT andP (conj (mv_can x) H))). apply: val_inj => /=. by rewrite incl_mv.
  - case=> y ->. rewrite /varsin incl_mv //. apply: sub_all (mv_ok y) => t. by case/andP.
Qed.
Lemma varsinD P x y : varsin P x -> varsin P y -> varsin P (x + y).
Proof. move/varsin_incl => [a ->] /varsin_incl [b ->]. apply/varsin_incl. exists (a + b). by rewrite rmorphD. Qed.
Lemma varsinM P x y : varsin P x -> varsin P y -> varsin P (x * y).
Proof. move/varsin_incl => [a ->] /varsin_incl [b ->]. apply/varsin_incl. exists (a * b). by rewrite rmorphM. Qed.
Lemma varsinN P x : varsin P x -> varsin P (- x).
Proof. move/varsin_incl => [a ->]. apply/varsin_incl. exists (- a). by rewrite rmorphN. Qed.
Lemma varsin1 P : varsin P 1. Proof. apply/varsin_incl. exists 1. by rewrite rmorph1. Qed.
Lemma varsin0 P : varsin P 0. Proof. by []. Qed.
Lemma varsinC P c : varsin P (kconst predT c). Proof. apply/varsin_incl. exists (kconst P c). by rewrite incl_const. Qed.
Lemma varsinX (P : pred nat) v : P v -> varsin P (X v). Proof. move=> H. rewrite /varsin kmE //. apply/allP => t. by rewrite rnf_id /=; [rewrite inE => /eqP -> /=; rewrite H|rewrite /tcan /canon /= oner_eq0]. Qed.
Lemma varsin_sub (P : pred nat) th x : (forall v, varsin P (th v)) -> varsin P (sub th x).
Proof.
  move=> H. rewrite /sub /evk /evl. apply: (big_ind (varsin P)); [exact: varsin0|exact: varsinD|]. move=> t _. apply: varsinM; first exact: varsinC. rewrite /mev. apply: (big_ind (varsin P)); [exact: varsin1|exact: varsinM|].
  move=> y _. elim: (y.2) => [|k IH]; [exact: varsin1|rewrite exprS; exact: varsinM].
Qed.
Lemma varsin_weak (P Q : pred nat) x : (forall v, P v -> Q v) -> varsin P x -> varsin Q x.
Proof. move=> H. apply: sub_all => t. apply: sub_all => y. exact: H. Qed.
(* substituting 0 *)
Definition zr (v : nat) : K -> K := sub (fun u => if u == v then 0 else X u).
Lemma zr_psi v x : zr v x = @incl R (ok1 predT v) predT (psi v x)`_0.
Proof.
  have E : forall y, @incl R (ok1 predT v) predT (psi v y)`_0 = [rmorphism of @incl R (ok1 predT v) predT \o horner_eval 0 \o psi v] y by move=> y /=; rewrite /horner_eval horner_coef0.
  rewrite E /=. rewrite /psi /evk (evl_rmorph _ (horner_eval_rmorphism 0)) (evl_rmorph _ [rmorphism of @incl R (ok1 predT v) predT]). apply: (@evl_eq _ _ _ _ _ _ predT) => //.
  - move=> c /=. by rewrite /horner_eval hornerC incl_const.
  - move=> u _ /=. rewrite /th_psi /horner_eval. case: eqP => [_|N]; first by rewrite hornerX rmorph0. rewrite hornerC incl_var //. rewrite /ok1. exact/eqP.
  - by apply/allP => t _; apply/allP.
Qed.
Lemma zr_div v x : zr v x = 0 -> exists y, x = X v * y.
Proof.
  rewrite zr_psi => H. have H0 : (psi v x)`_0 = 0. { apply: val_inj => /=. have := congr1 (@mv R predT) H. by rewrite incl_mv. }
  have [q Eq] : exists q, psi v x = q * 'X. { have /factor_theorem[q Eq] : root (psi v x) 0 by rewrite rootE horner_coef0 H0. exists q. by rewrite Eq subr0. }
  exists (evp q). have Hv : predT v by []. by rewrite -[LHS](psiK v) Eq rmorphM /= evpX mulrC.
Qed.
Lemma zr_in v x : varsin (fun u => u != v) x -> zr v x = x.
Proof. move=> H. rewrite -[RHS]sub_id. apply: (sub_eq H) => u /negbTE -> //. Qed.
(* degrees *)
Definition dle (x : K) (d : nat) : bool := all (fun t => \sum_(y <- t.1) y.2 <= d)%N (x : tm).
Definition wle (w : nat -> nat) (x : K) (d : nat) : bool := all (fun t => \sum_(y <- t.1) w y.1 * y.2 <= d)%N (x : tm).
Definition wt (w : nat -> nat) (m : mon) : nat := (\sum_(y <- m) w y.1 * y.2)%N.
Lemma wt_nf w m : wt w (nf leq addn_comoid m) = wt w m.
Proof.
  have G (m0 : mon) n : (forall x, x \in m0 -> x.1 < n)%N -> wt w m0 = (\sum_(v < n) w v * expo m0 v)%N.
  { move=> H. rewrite /wt /coef. rewrite (eq_bigr (fun v : 'I_n => \sum_(x <- m0) (if x.1 == v then w x.1 * x.2 else 0))%N); last first.
    { move=> v _. rewrite big_distrr /= big_mkcond. apply: eq_bigr => x _. case: eqP => // ->. by []. }
    rewrite exchange_big /=. apply: eq_big_seq => x Hx. rewrite -big_mkcond /= (big_pred1 (Ordinal (H x Hx))) //. move=> v. by rewrite /= eq_sym. }
  set n := (\max_(x <- m) x.1).+1. have Hn x : x \in m -> (x.1 < n)%N by move=> H; rewrite ltnS; apply: leq_bigmax_seq.
  rewrite (G m n) // (G _ n); first by apply: eq_bigr => v _; rewrite expo_nf.
  move=> x Hx. have : x.1 \in [seq y.1 | y <- nf leq addn_comoid m] by exact: map_f. rewrite nf_keys /keys mem_filter mem_sort mem_undup => /andP[_ /mapP[y Hy ->]]. exact: Hn.
Qed.
Lemma wt_mm w a b : wt w (mm a b) = (wt w a + wt w b)%N. Proof. by rewrite wt_nf /wt big_cat. Qed.
Lemma wleP w x d : wle w x d <-> forall m, cf x m != 0 -> (wt w m <= d)%N.
Proof.
  have /and3P[U _ Nz] := mv_can x. split.
  - move=> /allP H m Hm. have : m \in [seq t.1 | t <- (x : tm)] by move: Hm; apply: contraR => N; rewrite coef_out. case/mapP=> t Ht ->. exact: H.
  - move=> H. apply/allP => t Ht. apply: H. rewrite (coef_uniq _ U Ht). exact: (allP Nz).
Qed.
Lemma dle_wle x d : dle x d = wle (fun _ => 1%N) x d. Proof. apply: eq_all => t. congr (_ <= _)%N. apply: eq_bigr => y _. by rewrite mul1n. Qed.
Lemma wleD w x y d : wle w x d -> wle w y d -> wle w (x + y) d.
Proof. move=> /wleP Hx /wleP Hy. apply/wleP => m. rewrite cfD => H. case: (eqVneq (cf x m) 0) => [E|N]; last exact: Hx. apply: Hy. by rewrite E add0r in H. Qed.
Lemma wleM w x y a b : wle w x a -> wle w y b -> wle w (x * y) (a + b).
Proof.
  move=> /allP Hx /allP Hy. apply/wleP => m. rewrite cfM => H. have [s Hs [t Ht E]] : exists2 s, s \in (x : tm) & exists2 t, t \in (y : tm) & mm s.1 t.1 = m.
  { case: (boolP (has (fun s => has (fun t => mm s.1 t.1 == m) (y : tm)) (x : tm))) => [/hasP[s Hs /hasP[t Ht /eqP E]]|N]; first by exists s => //; exists t.
    case/eqP: H. apply: big1_seq => s /= Hs. apply: big1_seq => t /= Ht. case: eqP => // E. case/negP: N. apply/hasP. exists s => //. apply/hasP. exists t => //. exact/eqP. }
  rewrite -E wt_mm. apply: leq_add; [exact: Hx|exact: Hy].
Qed.
Lemma wleN w x d : wle w x d -> wle w (- x) d. Proof. move=> /wleP H. apply/wleP => m. rewrite cfN oppr_eq0. exact: H. Qed.
Lemma wleC w c d : wle w (kconst predT c) d.
Proof. apply/wleP => m. rewrite cfC. case: ([::] =P m) => [<- _|]; last by rewrite eqxx. by rewrite /wt big_nil. Qed.
Lemma wleX w v : wle w (X v) (w v).
Proof. apply/wleP => m. rewrite cf_km //. case: (vmon v 1 =P m) => [<- _|]; last by rewrite eqxx. by rewrite /wt big_seq1 muln1. Qed.
Lemma wle_le w x d d' : (d <= d')%N -> wle w x d -> wle w x d'. Proof. move=> H. apply: sub_all => t Ht. exact: leq_trans Ht H. Qed.
Lemma wle1 w : wle w 1 0. Proof. exact: (@wleC w 1). Qed.
Lemma wle_exp w x d k : wle w x d -> wle w (x ^+ k) (d * k).
Proof. move=> H. elim: k => [|k IH]; first by rewrite muln0 expr0 wle1. by rewrite exprS mulnS; apply: wleM. Qed.
(* substitution and degrees *)
Lemma wle_sub w w' th x d : (forall v, wle w (th v) (w' v)) -> wle w' x d -> wle w (sub th x) d.
Proof.
  move=> H /allP Hx. rewrite /sub /evk /evl. rewrite big_seq. apply: (big_ind (fun y => wle w y d)); [by []|by move=> a b; exact: wleD|]. move=> t Ht. apply: (wle_le (Hx t Ht)). rewrite -[X in wle w _ X]add0n. apply: wleM; first exact: wleC.
  rewrite /mev. elim: t.1 => [|y m IH]; first by rewrite !big_nil wle1. rewrite !big_cons. apply: wleM => //. exact: wle_exp.
Qed.
(* a multiple of a variable *)
Lemma cf_varM v x m : mcan m -> cf (X v * x) (mm (vmon v 1) m) = cf x m.
Proof.
  move=> Hm. rewrite cfM. have -> : (X v : tm) = [:: (vmon v 1, 1)] by rewrite kmE // rnf_id // /tcan /canon /= oner_eq0. rewrite big_seq1 cfE. apply: eq_big_seq => t Ht /=. rewrite mul1r. have Ct : mcan t.1 by case/andP: (allP (mv_ok x) _ Ht).
  have -> : (mm (vmon v 1) t.1 == mm (vmon v 1) m) = (t.1 == m) => //. apply/eqP/eqP => [E|->] //. apply: mcan_ext => // u. have := congr1 (fun m => expo m u) E. rewrite !expo_mm. lia.
Qed.
Lemma wle_varM w v x d : wle w (X v * x) d -> x = 0 \/ (w v <= d)%N /\ wle w x (d - w v).
Proof.
  move=> /wleP H. have G m : cf x m != 0 -> (w v + wt w m <= d)%N.
  { move=> Hm. have Cm : mcan m. { have : m \in [seq t.1 | t <- (x : tm)] by move: Hm; apply: contraR => N; rewrite coef_out. case/mapP=> t Ht ->. by case/andP: (allP (mv_ok x) _ Ht). }
    have := H (mm (vmon v 1) m). rewrite cf_varM // => /(_ Hm). by rewrite wt_mm {1}/wt big_seq1 muln1. }
  case: (eqVneq x 0) => [|N]; [by left|right]. have [m Hm] : exists m, cf x m != 0.
  { have : mv x <> [::] by move=> E; move/eqP: N; case; apply: val_inj. case E: (mv x) => [|t l] // _. exists t.1. have /and3P[U _ /allP Nz] := mv_can x. have Ht : t \in (x : tm) by rewrite E mem_head. rewrite -E (coef_uniq _ U Ht). exact: Nz. }
  split; first by have := G m Hm; lia. apply/wleP => m' /G. lia.
Qed.
End K.
