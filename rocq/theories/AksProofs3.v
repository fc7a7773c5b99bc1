(* C11: the packed product is the product modulo x^r - 1 and n; the congruence test over a prime field *)
From Coq Require Import NArith ZArith.
From mathcomp Require Import all_ssreflect all_algebra.
From Coq Require Import Lia.
From Verif Require Import RingModel NatModel NatSpec NatProofs AksModel AksProofs AksProofs2 NatBridge NatBridge2.
Set Implicit Arguments.
Unset Strict Implicit.
Unset Printing Implicit Defensive.
Local Open Scope N_scope.

Definition okl (n : N) (r : nat) (l : list N) : Prop := length l = r /\ forall x, List.In x l -> x < n.
Lemma okl_nth n r l i : 0 < n -> okl n r l -> List.nth i l 0 < n.
Proof.
  move=> Hn [L H]. case: (Nat.lt_ge_cases i (length l)) => Hi.
  - apply H. by apply List.nth_In.
  - by rewrite List.nth_overflow.
Qed.
Lemma okl_mod n r l : okl n r l -> List.map (fun c => c mod n) l = l.
Proof. move=> [_ H]. rewrite -[RHS]List.map_id. apply List.map_ext_in => x Hx. apply N.mod_small. by apply H. Qed.

Lemma mul_polysE dbg n r cs la lb : (0 < r)%nat -> 1 < n -> n * n * N.of_nat r < 2 ^ cs -> okl n r la -> okl n r lb ->
  mul_polys dbg n r cs (enc cs la) (enc cs lb) = Some (enc cs (mul_polys_naive n r la lb)) /\ okl n r (mul_polys_naive n r la lb).
Proof.
  move=> Hr Hn HB Ha Hb. have Hn0 : 0 < n by lia. have Hr' : (0 < N.of_nat r) by move/ltP: Hr; lia.
  have HnB : n < 2 ^ cs by nia.
  split; last by (split; [by rewrite length_naive|move=> x; exact: naive_lt]).
  have Hc x : List.In x (conv r la lb) -> x + 1 < 2 ^ cs.
  { move=> Hx. have := @conv_bound n r la lb x (ssrbool.elimT ltP Hr) Hn0 (fun i => okl_nth i Hn0 Ha) (fun i => okl_nth i Hn0 Hb) Hx. nia. }
  have Hc' x : List.In x (conv r la lb) -> x < 2 ^ cs by move/Hc; lia.
  have Lc : length (conv r la lb) = r by exact: length_conv.
  have HE : enc cs (conv r la lb) + 1 < (2 ^ cs) ^ N.of_nat r.
  { rewrite -{2}Lc. apply enc_lt1 => //. move=> E. rewrite E /= in Lc. rewrite -Lc in Hr'. by []. }
  have [La Ia] := Ha. have [Lb Ib] := Hb.
  have Ia' x : List.In x la -> x < 2 ^ cs by move/Ia; lia.
  have Ib' x : List.In x lb -> x < 2 ^ cs by move/Ib; lia.
  rewrite /mul_polys shl1 N.pow_mul_r packed_mod //. rewrite reduceE //; [|lia].
  have Da : bigint_to_poly n r cs (enc cs la) = la by rewrite /bigint_to_poly -{1}La digitsE // (okl_mod Ha).
  have Db : bigint_to_poly n r cs (enc cs lb) = lb by rewrite /bigint_to_poly -{1}Lb digitsE // (okl_mod Hb).
  rewrite Da Db p2b -naiveE // N.eqb_refl andbF. by [].
Qed.

Import GRing.Theory.
Local Open Scope ring_scope.
Section Frob.
Variables (n : N) (r : nat).
Hypothesis Hp : prime_N n.
Hypothesis Hr : (1 < r)%N.
Let p := N.to_nat n.
Let Pp : prime p. Proof. exact/prime_bridge. Qed.
Notation PF := {poly 'F_p}.
Notation EV := (@ev (poly_comRingType _) ('X : PF)).
Let n_gt1 : (1 < n)%num := proj1 Hp.

Lemma charPF : p \in [char PF].
Proof. exact: (rmorph_char [rmorphism of (@polyC _)] (char_Fp Pp)). Qed.
Lemma psi_mod c : psi (poly_comRingType (Fp_fieldType p)) (c mod n)%num = psi (poly_comRingType (Fp_fieldType p)) c.
Proof.
  rewrite /psi to_nat_mod -/p [X in _ = X%:R](divn_eq (N.to_nat c) p) natrD natrM (charf0 charPF) mulr0 add0r. by [].
Qed.
Lemma ev_mod l : EV (List.map (fun c => c mod n)%num l) = EV l.
Proof. elim: l => [|c l IH] //=. by rewrite IH psi_mod. Qed.
Lemma naive_cong la lb : length la = r -> length lb = r -> cong ('X : PF) r (EV la * EV lb) (EV (mul_polys_naive n r la lb)).
Proof. move=> La Lb. rewrite naiveE; last lia. rewrite ev_mod. apply: ev_conv => //. exact: ltnW. Qed.

Fixpoint bval (bs : list bool) : nat := match bs with nil => 0%N | cons b bs' => (b + 2 * bval bs')%N end.
Lemma bval_bits k : bval (bits k) = N.to_nat k.
Proof. case: k => [|q] //=. elim: q => [q IH|q IH|] //=; rewrite IH -?multE -?plusE; lia. Qed.
Lemma nthpow_loopE dbg cs : (n * n * N.of_nat r < 2 ^ cs)%num -> forall bs la lb, okl n r la -> okl n r lb ->
  exists lc, nthpow_loop dbg n r cs bs (enc cs la) (enc cs lb) = Some (enc cs lc) /\ okl n r lc /\ cong ('X : PF) r (EV la * EV lb ^+ bval bs) (EV lc).
Proof.
  move=> HB. have Hr0 : (0 < r)%N by exact: ltnW. elim=> [|b bs IH] la lb Ha Hb.
  - exists la. split=> //. split=> //. rewrite expr0 mulr1. exact: cong_refl.
  - cbn [nthpow_loop]. have [E2 O2] := mul_polysE dbg Hr0 n_gt1 HB Hb Hb. have [E1 O1] := mul_polysE dbg Hr0 n_gt1 HB Ha Hb.
    have C2 := naive_cong (proj1 Hb) (proj1 Hb). have C1 := naive_cong (proj1 Ha) (proj1 Hb).
    case: b.
    + rewrite E1 /= E2 /=. have [lc [E [O C]]] := IH _ _ O1 O2. exists lc. split=> //. split=> //. apply: cong_trans C.
      rewrite exprD expr1 mulrA exprM. apply: cong_mul; [exact: C1|]. apply: cong_exp. rewrite expr2. exact: C2.
    + rewrite /= E2 /=. have [lc [E [O C]]] := IH _ _ Ha O2. exists lc. split=> //. split=> //. apply: cong_trans C.
      rewrite add0n exprM. apply: cong_mul; [exact: cong_refl|]. apply: cong_exp. rewrite expr2. exact: C2.
Qed.
(* reduced lists are determined by their class modulo x^r - 1 *)
Lemma EV_Poly l : EV l = Poly (List.map (fun c => (N.to_nat c)%:R : 'F_p) l).
Proof. elim: l => [|c l IH] //=. rewrite IH cons_poly_def addrC mulrC /psi rmorph_nat. by []. Qed.
Lemma ev_inj la lb : okl n r la -> okl n r lb -> cong ('X : PF) r (EV la) (EV lb) -> la = lb.
Proof.
  move=> Ha Hb [w E]. have Hr0 : (0 < r)%N by exact: ltnW.
  have sz l : okl n r l -> (size (EV l) <= r)%N. { move=> [L _]. rewrite EV_Poly. apply: leq_trans (size_Poly _) _. by rewrite -[size _]/(length _) List.map_length L. }
  have E' : EV la - EV lb = w * ('X ^+ r - 1) by rewrite E addrC addKr.
  have S : (size ((EV la - EV lb)%R : PF) <= r)%N. { apply: leq_trans (size_add _ _) _. by rewrite size_opp geq_max !sz. }
  have W : w = 0.
  { apply/eqP; apply: contraTT S => W. rewrite E' -ltnNge size_Mmonic ?monic_Xn_sub_1 // size_Xn_sub_1 // addnS /=. have := size_poly_gt0 w. rewrite W. by case: (size w) => [|k] // _; rewrite addSn ltnS leq_addl. }
  rewrite W mul0r in E'. move/eqP: E'. rewrite subr_eq0 => /eqP E2.
  case: Ha Hb => [La Ia] [Lb Ib]. apply: (List.nth_ext la lb N0 N0); first by rewrite La Lb. move=> i Hi.
  have := congr1 (fun q : PF => q`_i) E2. rewrite !EV_Poly !coef_Poly.
  have ni l : length l = length la -> nth 0 (List.map (fun c => (N.to_nat c)%:R : 'F_p) l) i = (N.to_nat (List.nth i l N0))%:R.
  { move=> _. elim: l i {Hi} => [|c l IH] [|i] //=. }
  rewrite !ni //; last by rewrite La Lb. move=> E3. apply N2Nat.inj.
  have lt l : (forall x, List.In x l -> (x < n)%num) -> length l = length la -> (N.to_nat (List.nth i l N0) < p)%N. { move=> I L. apply/to_nat_lt. apply I. apply List.nth_In. by rewrite L. }
  have := congr1 (@nat_of_ord _) E3. rewrite !val_Fp_nat //. rewrite !modn_small //; apply: lt => //. by rewrite La Lb.
Qed.
Lemma updE f l i : (i < length l)%N -> exists m, upd f l i = Some m /\ length m = length l /\ (forall x, List.In x m -> List.In x l \/ x = f (List.nth i l N0)) /\
  forall (R : comRingType) (x : R), ev x m = ev x l + (psi R (f (List.nth i l N0)) - psi R (List.nth i l N0)) * x ^+ i.
Proof.
  elim: l i => [|c l IH] [|i] //= Hi.
  - eexists; split; first by []. split=> //. split; first by move=> x [<-|H]; [right|left; right].
    move=> R x /=. by rewrite expr0 mulr1 [psi _ c + _]addrC -addrA [psi _ c + _]addrC subrK addrC.
  - have [m [-> [L [I E]]]] := IH i Hi. eexists; split; first by []. split; first by rewrite /= L. split.
    + move=> x /= [<-|H]; first by left; left. case: (I _ H) => H'; [by left; right|by right].
    + move=> R x /=. rewrite E mulrDr addrA. congr (_ + _). by rewrite mulrCA exprS.
Qed.
Lemma zero_okl : okl n r (zero_poly r).
Proof. split; first by rewrite /zero_poly List.repeat_length. move=> x /(@List.repeat_spec _ _ _ _) ->. lia. Qed.
Lemma nth_zero k : List.nth k (zero_poly r) N0 = N0.
Proof. rewrite /zero_poly. elim: r k => [|m IH] [|k] //=. Qed.
Lemma nth_upd_other f l i m j : upd f l i = Some m -> i <> j -> List.nth j m N0 = List.nth j l N0.
Proof.
  elim: l i m j => [|c l IH] [|i] m j //=.
  - case=> <-. by case: j.
  - case E: (upd f l i) => [m'|] //= [<-]. case: j => [|j] // Hij. apply: (IH _ _ _ E). by move=> H; apply: Hij; rewrite H.
Qed.
Theorem congruence_prime dbg cs b : (n * n * N.of_nat r < 2 ^ cs)%num -> (b < n)%num -> (n mod N.of_nat r <> 0)%num -> aks_congruence dbg n r cs b = Some true.
Proof.
  move=> HB Hb Hnr. have Hr0 : (0 < r)%N by exact: ltnW. rewrite /aks_congruence.
  have [L0 I0] := zero_okl.
  have [q [Eq [Lq [Iq Vq]]]] := @updE (fun _ => b) (zero_poly r) 0%N ltac:(by rewrite L0).
  have Oq : okl n r q. { split; first by rewrite Lq. move=> x /Iq [/I0|->] //. }
  have Vq' : EV q = psi (poly_comRingType (Fp_fieldType p)) b. { rewrite Vq ev_zero nth_zero add0r expr0 mulr1 /psi /=. by rewrite subr0. }
  rewrite Eq /=.
  have [s [Es [Ls [Is Vs]]]] := @updE (fun _ => 1%num) q 1%N ltac:(by rewrite Lq L0).
  have Os : okl n r s. { split; first by rewrite Ls Lq. move=> x /Is [H|->] //. exact (proj2 Oq _ H). }
  have Vs' : EV s = psi (poly_comRingType (Fp_fieldType p)) b + 'X. { rewrite Vs Vq' (nth_upd_other Eq) // nth_zero /psi /= subr0 expr1 mul1r. by []. }
  rewrite Es /=. rewrite /nthpow_poly /one_poly.
  have [o [Eo [Lo [Io Vo]]]] := @updE (fun _ => 1%num) (zero_poly r) 0%N ltac:(by rewrite L0).
  have Oo : okl n r o. { split; first by rewrite Lo. move=> x /Io [/I0|->] //. }
  have Vo' : EV o = 1. { rewrite Vo ev_zero nth_zero add0r expr0 mulr1 /psi /=. by rewrite subr0. }
  rewrite Eo /= !p2b. have [lc [El [Ol Cl]]] := nthpow_loopE dbg HB (bits n) Oo Os. rewrite El /=. rewrite Vo' Vs' mul1r bval_bits -/p in Cl.
  set k := N.to_nat (n mod N.of_nat r)%num.
  have Hk : (k < r)%N. { rewrite /k to_nat_mod Nat2N.id ltn_mod. exact: Hr0. }
  have Hk0 : k <> 0%N by rewrite /k; lia.
  have [t [Et [Lt [It Vt]]]] := @updE (fun c => c + 1)%num q k ltac:(by rewrite Lq L0).
  rewrite (nth_upd_other Eq) ?nth_zero in It Vt; last by move=> H; apply: Hk0.
  have Ot : okl n r t. { split; first by rewrite Lt Lq. move=> x /It [H|->] //. exact (proj2 Oq _ H). }
  rewrite Et /= p2b. have -> : lc = t; last by rewrite N.eqb_refl.
  apply: ev_inj => //. apply: cong_trans (cong_sym Cl) _. rewrite Vt Vq' /psi /= subr0 mul1r.
  rewrite -!(Frobenius_autE charPF) rmorphD rmorph_nat /= (Frobenius_autE charPF).
  apply: cong_add; first exact: cong_refl. rewrite /k to_nat_mod Nat2N.id -/p. exact: cong_pow.
Qed.
End Frob.
