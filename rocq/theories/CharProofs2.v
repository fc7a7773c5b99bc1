(* The model functions of CharModel over {poly F}. *)
From Coq Require Import List Arith NArith ZArith.
From mathcomp Require Import all_ssreflect all_algebra.
From Coq Require Import Lia.
From Verif Require Import RingSpec RingModel PermModel MatModel MatSpec MatInst MatViewSpec MatProofs MatProofs2 MatProofs7 MatProofs9 LatProofs3 SmithProps QpModel QpProofs QpProofs2 CharModel CharProofs.
Close Scope rs_scope.
Set Implicit Arguments.
Unset Strict Implicit.
Unset Printing Implicit Defensive.
Import GRing.Theory.
Local Open Scope ring_scope.

Section Char.
Variable F : fieldType.
Notation K := (mc_ops [idomainType of F]).
Notation X := [idomainType of {poly F}].
Notation O := (mc_ops X).
Variables (div : div_op O) (ffa : ffa_op O) (xgcd : {poly F} -> {poly F} -> {poly F} * {poly F} * {poly F}).
Variables (norm : {poly F} -> option N) (quorem : {poly F} -> {poly F} -> option ({poly F} * {poly F})).
Hypothesis BZ : @bezout_laws X div ffa xgcd.
Hypothesis EU : euclid_laws O norm quorem.
Hypothesis NM : norm_mono O norm.
Hypothesis MO : forall a : {poly F}, a != 0 -> snd (ffa a) \is monic.
Notation pres := (@presentation_matrix K O polyC 'X).
Notation minp := (@minimal_polynomial K O polyC 'X div ffa xgcd).
Notation charp := (@characteristic_polynomial K O polyC 'X div ffa xgcd).
Lemma pres_ok n m (A : 'M[F]_n) : represents m A -> exists pm, pres m = Some (Ok pm) /\ represents pm (- char_poly_mx A).
Proof.
  move=> Hm. rewrite /presentation_matrix (repr_rows Hm) (repr_cols Hm) eqb_nat eqxx. cbn [negb].
  have [d [Ed Hd]] : exists d, @diag O (List.repeat ('X : {poly F}) n) = Some d /\ represents d ('X%:M : 'M[{poly F}]_n).
  { have [d [Ed Hd]] := @diag_repr [comRingType of {poly F}] (List.repeat 'X n). exists d. split=> //. move: Hd. rewrite List.repeat_length => Hd.
    have -> : ('X%:M : 'M[{poly F}]_n) = \matrix_(i < n, j < n) (nth 0 (List.repeat 'X n) i *+ (i == j)); last exact: Hd.
    apply/matrixP => i j. by rewrite !mxE PolyProofs.repeatE nth_nseq ltn_ord. }
  rewrite Ed. cbn [obind]. have [nd [En Hn]] := neg_repr Hd. rewrite En. cbn [obind].
  have [c [Ec Hc]] := unwrap_add (repr_apply_map polyC Hm) Hn. rewrite /add Ec. cbn [obind]. exists c. split=> //. 
  by rewrite /char_poly_mx opprB. 
Qed.
Lemma pres_rank n (A : 'M[F]_n) : frac_rank (- char_poly_mx A) = n.
Proof.
  rewrite /frac_rank. apply/eqP. rewrite -/(row_free _) row_free_unit unitmxE det_map_mx unitfE tofrac_eq0.
  rewrite -scaleN1r detZ mulf_neq0 ?expf_neq0 ?oppr_eq0 ?oner_neq0 // -/(char_poly A). by rewrite monic_neq0 // char_poly_monic.
Qed.
Section Sq.
Variables (n' : nat) (m : matrix (T K)) (A : 'M[F]_n'.+1).
Hypothesis Hm : represents m A.
Lemma diag_loop s (S : 'M[{poly F}]_n'.+1) : represents s S -> forM (range 0 n'.+1) (fun i (c : {poly F}) => do x <- get s i i; Some (c * x)) 1 = Some (\prod_i S i i).
Proof.
  move=> Hs. have := @prod_loop X n'.+1 (fun i => mxf S i i) (fun i => get s i i) 1. rewrite mul1r big_mkord => ->.
  - congr Some. apply: eq_bigr => i _. by rewrite mxfE.
  - move=> i Hi. by rewrite (repr_getE (Ordinal Hi) (Ordinal Hi) Hs) -mxfE.
Qed.
Lemma charp_ok ifuel r : charp ifuel m = Some r -> r = Ok (char_poly A).
Proof.
  rewrite /characteristic_polynomial. have [pm [-> Hp]] := pres_ok Hm. cbn [obind].
  case E: smith_algorithm => [[[[u s] v] k]|] //. cbn [obind].
  have [U [S [V [HU HS HV [ES UU UV] [Ek _ D G]]]]] := C34_full_row_rank_partial BZ Hp (pres_rank A) E.
  rewrite Ek. cbn [Nat.ltb Nat.leb obind]. rewrite (diag_loop HS). cbn [obind]. move=> [<-]. congr Ok.
  apply: (@charpoly_prod F n' A S (- U) V) => //.
  - by rewrite ES mulmxN !mulNmx.
  - by rewrite unitmxE -scaleN1r detZ unitrM unitrX ?unitrN1 // -unitmxE.
  - move=> i j H. apply: D. by apply/eqP.
  - move=> i. have [G1 G2] := G i i erefl. rewrite -G2. exact: MO.
Qed.
Lemma minp_chain ifuel pm u s v k (S : 'M[{poly F}]_n'.+1) : pres m = Some (Ok pm) -> smith_algorithm div ffa xgcd ifuel pm = Some (u, s, v, k) ->
  represents s S -> (forall i i' : 'I_n'.+1, i' = i.+1 :> nat -> S i i %| S i' i') -> minp ifuel m = Some (Ok (mxminpoly A)).
Proof.
  move=> Ep E Rs CH. rewrite /minimal_polynomial Ep. cbn [obind]. have [pm' [Ep' Hp]] := pres_ok Hm. have {Ep'} Epm : pm' = pm by move: Ep'; rewrite Ep => -[].
  subst pm'. have [U [S' [V [HU HS HV [ES UU UV] [Ek _ D G]]]]] := C34_full_row_rank_partial BZ Hp (pres_rank A) E.
  have {ES D G HS} [ES D G] : [/\ S = U *m - char_poly_mx A *m V, forall i j : 'I_n'.+1, (i : nat) <> j -> S i j = 0 & forall i j : 'I_n'.+1, i = j :> nat -> S i j != 0 /\ snd (ffa (S i j)) = S i j].
  { have -> : S = S' by apply/matrixP => i j; move: (repr_getE i j Rs) (repr_getE i j HS) => -> [->]. by split. }
  rewrite E. cbn [obind]. rewrite Ek. cbn [Nat.ltb Nat.leb obind]. rewrite minusE subn1 -[n'.+1.-1]/n'. have -> : get s n' n' = Some (S ord_max ord_max) by exact: (repr_getE ord_max ord_max Rs).
  cbn [obind]. congr (Some (Ok _)).
  apply: (@minpoly_last F n' A S (- U) V) => //.
  - by rewrite ES mulmxN !mulNmx.
  - by rewrite unitmxE -scaleN1r detZ unitrM unitrX ?unitrN1 // -unitmxE.
  - move=> i j H. apply: D. by apply/eqP.
  - have H : forall d (i : 'I_n'.+1), (d + i)%N = n' -> S i i %| S ord_max ord_max.
    { elim=> [|d IH] i Hi; first by have -> : i = ord_max by apply: val_inj.
      have Hi' : (i.+1 < n'.+1)%N by rewrite -[n' in (_ < n'.+1)%N]Hi addSn !ltnS leq_addl. apply: dvdp_trans (CH i (Ordinal Hi') erefl) (IH _ _). by rewrite /= addnS -addSn. }
    move=> i. apply: (H (n' - i)%N). by rewrite subnK // -ltnS.
  - have [G1 G2] := G ord_max ord_max erefl. rewrite -G2. exact: MO.
Qed.
Lemma small_ok : (n'.+1 <= 2)%N -> exists f0, forall ifuel, (f0 <= ifuel)%N -> minp ifuel m = Some (Ok (mxminpoly A)) /\ charp ifuel m = Some (Ok (char_poly A)).
Proof.
  move=> H2. have [pm [Ep Hp]] := pres_ok Hm.
  have [|f0 [u [s [v [k [U [S [V [Ef [HU HS HV] [ES UU UV] SF]]]]]]]]] := C34_two_rows_partial BZ EU NM Hp H2.
  { move=> i _. left. have : row i (- char_poly_mx A) != 0.
    { apply/eqP => Z. have := pres_rank A. rewrite /frac_rank => R. have : row_free (map_mx (@FracField.tofrac X) (- char_poly_mx A)) by rewrite /row_free R.
      move/row_freeP => [B HB]. move: (congr1 (row i) HB). rewrite row_mul -map_row Z map_mx0 mul0mx => /matrixP /(_ 0 i). rewrite !mxE eqxx => /eqP. by rewrite eq_sym oner_eq0. }
    move/eqP => Z. case: (pickP (fun j => (- char_poly_mx A) i j != 0)) => [j Hj|N]; first by exists j.
    case: Z. apply/rowP => j. have /eqP := negbFE (N j). by rewrite !mxE. }
  exists f0 => ifuel Hi. have E := Ef _ Hi. split.
  - apply: (minp_chain Ep E HS) => i i' Hii. case: SF => _ _ _ CH. have [c Hc] := CH i i' i i' erefl erefl Hii. rewrite Hc. exact: dvdp_mull.
  - have [r Er] : exists r, charp ifuel m = Some r.
    { rewrite /characteristic_polynomial Ep. cbn [obind]. rewrite E. cbn [obind]. 
      have [U' [S' [V' [_ HS' _ _ [Ek _ _ _]]]]] := C34_full_row_rank_partial BZ Hp (pres_rank A) E. rewrite Ek. cbn [Nat.ltb Nat.leb obind].
      rewrite (diag_loop HS'). cbn [obind]. by eexists. }
    by rewrite Er (charp_ok Er).
Qed.
End Sq.
End Char.
