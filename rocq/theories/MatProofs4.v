(* det_naive is the determinant *)
From Coq Require Import NArith.
From mathcomp Require Import all_ssreflect all_algebra all_fingroup.
From Coq Require Import Lia.
From Verif Require Import RingSpec RingModel PermSpec PermModel PermProofs PermProofs2 MatModel MatSpec MatProofs MatProofs2.
Close Scope rs_scope.
Set Implicit Arguments.
Unset Strict Implicit.
Unset Printing Implicit Defensive.
Import GRing.Theory.
Local Open Scope ring_scope.

(* ---- sign of a permutation of 'I_n *)
Section Sign.
Variable n : nat.
Implicit Types s t : 'S_n.
Definition pf s (x : nat) : nat := if insub x is Some i then s i : nat else x.
Lemma pfE s (i : 'I_n) : pf s i = s i. Proof. by rewrite /pf valK. Qed.
Lemma pf_lt s x : lt x n -> lt (pf s x) n.
Proof. move=> /ltP H. rewrite -[x]/(val (Ordinal H)) pfE. by apply/ltP. Qed.
Lemma pf_inj s x y : lt x n -> lt y n -> pf s x = pf s y -> x = y.
Proof. move=> /ltP Hx /ltP Hy. rewrite -[x]/(val (Ordinal Hx)) -[y]/(val (Ordinal Hy)) !pfE => /val_inj /perm_inj -> //. Qed.
Lemma par1 : par n (pf 1%g) = false.
Proof.
  rewrite (par_ext n _ (act (List.seq 0 n))).
  - have [H1 [H2 H3]] := id_bij n. have := sign_par (List.seq 0 n). rewrite H2 => E.
    have : sign (List.seq 0 n) = Identity.
    { rewrite sign_par H2 (par_ext n _ (act nil)); last by move=> x _; rewrite H3 /act; case: x.
      by rewrite (par_extend nil n); [|exact: Permutation.Permutation_refl|exact: PeanoNat.Nat.le_0_l]. }
    by rewrite E; case: (par _ _).
  - move=> x /ltP Hx. rewrite -[x]/(val (Ordinal Hx)) pfE perm1. by have [_ [_ ->]] := id_bij n.
Qed.
Lemma parM s t : par n (pf (s * t)%g) = par n (pf s) (+) par n (pf t).
Proof.
  rewrite (par_ext n _ (fun x => pf t (pf s x))).
  - rewrite par_compose; [|exact: pf_lt|exact: pf_inj|exact: pf_inj]. by rewrite addbC; case: (par n (pf t)); case: (par n (pf s)).
  - move=> x /ltP Hx. by rewrite -[x]/(val (Ordinal Hx)) !pfE permM.
Qed.
Lemma par_tperm i j : i != j -> par n (pf (tperm i j)) = true.
Proof.
  move=> Hij. pose l := List.map (pf (tperm i j)) (List.seq 0 n).
  have Hb : is_bij l by apply: map_seq_bij => [x|x y]; [exact: pf_lt|exact: pf_inj].
  have Hl : length l = n by rewrite /l List.map_length List.seq_length.
  have Ha x : lt x n -> act l x = pf (tperm i j) x by exact: act_map_seq.
  have Hs : sign l = c2_of (par n (pf (tperm i j))).
  { rewrite sign_par Hl. congr c2_of. exact: par_ext. }
  have : sign l = Flip.
  { have Hc := sign_cycle [:: val i; val j] l Hb. apply: Hc => //.
    - apply/List.NoDup_cons; first by case=> // /val_inj E; move: Hij; rewrite E eqxx. apply/List.NoDup_cons => //. exact: List.NoDup_nil.
    - split.
      + case=> [|[|k]] /= Hk; last by lia.
        * rewrite Ha; last by apply/ltP. by rewrite pfE tpermL.
        * rewrite Ha; last by apply/ltP. by rewrite pfE tpermR.
      + move=> x Hx. case: (ltnP x n) => Hn; last first.
        { rewrite /act List.nth_overflow //. rewrite Hl. by apply/leP. }
        rewrite Ha; last by apply/ltP. rewrite -[x]/(val (Ordinal Hn)) pfE tpermD //.
        * apply/eqP => E. apply: Hx. left. by rewrite E.
        * apply/eqP => E. apply: Hx. right. left. by rewrite E. }
  by rewrite Hs; case: (par _ _).
Qed.
Lemma par_odd_perm s : par n (pf s) = odd_perm s.
Proof.
  have [ts -> Hts] := prod_tpermP s. elim: ts Hts => [|t ts IH] /=.
  - by rewrite big_nil par1 odd_perm1.
  - move=> /andP [Ht Hts]. rewrite big_cons parM IH // odd_permM odd_tperm par_tperm //. by rewrite Ht.
Qed.
End Sign.

(* ---- the list of all orderings *)
Section Orderings.
Variable X : eqType.
Implicit Types l v : seq X.
Lemma selects_fst l : map fst (selects l) = l.
Proof. elim: l => [|x l IH] //=. congr cons. rewrite -map_comp. rewrite -[RHS]IH. by apply: eq_map. Qed.
Lemma selects_perm l x r : (x, r) \in selects l -> perm_eq (x :: r) l.
Proof.
  elim: l x r => [|y l IH] x r //=. rewrite inE => /orP [/eqP [-> ->] //|/mapP [[x' r'] /= H [-> ->]]].
  have := IH _ _ H. rewrite -(perm_cons y) => H2. apply: perm_trans H2. apply/seq.permP => P /=. by rewrite addnCA.
Qed.
Lemma flat_mapE (Y Z : Type) (f : Y -> seq Z) (l : seq Y) : List.flat_map f l = flatten [seq f y | y <- l].
Proof. by elim: l => //= y l ->. Qed.
Lemma orderings_perm l : forall k v, k = size l -> (v \in orderings k l) -> perm_eq v l.
Proof.
  move=> k; elim: k l => [|k IH] l v /= El; first by rewrite inE => /eqP ->; case: l El.
  rewrite flat_mapE => /flattenP [vs /mapP [[x r] Hx ->] /= /mapP [w Hw ->]].
  have P := selects_perm Hx. have Er : k = size r by have := perm_size P; rewrite -El => -[].
  apply: perm_trans P. rewrite perm_cons. exact: IH.
Qed.
Lemma perm_orderings k : forall l v, k = size l -> perm_eq v l -> v \in orderings k l.
Proof.
  elim: k => [|k IH] l v El P; first by move: (perm_size P); rewrite -El => /size0nil ->; rewrite inE.
  case: v P => [|x v] P; first by move: (perm_size P); rewrite -El.
  rewrite /= flat_mapE. have : x \in map fst (selects l) by rewrite selects_fst -(perm_mem P) mem_head.
  move=> /mapP [[x' r] Hr /= Ex]. rewrite -Ex in Hr. apply/flattenP.
  exists [seq x :: w | w <- orderings k r]; first by apply/mapP; exists (x, r).
  apply: map_f. have P' := selects_perm Hr. apply: IH.
  - have := perm_size P'; rewrite -El => -[] //.
  - by rewrite -(perm_cons x); apply: (perm_trans P); rewrite perm_sym.
Qed.
Lemma orderings_uniq k : forall l, uniq l -> uniq (orderings k l).
Proof.
  elim: k => [|k IH] l Ul //=. rewrite flat_mapE.
  have : uniq (map fst (selects l)) by rewrite selects_fst.
  have : forall x r, (x, r) \in selects l -> uniq r.
  { move=> x r /selects_perm H. by have := perm_uniq H; rewrite Ul => /= /andP [_ ->]. }
  elim: (selects l) => [|[x r] sl IHs] //= Hr /andP [Nx Us]. rewrite cat_uniq. apply/and3P; split.
  - rewrite map_inj_uniq; last by move=> a b [].
    apply: IH. apply: (Hr x). exact: mem_head.
  - apply/negP => /hasP [v /flattenP [vs /mapP [[y r'] Hy ->] /= /mapP [w _ ->]] /mapP [w' _ [E _]]].
    move: Nx. rewrite -E. move/negP; apply. by apply/mapP; exists (y, r').
  - apply: IHs => // y r' H. apply: (Hr y). by rewrite inE H orbT.
Qed.
End Orderings.

Section Det.
Variable R : comRingType.
Notation O := (mc_ops R).
Notation mat := (matrix (T O)).
Implicit Types a : mat.

Definition lst n (s : 'S_n) : seq nat := [seq pf s x | x <- iota 0 n].
Lemma lst_perm n (s : 'S_n) : perm_eq (lst s) (iota 0 n).
Proof.
  apply: uniq_perm; last 1 first.
  - move=> x. rewrite mem_iota /= add0n. apply/mapP/idP => [[y]|Hx].
    + rewrite mem_iota /= add0n => /ltP Hy ->. by apply/ltP/pf_lt.
    + exists (val ((s^-1)%g (Ordinal Hx))); first by rewrite mem_iota /= add0n.
      by rewrite pfE permKV.
  - rewrite map_inj_in_uniq; first exact: iota_uniq.
    move=> x y. rewrite !mem_iota /= add0n => /ltP Hx /ltP Hy. exact: pf_inj.
  - exact: iota_uniq.
Qed.
Lemma nth_lst n (s : 'S_n) d (i : 'I_n) : nth d (lst s) i = s i.
Proof. rewrite (nth_map 0%N) ?size_iota // nth_iota // add0n pfE //. Qed.
Lemma lst_inj n : injective (@lst n).
Proof. move=> s t E. apply/permP => i. apply: val_inj. by rewrite /= -(nth_lst s 0) -(nth_lst t 0) E. Qed.
Lemma orderings_all n : perm_eq (orderings n (iota 0 n)) [seq lst s | s <- enum {: 'S_n}].
Proof.
  apply: uniq_perm.
  - apply: orderings_uniq. exact: iota_uniq.
  - rewrite map_inj_uniq; [exact: enum_uniq|exact: lst_inj].
  - move=> v. apply/idP/mapP => [Hv|[s _ ->]].
    + have P := @orderings_perm _ _ n v (esym (size_iota 0 n)) Hv.
      have Sv : size v = n by rewrite (perm_size P) size_iota.
      have Uv : uniq v by rewrite (perm_uniq P) iota_uniq.
      have Lv (i : 'I_n) : (nth 0%N v i < n)%N.
      { have : nth 0%N v i \in v by apply: mem_nth; rewrite Sv. by rewrite (perm_mem P) mem_iota add0n. }
      pose f (i : 'I_n) := Ordinal (Lv i).
      have Hf : injective f.
      { move=> i j /(congr1 val) /= /eqP. rewrite nth_uniq ?Sv // => /eqP /val_inj //. }
      exists (perm Hf); first by rewrite mem_enum.
      apply: (@eq_from_nth _ 0%N); first by rewrite size_map size_iota.
      move=> i. rewrite Sv => Hi. rewrite -[i]/(val (Ordinal Hi)) nth_lst permE. by [].
    + apply: perm_orderings; first by rewrite size_iota. exact: lst_perm.
Qed.
Lemma seq_iota k n : List.seq k n = iota k n. Proof. by elim: n k => //= n IH k; rewrite IH. Qed.
Lemma lst_bij n (s : 'S_n) : is_bij (lst s).
Proof.
  have -> : lst s = List.map (pf s) (List.seq 0 n) by rewrite seq_iota.
  apply: map_seq_bij => [x|x y]; [exact: pf_lt|exact: pf_inj].
Qed.
Lemma lst_act n (s : 'S_n) x : lt x n -> act (lst s) x = pf s x.
Proof.
  have -> : lst s = List.map (pf s) (List.seq 0 n) by rewrite seq_iota.
  exact: act_map_seq.
Qed.
Lemma lst_len n (s : 'S_n) : length (lst s) = n.
Proof. by rewrite -[length _]/(size _) size_map size_iota. Qed.
Lemma sign_lst n (s : 'S_n) : sign (new_unchecked (lst s)) = c2_of (odd_perm s).
Proof.
  have [H1 [H2 [H3 H4]]] := reduced_spec (lst s) (lst_bij s). rewrite lst_len in H3.
  rewrite /new_unchecked sign_par -(par_extend _ n H1 H3) -par_odd_perm. congr c2_of.
  apply: par_ext => x Hx. by rewrite H4 lst_act.
Qed.
Lemma call_lst n (s : 'S_n) x : lt x n -> call (new_unchecked (lst s)) x = pf s x.
Proof.
  have [H1 [H2 [H3 H4]]] := reduced_spec (lst s) (lst_bij s). move=> Hx. by rewrite call_act H4 lst_act.
Qed.

Lemma fold_obind_sum (X : Type) (l : seq X) (t : X -> option R) (f : X -> R) x0 : (forall x, List.In x l -> t x = Some (f x)) ->
  List.fold_left (fun acc x => do d <- acc; do p <- t x; Some (d + p)) l (Some x0) = Some (x0 + \sum_(x <- l) f x).
Proof.
  elim: l x0 => [|x l IH] x0 H /=; first by rewrite big_nil addr0.
  rewrite H /=; last by left. rewrite IH; last by move=> y Hy; apply: H; right. by rewrite big_cons addrA.
Qed.
Lemma in_mem (X : eqType) (x : X) (l : seq X) : List.In x l <-> x \in l.
Proof.
  elim: l => [|y l IH] //=. rewrite inE. split=> [[->|/IH ->]|/orP [/eqP ->|/IH H]]; rewrite ?eqxx ?orbT //; [by left|by right].
Qed.
Lemma fold_left_ext (X Y : Type) (f g : X -> Y -> X) l : (forall x y, List.In y l -> f x y = g x y) ->
  forall x, List.fold_left f l x = List.fold_left g l x.
Proof. elim: l => [|y l IH] //= H x. rewrite H; last by left. apply: IH => x' y' Hy. apply: H. by right. Qed.
Lemma det_naive_repr n a (A : 'M[R]_n) : represents a A -> @det_naive O a = Some (Ok (\det A)).
Proof.
  move=> Ha. rewrite /det_naive square_dims (repr_rows Ha) (repr_cols Ha) eqxx (square_dim1 (repr_rows Ha) (repr_cols Ha)).
  rewrite [negb _]/=. have [_ [_ Ga]] := repr_shape Ha.
  pose pr v := forM (range 0 n) (fun k prod => do x <- get a k (call (new_unchecked v) k); Some (prod * x)) (1 : R).
  pose t v := do p <- pr v; Some (match sign (new_unchecked v) with Identity => p | Flip => - p end).
  pose term v := match sign (new_unchecked v) with Identity => 1 | Flip => -1 end * \prod_(0 <= k < n) mxf A k (call (new_unchecked v) k).
  have Ht v : v \in orderings n (iota 0 n) -> t v = Some (term v).
  { rewrite (perm_mem (orderings_all n)) => /mapP [s _ ->]. rewrite /t /pr /term.
    rewrite (@prod_loop _ n (fun k => mxf A k (call (new_unchecked (lst s)) k)) (fun k => get a k (call (new_unchecked (lst s)) k)) 1).
    - rewrite mul1r /=. by case: sign; rewrite ?mul1r ?mulN1r.
    - move=> i /ltP Hi. rewrite call_lst //. apply: Ga => //. exact: pf_lt. }
  rewrite /all_permutations seq_iota.
  rewrite (_ : List.fold_left _ _ _ = Some (\det A)) //.
  have -> : forall l x0, List.fold_left (fun acc perm => do det <- acc; do prod <- forM (range 0 n) (fun k prod => do x <- get a k (call perm k); Some (prod * x)) (1:R);
     Some (det + match sign perm with Identity => prod | Flip => - prod end)) (List.map new_unchecked l) x0 =
    List.fold_left (fun acc v => do d <- acc; do p <- t v; Some (d + p)) l x0.
  { elim=> [|v l IH] x0 //=. rewrite IH. congr List.fold_left. case: x0 => //= x0. by rewrite /t /pr; case: (forM _ _ _). }
  rewrite (@fold_obind_sum _ _ t term); last by move=> v /in_mem Hv; apply: Ht.
  congr Some. rewrite add0r (perm_big _ (orderings_all n)) big_map /= big_enum /=. apply: eq_bigr => s _.
  rewrite /term sign_lst. rewrite (_ : match c2_of _ with Identity => 1 | Flip => -1 end = (-1) ^+ s :> R); last by case: (odd_perm s) => /=; rewrite ?expr1 ?expr0.
  congr (_ * _). rewrite big_mkord. apply: eq_bigr => i _. rewrite call_lst; last by apply/ltP. by rewrite pfE mxfE.
Qed.
Lemma det_naive_err a : rows a <> cols a -> @det_naive O a = Some (Err NotSquare).
Proof. by move=> /eqP H; rewrite /det_naive square_dims (negbTE H). Qed.
End Det.
