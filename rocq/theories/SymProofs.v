(* Symmetric polynomials: generators of the symmetric group, and the model's functions in the ring. *)
From Coq Require Import List Arith NArith Bool.
From mathcomp Require Import all_ssreflect all_algebra all_fingroup.
From mathcomp Require Import zify.
From Coq Require Import Lia.
From Verif Require Import RingSpec RingModel PermModel MatModel MatSpec PolyModel PolyProofs PolyProofs2 PolyHom SetsModel SetsProps MpModel FinSupp MpRing MpRing2 MpRing3 MpRing4 MpProofs MpProofs2 MpSpec MpProofs3 MpProps MpProps2 MpProps3 SymModel SymRing.
Close Scope rs_scope.
Set Implicit Arguments. Unset Strict Implicit. Unset Printing Implicit Defensive.
Import GRing.Theory.
Local Open Scope ring_scope.

Section Gen.
Variable n : nat.
Variable G : {group {perm 'I_n.+2}}.
Definition o (i : nat) : 'I_n.+2 := inord i.
Variable c : {perm 'I_n.+2}.
Hypothesis Hc : forall i, (i < n.+1)%N -> c (o i) = o i.+1.
Hypothesis Gc : c \in G.
Hypothesis Gt : tperm (o 0) (o 1) \in G.
Lemma o_inj i j : (i < n.+2)%N -> (j < n.+2)%N -> o i = o j -> i = j.
Proof. move=> Hi Hj /(congr1 val). by rewrite /o /= !inordK. Qed.
Lemma gen_adj i : (i < n.+1)%N -> tperm (o i) (o i.+1) \in G.
Proof. elim: i => // i IH H. have := groupJ (IH (ltnW H)) Gc. rewrite tpermJ !Hc //; lia. Qed.
Lemma gen_0 i : (i < n.+2)%N -> tperm (o 0) (o i) \in G.
Proof.
  elim: i => [|i IH] H; first by rewrite tperm1 group1. case: i IH H => [|i] IH H; first exact: Gt.
  have := groupJ (IH (ltnW H)) (@gen_adj i.+1 H). rewrite tpermJ tpermL tpermD //; apply/eqP => /o_inj; lia.
Qed.
Lemma gen_all s : s \in G.
Proof.
  have T (i j : 'I_n.+2) : tperm i j \in G.
  { have Ei (k : 'I_n.+2) : k = o k by rewrite /o inord_val. have G0 (k : 'I_n.+2) : tperm (o 0) k \in G by rewrite (Ei k); apply: gen_0.
    have [->|N] := eqVneq i j; first by rewrite tperm1 group1. have [E|Ni] := eqVneq (o 0) i; first by rewrite -E. have [E|Nj] := eqVneq (o 0) j; first by rewrite tpermC -E.
    have := groupJ (G0 i) (G0 j). by rewrite tpermJ tpermL tpermD // 1?eq_sym // tpermC. }
  have [ts -> _] := prod_tpermP s. by apply: group_prod.
Qed.
End Gen.

Section Sym.
Variable R : comRingType.
Notation O := (mc_ops R).
Notation K := (mpoly R predT).
Notation tm := (seq (mon * R)).
Notation X := (kvar R predT).
Definition ren (h : nat -> nat) : K -> K := sub (fun v => X (h v)).
Canonical ren_additive h := [additive of ren h].
Canonical ren_rmorphism h := [rmorphism of ren h].
Lemma ren_ren h g x : ren g (ren h x) = ren (fun v => g (h v)) x.
Proof. rewrite /ren sub_sub. apply: (@sub_eq _ predT) => [|v _]; first by apply/allP => t _; apply/allP. exact: subX. Qed.
Lemma ren_eq P h h' x : varsin P x -> (forall v, P v -> h v = h' v) -> ren h x = ren h' x.
Proof. move=> H E. apply: sub_eq H _ => v Hv. by rewrite E. Qed.
Lemma ren_id h x : (forall v, h v = v) -> ren h x = x.
Proof. move=> H. rewrite -[RHS]sub_id. apply: (@sub_eq _ predT) => [|v _]; first by apply/allP => t _; apply/allP. by rewrite H. Qed.
Definition symm (vs : seq nat) (x : K) : Prop := varsin (fun v => v \in vs) x /\ forall h, perm_eq [seq h v | v <- vs] vs -> ren h x = x.
Lemma sym_gen vs n x h1 h2 : size vs = n.+2 -> uniq vs -> varsin (fun v => v \in vs) x ->
  (forall i, (i < n.+2)%N -> h1 (nth 0%N vs i) = nth 0%N vs (if i is 0 then 1 else if i is 1 then 0 else i)%N) ->
  (forall i, (i < n.+2)%N -> h2 (nth 0%N vs i) = nth 0%N vs (if i == n.+1 then 0 else i.+1)%N) -> ren h1 x = x -> ren h2 x = x -> symm vs x.
Proof.
  move=> Sz U V E1 E2 R1 R2. split=> // h P.
  pose hs (s : {perm 'I_n.+2}) v := if v \in vs then nth 0%N vs (s (inord (index v vs))) else v.
  have In (s : {perm 'I_n.+2}) v : v \in vs -> hs s v \in vs by rewrite /hs => ->; apply: mem_nth; rewrite Sz.
  have hs_nth (s : {perm 'I_n.+2}) i : (i < n.+2)%N -> hs s (nth 0%N vs i) = nth 0%N vs (s (inord i)) by move=> Hi; rewrite /hs mem_nth ?Sz // index_uniq ?Sz.
  have hsM s t v : v \in vs -> hs (s * t)%g v = hs t (hs s v).
  { move=> Hv. have Hi : (index v vs < n.+2)%N by rewrite -Sz index_mem. rewrite -[v](nth_index 0%N Hv) !hs_nth // permM. by rewrite inord_val. }
  have GS : group_set [set s : {perm 'I_n.+2} | ren (hs s) x == x].
  { apply/group_setP. split.
    - rewrite inE. apply/eqP. apply: ren_id => v. rewrite /hs. case: ifP => // Hv. rewrite perm1 inordK ?nth_index //. by rewrite -Sz index_mem.
    - move=> s t. rewrite !inE => /eqP Es /eqP Et. apply/eqP. rewrite (ren_eq V (fun v Hv => hsM s t v Hv)). by rewrite -ren_ren Es Et. }
  pose G := group GS. have all_in : forall s, ren (hs s) x = x.
  { move=> s. suff : s \in G by rewrite inE => /eqP. pose c0 (i : 'I_n.+2) : 'I_n.+2 := inord (if val i == n.+1 then 0 else i.+1)%N.
    have ci : injective c0. { move=> i j /(congr1 val). rewrite /c0 /= !inordK; [|by case: eqP => //; have := ltn_ord j; lia|by case: eqP => //; have := ltn_ord i; lia]. move=> H. apply: val_inj => /=. move: H. have := ltn_ord i. have := ltn_ord j. do 2 case: eqP; lia. }
    apply: (@gen_all n G (perm ci)).
    - move=> i Hi. rewrite permE /c0 /o /= !inordK; last lia. by case: eqP => // ?; lia.
    - rewrite inE. apply/eqP. rewrite -[RHS]R2. apply: ren_eq V _ => v Hv. have Hi : (index v vs < n.+2)%N by rewrite -Sz index_mem. rewrite -(nth_index 0%N Hv) hs_nth // E2 // permE /c0 /= !inordK //. by case: eqP => //; lia.
    - rewrite inE. apply/eqP. rewrite -[RHS]R1. apply: ren_eq V _ => v Hv. have Hi : (index v vs < n.+2)%N by rewrite -Sz index_mem. rewrite -(nth_index 0%N Hv) hs_nth // E1 //. congr nth. move: (index v vs) Hi => i Hi. rewrite /o.
      case: i Hi => [|[|i]] Hi; rewrite ?tpermL ?tpermR ?inordK //. by rewrite tpermD ?inordK //; apply/eqP => /(congr1 (@nat_of_ord _)); rewrite !inordK. }
  have Ih : {in vs &, injective h}.
  { move=> a b Ha Hb E. have Um : uniq (map h vs) by rewrite (perm_uniq P). have Ia : (index a vs < size vs)%N by rewrite index_mem. have Ib : (index b vs < size vs)%N by rewrite index_mem.
    have := nth_uniq 0%N _ _ Um; move/(_ (index a vs) (index b vs)). rewrite size_map => /(_ Ia Ib). rewrite !(nth_map 0%N) // !nth_index // E eqxx => /esym/eqP/(congr1 (nth 0%N vs)). by rewrite !nth_index. }
  have Mh v : v \in vs -> h v \in vs by move=> Hv; rewrite -(perm_mem P) map_f.
  pose s0 (i : 'I_n.+2) : 'I_n.+2 := inord (index (h (nth 0%N vs i)) vs).
  have Ni (i : 'I_n.+2) : nth 0%N vs i \in vs by rewrite mem_nth ?Sz.
  have si : injective s0.
  { move=> i j /(congr1 val). have L (k : 'I_n.+2) : (index (h (nth 0%N vs k)) vs < n.+2)%N by have := Mh _ (Ni k); rewrite -index_mem Sz.
    rewrite /s0 /= !inordK // => E. apply: val_inj => /=. have : nth 0%N vs i = nth 0%N vs j by apply: Ih => //; rewrite -[LHS](nth_index 0%N (Mh _ (Ni i))) E nth_index // Mh.
    move/eqP. by rewrite nth_uniq ?Sz // => /eqP. }
  rewrite -[RHS](all_in (perm si)). apply: ren_eq V _ => v Hv. have Hi : (index v vs < n.+2)%N by rewrite -Sz index_mem.
  rewrite -(nth_index 0%N Hv) hs_nth // permE /s0 !inordK //; rewrite ?nth_index ?Mh //. by rewrite -Sz index_mem Mh.
Qed.
Lemma sym_small vs x : (size vs < 2)%N -> varsin (fun v => v \in vs) x -> symm vs x.
Proof.
  move=> Sz V. split=> // h P. rewrite -[RHS](@ren_id id x) //. apply: ren_eq V _ => v. case: vs Sz P => [|u [|w vs]] //= _ P. rewrite inE => /eqP ->. have := perm_mem P (h u). by rewrite !inE eqxx => /esym/eqP.
Qed.
End Sym.
