(* Symmetric polynomials: the model's functions as operations of the ring of polynomials. *)
From Coq Require Import List Arith NArith Bool.
From mathcomp Require Import all_ssreflect all_algebra all_fingroup.
From mathcomp Require Import zify.
From Coq Require Import Lia.
From Verif Require Import RingSpec RingModel PermModel MatModel MatSpec PolyModel PolyProofs PolyProofs2 PolyHom SetsModel SetsProps MpModel FinSupp MpRing MpRing2 MpRing3 MpRing4 MpProofs MpProofs2 MpSpec MpProofs3 MpProps MpProps2 MpProps3 SymModel SymRing SymProofs.
Close Scope rs_scope.
Set Implicit Arguments. Unset Strict Implicit. Unset Printing Implicit Defensive.
Import GRing.Theory.
Local Open Scope ring_scope.

(* evaluation commutes with a homomorphism of operations *)
Section Hom.
Context {A B : ring_ops} (phi : T A -> T B) (H : ops_hom A B phi).
Lemma hom_squares n x : map phi (@squares A n x) = @squares B n (phi x).
Proof. elim: n x => //= n IH x. by rewrite IH (h_mul _ _ _ H). Qed.
Lemma hom_pow_loop bs ps x : phi (@pow_loop A bs ps x) = @pow_loop B bs (map phi ps) (phi x).
Proof. elim: bs ps x => [|b bs IH] [|p ps] x //=. rewrite IH. by case: b; rewrite ?(h_mul _ _ _ H). Qed.
Lemma hom_nat_pow x n : phi (@nat_pow A x n) = @nat_pow B (phi x) n.
Proof. rewrite /nat_pow. case: N.eqb; first exact: h_1. case: N.eqb => //. by rewrite hom_pow_loop hom_squares (h_1 _ _ _ H). Qed.
Lemma hom_foldl (f : T A -> T A -> T A) g l x : (forall a b, phi (f a b) = g (phi a) (phi b)) -> phi (fold_left f l x) = fold_left g (map phi l) (phi x).
Proof. move=> E. elim: l x => //= a l IH x. by rewrite IH E. Qed.
Lemma hom_product l : phi (@product A l) = @product B (map phi l). Proof. rewrite /product (hom_foldl _ _ (h_mul _ _ _ H)). by rewrite (h_1 _ _ _ H). Qed.
Lemma hom_sum l : phi (@sum A l) = @sum B (map phi l). Proof. rewrite /sum (hom_foldl _ _ (h_add _ _ _ H)). by rewrite (h_0 _ _ _ H). Qed.
Lemma mapM_omap (X Y Z : Type) (f : X -> option Y) (g : Y -> Z) l : mapM (fun x => omap g (f x)) l = omap (map g) (mapM f l).
Proof. elim: l => //= x l ->. case: (f x) => //= y. by case: (mapM f l). Qed.
Lemma mapM_eq (X Y : Type) (f g : X -> option Y) l : f =1 g -> mapM f l = mapM g l.
Proof. move=> E. elim: l => //= x l ->. by rewrite E. Qed.
Lemma mapM_map (X Y Z : Type) (f : Y -> option Z) (g : X -> Y) l : mapM f (map g l) = mapM (f \o g) l.
Proof. by elim: l => //= x l ->. Qed.
Lemma hom_mono_evaluate vals m : omap phi (@mono_evaluate A vals m) = @mono_evaluate B (fun v => omap phi (vals v)) m.
Proof.
  rewrite /mono_evaluate. set f := fun x : nat * nat => _. set g := fun x : nat * nat => _. have E : g =1 (fun x => omap phi (f x)). { move=> x. rewrite /f /g. case: (vals x.1) => //= a. by rewrite hom_nat_pow. }
  rewrite (mapM_eq _ E) mapM_omap. case: (mapM f m) => //= l. by rewrite hom_product.
Qed.
Lemma hom_mp_evaluate vals (p : list (mono * T A)) : omap phi (@mp_evaluate A vals p) = @mp_evaluate B (fun v => omap phi (vals v)) (mp_apply_map phi p).
Proof.
  rewrite /mp_evaluate mapM_map. set f := fun x : mono * T A => _. set g := (X in _ = match mapM X _ with Some _ => _ | None => _ end). have E : g =1 (fun x => omap phi (f x)). { move=> x. rewrite /f /g /= -hom_mono_evaluate. case: (mono_evaluate vals x.1) => //= a. by rewrite (h_mul _ _ _ H). }
  rewrite (mapM_eq _ E) mapM_omap. case: (mapM f p) => //= l. by rewrite hom_sum.
Qed.
End Hom.

Section Link.
Variable R : comRingType.
Notation O := (mc_ops R).
Notation K := (mpoly R predT).
Notation tm := (seq (mon * R)).
Notation X := (kvar R predT).
Notation V := (ofl predT).
Notation cst := [rmorphism of kconst predT].
Implicit Types (p q : tm) (x y : K).
Lemma mvV p : wf p -> mv (V p : K) = rnf p. Proof. move=> H. apply: mv_ofl. exact/okmT/wf_mcan. Qed.
Lemma V_ev p (A : comRingType) (f : {rmorphism R -> A}) th : wf p -> evk f th (V p : K) = value f th p.
Proof. move=> H. by rewrite valueE -evl_nf -mvV. Qed.
Lemma V_mv x : V x = x. Proof. exact: ofl_mv. Qed.
Lemma wf_mv x : wf (x : tm). Proof. apply: normal_wf. apply/normalE. split; [exact: mv_can|]. apply/allP => t /(allP (mv_ok x)) /andP[]. by []. Qed.
Lemma normal_mv x : normal (x : tm). Proof. apply/normalE. split; [exact: mv_can|]. exact/wf_mcan/wf_mv. Qed.
Lemma V_addr x p : wf p -> @mp_add O x p = mv (x + V p).
Proof. move=> H. apply: C29_normal_unique; [exact: (C29_add (wf_mv x) H).1|exact: normal_mv|] => m. rewrite (C29_add (wf_mv x) H).2.1. rewrite -![coeff _ m]/(cf _ m) cfD cf_ofl //. exact/okmT/wf_mcan. Qed.
Lemma V_addl x p : wf p -> @mp_add O p x = mv (V p + x).
Proof. move=> H. apply: C29_normal_unique; [exact: (C29_add H (wf_mv x)).1|exact: normal_mv|] => m. rewrite (C29_add H (wf_mv x)).2.1. rewrite -![coeff _ m]/(cf _ m) cfD cf_ofl //. exact/okmT/wf_mcan. Qed.
Lemma V_equal p q : wf p -> wf q -> @mp_equal O p q = ((V p : K) == V q).
Proof. move=> Hp Hq. rewrite mp_equalE ?wf_uniq // -!mvV //. Qed.
Lemma V_ext p q : wf p -> wf q -> ((V p : K) = V q <-> forall (A : comRingType) (f : {rmorphism R -> A}) th, value f th p = value f th q).
Proof. move=> Hp Hq. rewrite -(C29_equal Hp Hq).2 V_equal //. split=> [->|/eqP //]. exact: eqxx. Qed.

(* elementary symmetric polynomials *)
Definition elv (vars : seq nat) (k : nat) : K := elg [seq X v | v <- vars] k.
Lemma fold_mulv vs x : fold_left (fun a v => @mp_mul O a (@mp_var O v)) vs (mv x) = mv (x * \prod_(v <- vs) X v).
Proof. elim: vs x => [|v vs IH] x; cbn [fold_left]; first by rewrite big_nil mulr1. by rewrite (@var_mv R predT) // mv_mul IH big_cons mulrA. Qed.
Lemma fold_mul1 vs : fold_left (fun a v => @mp_mul O a (@mp_var O v)) vs (@mp_one O) = mv (\prod_(v <- vs) X v : K).
Proof. by rewrite (mv_one R predT) fold_mulv mul1r. Qed.
Lemma fold_adds (ss : seq (seq nat)) x : fold_left (fun e vs => @mp_add O e (fold_left (fun a v => @mp_mul O a (@mp_var O v)) vs (@mp_one O))) ss (mv x) = mv (x + \sum_(vs <- ss) \prod_(v <- vs) X v).
Proof. elim: ss x => [|s ss IH] x; cbn [fold_left]; first by rewrite big_nil addr0. by rewrite fold_mul1 mv_add IH big_cons addrA. Qed.
Lemma subsets_k_lt k n s i : s \in subsets_k k n -> i \in s -> (i < n)%N.
Proof.
  elim: k n s i => [|k IH] n s i /=; first by rewrite inE => /eqP ->.
  case: ifP => // _. have fm (f : nat -> seq (seq nat)) l : List.flat_map f l = flatten [seq f z | z <- l] by elim: l => //= a l ->.
  rewrite fm. case/flatten_mapP => j. rewrite seqE mem_iota /= add0n => Hj. case/mapP => t Ht ->. rewrite inE => /orP[/eqP ->|]; first lia. case/mapP => u Hu ->. have := IH _ _ _ Ht Hu. lia.
Qed.
Lemma elementaryE n vars : @elementary_symmetric O n vars = Some (mv (elv vars n)).
Proof.
  rewrite /elementary_symmetric (@C01_subsets_vec _ vars 0%N) /=. congr Some. rewrite (mv_zero R predT) fold_adds add0r. congr mv. rewrite /elv -subsetsE size_map big_map lengthE. apply: eq_big_seq => s Hs.
  rewrite big_map. apply: eq_big_seq => i Hi. rewrite (nth_map 0%N) //; last exact: subsets_k_lt Hs Hi. by rewrite nthE.
Qed.

(* substitution *)
Lemma mapM_some (A B : Type) (f : A -> option B) (g : A -> B) (l : seq A) : (forall a, f a = Some (g a)) -> mapM f l = Some (map g l).
Proof. move=> E. elim: l => //= a l ->. by rewrite E. Qed.
Lemma lookup_lastE (W : Type) (l : seq (nat * W)) k : uniq [seq z.1 | z <- l] -> lookup_last l k = omap (fun z => z.2) (List.find (fun z => Nat.eqb z.1 k) l).
Proof.
  rewrite /lookup_last revE => U. set P := fun z : nat * W => _. suff -> : List.find P (rev l) = List.find P l by case: List.find.
  elim: l U => //= z l IH /andP[Nz U]. rewrite rev_cons -cats1. have fc (a b : seq (nat * W)) : List.find P (a ++ b) = if List.find P a is Some u then Some u else List.find P b by elim: a => //= u a ->; case: (P u).
  rewrite fc IH //=. case E: (List.find P l) => [u|] //. case Pz: (P z) => //. move: (List.find_some _ _ E) Pz => [Hu]. rewrite /P !eqbE => /eqP Eu /eqP Ez. case/negP: Nz. rewrite Ez -Eu. elim: (l) Hu => [|a b IHb] //= [->|/IHb H]; by rewrite inE ?eqxx ?H ?orbT.
Qed.
Lemma find_combine (W : Type) (d : W) (f : nat -> W) (es : seq nat) i0 k : 
  List.find (fun z : nat * W => Nat.eqb z.1 k) (map (fun ie : nat * nat => (ie.2, f ie.1)) (List.combine (List.seq i0 (length es)) es)) = if k \in es then Some (k, f (i0 + index k es)%N) else None.
Proof.
  elim: es i0 => //= a es IH i0. rewrite eqbE inE [k == a]eq_sym. case: eqP => [->|N] /=; first by rewrite addn0. rewrite IH. case: ifP => // _. by rewrite addSnnS.
Qed.
Lemma elem_valuesE vars es v : uniq es -> exists2 vals, @elem_values O vars es = Some vals & lookup_last vals v = if v \in es then Some (mv (elv vars (index v es).+1)) else None.
Proof.
  move=> Ue. rewrite /elem_values. rewrite (@mapM_some _ _ _ (fun ie : nat * nat => (ie.2, mv (elv vars ie.1.+1)))); last by move=> ie; rewrite elementaryE.
  eexists; first by []. rewrite lookup_lastE; last first.
  { rewrite -map_comp. rewrite (@eq_map _ _ _ (fun ie : nat * nat => ie.2)) //. rewrite (_ : map _ _ = es) //. elim: (es) 0%N => //= a l IH i. by rewrite IH. }
  rewrite (@find_combine _ [::] (fun i => mv (elv vars i.+1))). by case: ifP.
Qed.
Lemma V_subst (vals : nat -> option K) x : all (fun t : mon * R => all (fun z : nat * nat => vals z.1) t.1) (x : tm) ->
  @mp_evaluate (mp_ops O) (fun v => omap (@mv R predT) (vals v)) (mp_apply_map (@mp_constant R) x) = Some (mv (sub (fun v => odflt 0 (vals v)) x)).
Proof.
  move=> H. have E : mp_apply_map (@mp_constant R) x = mp_apply_map (@mv R predT) (mp_apply_map (kconst predT) (x : tm)).
  { rewrite /mp_apply_map !mapE -map_comp. apply/eq_in_map => t Ht. rewrite /comp /fst /snd. congr pair. rewrite -[mv _]/(rnf [:: ([::], t.2)]) rnf_id //. rewrite /tcan /canon /= andbT. have /and3P[_ _ Z] := mv_can x. exact: (allP Z). }
  rewrite E. have := @hom_mp_evaluate _ _ _ (@mv_hom R predT) vals (mp_apply_map (kconst predT) (x : tm)). move=> <-.
  have := @mp_evalE [comRingType of K] vals (mp_apply_map (kconst predT) (x : tm)). move=> ->. rewrite /mp_apply_map mapE all_map /=. rewrite H /=. congr (Some (mv _)). rewrite /sub /evk /evl big_map. by [].
Qed.
(* the values of the variables es *)
Definition sig (vars es : seq nat) (v : nat) : K := elv vars (index v es).+1.
Lemma subst_elemE vars es x : uniq es -> varsin (fun v => v \in es) x -> @subst_elem O vars es x = Some (mv (sub (sig vars es) x)).
Proof.
  move=> Ue Hx. rewrite /subst_elem. have [vals Ev _] := elem_valuesE vars 0%N Ue. rewrite Ev /=.
  pose vl v := if v \in es then Some (sig vars es v) else None.
  have Hl v : lookup_last vals v = omap (@mv R predT) (vl v). { have [vals2] := elem_valuesE vars v Ue. rewrite Ev => -[<-] ->. by rewrite /vl; case: ifP. }
  have ev_ext (W : ring_ops) (f g : nat -> option (T W)) pp : f =1 g -> @mp_evaluate W f pp = @mp_evaluate W g pp.
  { move=> E. rewrite /mp_evaluate. congr obind. apply: mapM_eq => t. congr obind. rewrite /mono_evaluate. congr obind. apply: mapM_eq => z. by rewrite E. }
  rewrite (ev_ext (mp_ops O) (lookup_last vals) (fun v => omap (@mv R predT) (vl v)) _ Hl) V_subst; last first. { apply/allP => t Ht. apply/allP => z Hz. rewrite /vl. by rewrite (allP (allP Hx t Ht) z Hz). }
  congr (Some (mv _)). apply: sub_eq Hx _ => v Hv. by rewrite /vl Hv.
Qed.
End Link.
