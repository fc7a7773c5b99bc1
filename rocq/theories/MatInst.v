(* The contracts of MatSpec hold for every Euclidean domain with the library's own euclidean_xgcd, and so for the integers *)
From Coq Require Import ZArith NArith.
From mathcomp Require Import all_ssreflect all_algebra.
From Coq Require Import Lia.
From Verif Require Import RingSpec RingModel RingProofs RingProofs2 PermModel MatModel MatSpec ZRing.
Close Scope rs_scope.
Set Implicit Arguments.
Unset Strict Implicit.
Unset Printing Implicit Defensive.
Import GRing.Theory.
Local Open Scope ring_scope.

(* structure.rs l.490-525, with fuel the norm of the second argument (which bounds the number of divisions) *)
Definition exgcd (R : comRingType) (div : div_op (mc_ops R)) (ffa : ffa_op (mc_ops R)) (norm : R -> option N) (quorem : R -> R -> option (R * R)) (a b : R) : R * R * R :=
  match @euclidean_xgcd (mc_ops R) div ffa quorem (S (nrm (mc_ops R) norm b)) a b with Some t => t | None => (0, 0, 0) end.
Lemma exgcd_bezout (R : idomainType) div ffa norm quorem : idom_laws (mc_ops R) div -> ffa_laws (mc_ops R) ffa -> euclid_laws (mc_ops R) norm quorem ->
  @bezout_laws R div ffa (exgcd div ffa norm quorem).
Proof.
  move=> D F E.
  have OK : forall a b : R, exists g x y, [/\ exgcd div ffa norm quorem a b = (g, x, y), @is_gcd (mc_ops R) g a b, snd (ffa g) = g & g = x * a + y * b].
  { move=> a b. case: (euclidean_xgcd_ok (mc_ops R) (id_ring _ _ D) div D ffa F norm quorem E (S (nrm (mc_ops R) norm b)) a b (PeanoNat.Nat.lt_succ_diag_r _)) => g [x [y [H1 [_ [H3 [H4 H5]]]]]].
    exists g, x, y. rewrite /exgcd H1. split=> //; [by move/eqP: H4|by move/eqP: H5]. }
  split=> //.
  - move=> a b. case: (OK a b) => g [x [y [-> H1 H2 H3]]]. split=> //. exact/eqP.
  - move=> a b. by case: (OK a b) => g [x [y [-> H1 H2 H3]]].
Qed.
(* the integers *)
Definition Zdiv : div_op (mc_ops Z_comRingType) := Z_div.
Definition Zffa : ffa_op (mc_ops Z_comRingType) := Z_ffa.
Definition Zquorem : Z -> Z -> option (Z * Z) := Z_quorem.
Definition Znorm : Z -> option N := Z_norm.
Definition Zxgcd : Z -> Z -> Z * Z * Z := @exgcd Z_comRingType Zdiv Zffa Znorm Zquorem.
Lemma Zidom : idom_laws (mc_ops Z_comRingType) Zdiv. Proof. exact: Z_idom_laws. Qed.
Lemma Zffa_ok : ffa_laws (mc_ops Z_comRingType) Zffa. Proof. exact: Z_ffa_laws. Qed.
Lemma Zeuclid : euclid_laws (mc_ops Z_comRingType) Znorm Zquorem. Proof. exact: Z_euclid_laws. Qed.
Lemma Zmono : norm_mono (mc_ops Z_comRingType) Znorm. Proof. exact: Z_norm_mono. Qed.
Lemma Zbezout : @bezout_laws Z_idomainType Zdiv Zffa Zxgcd.
Proof. exact: (@exgcd_bezout Z_idomainType _ _ _ _ Zidom Zffa_ok Zeuclid). Qed.

(* every field, with the blanket implementations of structure.rs l.624-664: division, the only favourite associates are 0 and 1,
   norm 1 for nonzero elements, remainder 0 *)
Section Field.
Variable F : fieldType.
Definition Fdiv : div_op (mc_ops [comRingType of F]) := fun a b => if (b : F) == 0 then DivideByZero else DivOk ((a : F) / b).
Definition Fffa : ffa_op (mc_ops [comRingType of F]) := fun a => if (a : F) == 0 then (1 : F, 0 : F) else (a, 1 : F).
Definition Fnorm (a : F) : option N := if a == 0 then None else Some (Npos xH).
Definition Fquorem (a b : F) : option (F * F) := if b == 0 then None else Some (a / b, 0).
Lemma Fidom : idom_laws (mc_ops [comRingType of F]) Fdiv.
Proof.
  split.
  - split; rewrite /=; try by move=> *; repeat match goal with H : is_true (_ == _) |- _ => move/eqP: H => H | H : (_ == _) = true |- _ => move/eqP: H => H end; apply/eqP; subst.
    all: try by move=> *; apply/eqP.
    all: try by (move=> *; apply/eqP; rewrite ?add0r ?mul1r ?addrA ?mulrA ?mulrDl ?subrr).
    all: try by (move=> a b; apply/eqP; rewrite ?[a + b]addrC ?[a * b]mulrC).
  - exact/negbTE/oner_neq0.
  - move=> a b H. have : (a : F) * b == 0 by exact: H. rewrite mulf_eq0. by case/orP=> H'; [left|right]; exact: H'.
  - move=> a b. rewrite /Fdiv /=. by case: eqP.
  - move=> a b q. rewrite /Fdiv /=. case: eqP => // /eqP Hb [<-]. apply/eqP. by rewrite divfK.
  - move=> a b. rewrite /Fdiv. by case: eqP.
Qed.
Lemma Fffa_ok : ffa_laws (mc_ops [comRingType of F]) Fffa.
Proof.
  have U1 : @runit (mc_ops [comRingType of F]) (1 : F) by exists (1 : F); apply/eqP; rewrite /= mulr1.
  split; rewrite /Fffa /=.
  - move=> a. apply/eqP. case: (@eqP F a 0) => [->|_] /=; by rewrite ?mulr0 ?mulr1.
  - move=> a. case: (@eqP F a 0) => [_|/eqP Ha] //=. exists (a^-1 : F). apply/eqP. by rewrite /= divff.
  - move=> a b [u [[v /= /eqP Huv] /eqP ->]] /=. have Hu : u != 0 by apply/eqP => Z; move/eqP: Huv; rewrite Z mul0r eq_sym oner_eq0.
    rewrite mulf_eq0 (negbTE Hu) /=. by case: ifP => _ /=; exact: eqxx.
  - move=> a -> /=. exact: eqxx.
  - move=> a [v /= /eqP Huv]. have Hu : a != 0 by apply/eqP => Z; move/eqP: Huv; rewrite Z mul0r eq_sym oner_eq0.
    rewrite (negbTE Hu) /=. exact: eqxx.
Qed.
Lemma Feuclid : euclid_laws (mc_ops [comRingType of F]) Fnorm Fquorem.
Proof.
  split; rewrite /Fnorm /Fquorem /=.
  - move=> a. by case: eqP.
  - move=> a b. by case: eqP.
  - move=> a b q r. case: eqP => // /eqP Hb [<- <-]. apply/eqP. by rewrite addr0 divfK.
  - move=> a b q r n k. case: eqP => // /eqP Hb [_ <-] _. by rewrite eqxx.
Qed.
Lemma Fmono : norm_mono (mc_ops [comRingType of F]) Fnorm.
Proof. move=> a b c n k _. rewrite /Fnorm. case: eqP => // _ [<-]. case: eqP => // _ [<-]. exact: BinNat.N.le_refl. Qed.
Definition Fxgcd : F -> F -> F * F * F := @exgcd [comRingType of F] Fdiv Fffa Fnorm Fquorem.
Lemma Fbezout : @bezout_laws F Fdiv Fffa Fxgcd.
Proof. exact: (@exgcd_bezout F _ _ _ _ Fidom Fffa_ok Feuclid). Qed.
End Field.
