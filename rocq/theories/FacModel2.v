(* Model of the integer instances used by polynomial factoring: rings/src/number/integer/mod.rs l.66-105. *)
From Coq Require Import List NArith ZArith Bool.
From mathcomp Require Import all_ssreflect all_algebra.
From Verif Require Import RingSpec RingModel FactoredModel MatModel MatSpec ZRing MatInst.
Close Scope rs_scope.
Notation ZO := (mc_ops Z_comRingType).
(* l.66-70 *)
Definition Zunits : list Z := [:: Zpos 1; Zneg 1].
(* l.83-105; nf is number/natural/factor.rs factor(), outer None = panic, inner None = the Rust None (unwrapped here) *)
Definition Zfactor (nf : N -> option (option (list (N * N)))) (a : Z) : option (option (@factored ZO)) :=
  if Z.eqb a Z0 then Some None
  else
    let unit := if Z.ltb a Z0 then Zneg 1 else Zpos 1 in
    match nf (Z.abs_N a) with
    | Some (Some f) => Some (Some (@Factored ZO unit (List.map (fun pk => (Z.of_N (fst pk), snd pk)) f)))
    | _ => None
    end.
(* factor(..).unwrap() *)
Definition Zfactor_unwrap nf (a : Z) : option (@factored ZO) := match Zfactor nf a with Some o => o | None => None end.
(* the k-th item of generate_distinct_elements (rings/src/structure/structure.rs l.597-609, RingModel) *)
Definition Zelems (k : nat) : Z := List.nth k (@generate_distinct_elements ZO (S k)) Z0.
