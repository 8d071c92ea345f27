(** * OverrideGqditOps: the calls of C143 whose query types accept no inverted
      interval.  No proofs in this file. *)
From Coq Require Import List.
From Verif Require Import Base UtilsModel NoditModel GqditModel OverrideModel OverrideGqditModel Spec OverrideOps.
Import ListNotations.

Fixpoint safe_gquery {I} `{Ord I} {K D} (o : gop_o I K D) : Prop :=
  match o with
  | GOInsert _ _ => True
  | GOCutWith _ q_valid _ _ => sound_valid q_valid
  | GOCutAll q_valid _ _ => sound_valid q_valid
  | GOAppend os => fold_right (fun o P => safe_gquery o /\ P) True os
  end.
