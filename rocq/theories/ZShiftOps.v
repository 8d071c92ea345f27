(** * ZShiftOps: moving a whole ZosditMap with [translate] (the vocabulary of C180, with that of
      ShiftOps).  No proofs in this file; part of the specification. *)
From Coq Require Import List ZArith.
From Verif Require Import Base IntervalModel NoditModel ZosditModel InstancesModel FirstFitOps ShiftOps.
Import ListNotations.
Open Scope Z_scope.

Section Shift.
  Context {lo hi : Z} `{IntType lo hi}.
  Notation int := (int lo hi).
  Context (b : build).
  Context {K : Type} `{InclusiveInterval int K} {V : Type}.

  (** [ZosditMap::from_iter_strict_back(z.into_iter().map(|(k, v)| (k.translate(d), v)))] *)
  Definition zshift (d : int) (z : ZosditMap K V) : outcome (result (ZosditMap K V) V) :=
    let? l := translate_all b d (zosdit_into_iter z) in from_iter_strict_back l.
End Shift.
