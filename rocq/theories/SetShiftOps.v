(** * SetShiftOps: moving a whole NoditSet with [translate] (the vocabulary of C182).  No proofs
      in this file; part of the specification. *)
From Coq Require Import List ZArith.
From Verif Require Import Base IntervalModel NoditModel NoditSetModel InstancesModel FirstFitOps ShiftOps.
Import ListNotations.
Open Scope Z_scope.

Section Shift.
  Context {lo hi : Z} `{IntType lo hi}.
  Notation int := (int lo hi).
  Context (b : build).
  Context {K : Type} `{InclusiveInterval int K}.

  Fixpoint set_translate_all (d : int) (l : list K) : outcome (list K) :=
    match l with
    | [] => Val []
    | k :: l => let? k' := translate (sum b) k d in let? l' := set_translate_all d l in Val (k' :: l')
    end.
  (** [NoditSet::from_iter_strict(s.into_iter().map(|k| k.translate(d)).collect::<Vec<_>>())] *)
  Definition set_shift (d : int) (s : NoditSet K) : outcome (result (NoditSet K) unit) :=
    let? l := set_translate_all d (set_into_iter s) in set_from_iter_strict l.
End Shift.
