(** * ShiftOps: moving a whole map with [translate] (the vocabulary of C176).  No proofs in
      this file; part of the specification. *)
From Coq Require Import List ZArith.
From Verif Require Import Base IntervalModel NoditModel InstancesModel FirstFitOps.
Import ListNotations.
Open Scope Z_scope.

Section Shift.
  Context {lo hi : Z} `{IntType lo hi}.
  Notation int := (int lo hi).
  Context (b : build).
  Context {K : Type} `{InclusiveInterval int K} {V : Type}.

  (** The [+] of the integer types, in a build of either kind. *)
  Definition sum : int -> int -> outcome int := match b with Debug => add_debug | Release => add_release end.
  Fixpoint translate_all (d : int) (l : list (K * V)) : outcome (list (K * V)) :=
    match l with
    | [] => Val []
    | (k, v) :: l => let? k' := translate sum k d in let? l' := translate_all d l in Val ((k', v) :: l')
    end.
  (** [NoditMap::from_iter_strict(m.into_iter().map(|(k, v)| (k.translate(d), v)).collect::<Vec<_>>())] *)
  Definition shift (d : int) (m : NoditMap K V) : outcome (result (NoditMap K V) V) :=
    let? l := translate_all d (into_iter m) in from_iter_strict l.

  (** [e'] has the value of [e], and its interval lies [z] further up. *)
  Definition moved (z : Z) (e e' : K * V) : Prop :=
    ival (istart (fst e')) = ival (istart (fst e)) + z /\ ival (iend (fst e')) = ival (iend (fst e)) + z /\ snd e' = snd e.
  (** The interval of [e] is still inside the type when moved by [z]. *)
  Definition fits (z : Z) (e : K * V) : Prop := lo <= ival (istart (fst e)) + z /\ ival (iend (fst e)) + z <= hi.
  (** Both ends of the interval of [e] leave the type when moved by [z], or neither does. *)
  Definition unsplit (z : Z) (e : K * V) : Prop :=
    lo <= ival (istart (fst e)) + z <= hi <-> lo <= ival (iend (fst e)) + z <= hi.
  (** [z] and [z'] are the same number on the circle of the values of the type. *)
  Definition around (z z' : Z) : Prop := exists n, z' = z + n * (hi - lo + 1).
End Shift.
