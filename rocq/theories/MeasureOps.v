(** * MeasureOps: how many points of an interval are in a set computed with the programs of C105
      (the vocabulary of C181).  No proofs in this file; part of the specification. *)
From Coq Require Import List ZArith.
From Verif Require Import Base IntervalModel NoditModel NoditSetModel InstancesModel FirstFitOps PlacesOps SetAlgebraOps.
Import ListNotations.
Open Scope Z_scope.

Section Measure.
  Context {lo hi : Z} `{IntType lo hi}.
  Notation int := (int lo hi).
  Context {K : Type} `{InclusiveInterval int K}.
  Context {Q : Type} `{InclusiveInterval int Q}.
  Context (b : build).

  (** [s.overlapping(q).filter_map(|k| k.intersection(&q)).map(|k| k.width() as i128 + 1).sum()] *)
  Definition measure (s : NoditSet K) (q : Q) : outcome Z :=
    let? l := set_overlapping s q in
    sizes b (flat_map (fun k => match intersection k q with Some i => [i] | None => [] end) l).
  (** the same of the set a program computes *)
  Definition count (env : nat -> NoditSet K) (e : program) (q : Q) : outcome Z :=
    let? s := execute env e in measure s q.
  (** [s.contains_point(p)], for every given set [s] *)
  Definition member (env : nat -> NoditSet K) (p : int) (n : nat) : bool :=
    match set_contains_point (env n) p with Val true => true | _ => false end.
End Measure.

(** the symmetric difference: [(a - b) | (b - a)] *)
Definition changes (a b : program) : program := PUnion (PMinus a b) (PMinus b a).
