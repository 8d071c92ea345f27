(** * WalkOps: the walks a ZosditMap is meant to describe
      (/repo/src/zosdit/mod.rs:22-29).  No proofs; part of the specification. *)
From Coq Require Import List Sorting.Sorted.
From Verif Require Import Base IntervalModel ZosditModel ZosditOps Spec.
Import ListNotations.

Section Ops.
  Context {I : Type} `{Ord I} `{DiscreteFinite I}.
  Context {K : Type} `{InclusiveInterval I K}.
  Context {V : Type}.

  (** A walk: entries in the order of time, each over when the next begins. *)
  Definition walk (w : list (K * V)) : Prop :=
    Forall valid (map fst w) /\ StronglySorted up_to (map fst w).
  (** A walk without a pause: each entry ends at a point at which the next is under way. *)
  Definition gapless (w : list (K * V)) : Prop :=
    forall w1 a b w2, w = w1 ++ a :: b :: w2 -> overlap (fst a) (fst b).
  (** Recording an entry. *)
  Definition record (e : K * V) : zop I K V := ZInsertStrictBack (fst e) (snd e).
End Ops.
