(** * UndoOps: putting entries back (C139).  No proofs; part of the specification. *)
From Coq Require Import List.
From Verif Require Import Base IntervalModel NoditModel.
Import ListNotations.

Section Ops.
  Context {I : Type} `{Ord I} `{DiscreteFinite I}.
  Context {K : Type} `{InclusiveInterval I K}.
  Context {V : Type}.

  (** [m'] is [m] after inserting the entries of [l] in their order with
      [insert_strict], none of them refused; ... *)
  Fixpoint put_back (l : list (K * V)) (m m' : NoditMap K V) : Prop :=
    match l with
    | [] => m' = m
    | e :: l => exists m1, insert_strict (fst e) (snd e) m = (m1, Val (Ok tt)) /\ put_back l m1 m'
    end.
  (** ... with [insert_merge_touching_if_values_equal]. *)
  Fixpoint put_back_merging (veq : V -> V -> bool) (l : list (K * V)) (m m' : NoditMap K V) : Prop :=
    match l with
    | [] => m' = m
    | e :: l => exists m1 r, insert_merge_touching_if_values_equal veq (fst e) (snd e) m = (m1, Val (Ok r)) /\ put_back_merging veq l m1 m'
    end.
End Ops.
