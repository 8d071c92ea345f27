(** * TidyOps: joining touching entries with equal values by building the map anew (the
      vocabulary of C173).  No proofs in this file; part of the specification. *)
From Coq Require Import List.
From Verif Require Import Base IntervalModel NoditModel NoditOps.
Import ListNotations.

Section Tidy.
  Context {I : Type} `{Ord I} `{DiscreteFinite I}.
  Context {K : Type} `{InclusiveInterval I K} {V : Type}.

  (** [for (k, v) in l { m.insert_merge_touching_if_values_equal(k, v).unwrap(); }];
      [None]: a panic. *)
  Fixpoint tidy_into (veq : V -> V -> bool) (l : list (K * V)) (m : NoditMap K V) : option (NoditMap K V) :=
    match l with
    | [] => Some m
    | e :: l => match insert_merge_touching_if_values_equal veq (fst e) (snd e) m with
                | (m', Val (Ok _)) => tidy_into veq l m'
                | _ => None
                end
    end.
  (** [let mut n = NoditMap::new(); for (k, v) in m.into_iter() { ... }] *)
  Definition tidy (veq : V -> V -> bool) (m : NoditMap K V) : option (NoditMap K V) := tidy_into veq (into_iter m) new.
End Tidy.
