(** * ZosditPops: emptying a point of a ZosditMap.  No proofs in this file. *)
From Coq Require Import List.
From Verif Require Import Base BTree UtilsModel IntervalModel NoditModel ZosditModel.
Import ListNotations.

Section Pops.
  Context {I : Type} `{Ord I} `{DiscreteFinite I}.
  Context {K : Type} `{InclusiveInterval I K}.
  Context {V : Type}.
  (** [remove_last_value_at_point(p)] called [n] times, or until it returns
      [None]; the values returned, in order. *)
  Fixpoint pops (n : nat) (p : I) (z : ZosditMap K V) : list V * ZosditMap K V :=
    match n with
    | O => ([], z)
    | S n =>
        match remove_last_value_at_point p z with
        | (z, Val (Some v)) => let (l, z) := pops n p z in (v :: l, z)
        | (z, _) => ([], z)
        end
    end.
End Pops.
