(** * NearOps: finding the nearest entries of a NoditMap, and walking through it, with lookups
      of points alone (the vocabulary of C174).  No proofs in this file; part of the
      specification. *)
From Coq Require Import List.
From Verif Require Import Base IntervalModel NoditModel.
Import ListNotations.

Section Near.
  Context {I : Type} `{Ord I} `{DiscreteFinite I}.
  Context {K : Type} `{InclusiveInterval I K} {V : Type}.
  Implicit Types (m : NoditMap K V).

  (** [match m.get_key_value_at_point(p) { Ok(e) => Some(e),
        Err(gap) => gap.end().up().map(|q| m.get_key_value_at_point(q).unwrap()) }] *)
  Definition entry_from m (p : I) : outcome (option (K * V)) :=
    match get_key_value_at_point m p with
    | Panic => Panic
    | Val (Ok e) => Val (Some e)
    | Val (Err gap) =>
        match up (iend gap) with
        | None => Val None
        | Some q => match get_key_value_at_point m q with Val (Ok e) => Val (Some e) | _ => Panic end
        end
    end.
  (** [match m.get_key_value_at_point(p) { Ok(e) => Some(e),
        Err(gap) => gap.start().down().map(|q| m.get_key_value_at_point(q).unwrap()) }] *)
  Definition entry_until m (p : I) : outcome (option (K * V)) :=
    match get_key_value_at_point m p with
    | Panic => Panic
    | Val (Ok e) => Val (Some e)
    | Val (Err gap) =>
        match down (istart gap) with
        | None => Val None
        | Some q => match get_key_value_at_point m q with Val (Ok e) => Val (Some e) | _ => Panic end
        end
    end.
  (** The entries a caller sees who goes on from the end of each entry found, [n] times at
      most. *)
  Fixpoint walk_on (n : nat) m (p : I) : outcome (list (K * V)) :=
    match n with
    | O => Val []
    | S n => match entry_from m p with
             | Panic => Panic
             | Val None => Val []
             | Val (Some e) => match up (iend (fst e)) with
                               | None => Val [e]
                               | Some q => match walk_on n m q with Panic => Panic | Val l => Val (e :: l) end
                               end
             end
    end.
End Near.
