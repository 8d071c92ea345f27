(** * InfinityOps: the README's wrapper for pretending to have infinitely many points
      (/repo/README.md:150-251; vocabulary of C134).  No proofs in this file. *)
From Coq Require Import List.
From Verif Require Import Base InstancesModel.
Import ListNotations.

Section Infinity.
  Context {T : Type} `{Ord T} `{DiscreteFinite T}.

  (** An interval over [T] as one over [WithInfinity<T>]. *)
  Definition wrap (i : Interval T) : Interval (WithInfinity T) :=
    mkInterval (Finite (ivl_start i)) (Finite (ivl_end i)).
  (** The same, but going on to [Infinity] if it goes up to [T::MAX]. *)
  Definition wrap_gap (i : Interval T) : Interval (WithInfinity T) :=
    mkInterval (Finite (ivl_start i))
               (match cmp (ivl_end i) MAX with Eq => Infinity | _ => Finite (ivl_end i) end).
End Infinity.
