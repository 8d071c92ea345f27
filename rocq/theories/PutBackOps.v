(** * PutBackOps: putting back what was cut out of a ZosditMap (C144).  No proofs; part of the
      specification. *)
From Coq Require Import List.
From Verif Require Import Base IntervalModel ZosditModel Spec.
Import ListNotations.

Section Ops.
  Context {I : Type} `{Ord I} `{DiscreteFinite I}.
  Context {K : Type} `{InclusiveInterval I K}.
  Context {V : Type}.

  (** [z'] is [z] after inserting the entries of [l] in their order with
      [insert_strict_back], none of them refused. *)
  Fixpoint puts_back (l : list (K * V)) (z z' : ZosditMap K V) : Prop :=
    match l with
    | [] => z' = z
    | e :: l => exists z1, insert_strict_back (fst e) (snd e) z = (z1, Val (Ok tt)) /\ puts_back l z1 z'
    end.

  (** [p] is the last point of [q] or the last point before it. *)
  Definition border {Q} `{InclusiveInterval I Q} (q : Q) (p : I) : Prop :=
    (covers q p /\ forall y, covers q y -> ple y p) \/
    ((forall y, covers q y -> plt p y) /\ exists y, covers q y /\ forall x, plt p x -> ple y x).
End Ops.
