(** * OverrideOps: what an overriding method may be expected to do (C141).  No
      proofs in this file. *)
From Verif Require Import Base UtilsModel NoditModel OverrideModel Spec.

Section Expect.
  Context {I : Type} `{Ord I}.
  Context {A B : Type} `{InclusiveInterval I A} `{InclusiveInterval I B}.

  (** An [is_valid] that says what the provided one says
      (/repo/src/interval.rs:463-468), and one that accepts no inverted
      interval. *)
  Definition agrees_valid (valid' : A -> bool) : Prop := forall a, valid' a = true <-> valid a.
  Definition sound_valid (valid' : A -> bool) : Prop := forall a, valid' a = true -> valid a.

  (** An [overlaps] that says what the provided one says on valid intervals
      (/repo/src/interval.rs:526-535); one that finds every overlap, whatever it
      does on two intervals that do not overlap; and one that never denies an
      overlap, though it may panic. *)
  Definition agrees_overlaps (over : A -> B -> outcome bool) : Prop :=
    forall a b, valid a -> valid b -> exists x, over a b = Val x /\ (x = true <-> overlap a b).
  Definition finds_all (over : A -> B -> outcome bool) : Prop :=
    forall a b, valid a -> valid b -> overlap a b -> over a b = Val true.
  Definition misses_none (over : A -> B -> outcome bool) : Prop :=
    forall a b, valid a -> valid b -> overlap a b -> over a b <> Val false.
End Expect.

(** A [cut] whose query type has an [is_valid] that accepts no inverted
    interval, or any other call.  Nothing is asked of any [overlaps] of or with
    a query type. *)
Definition safe_query {I} `{Ord I} {K V} (o : op_o I K V) : Prop :=
  match o with
  | OCut q_valid _ _ => sound_valid q_valid
  | _ => True
  end.
