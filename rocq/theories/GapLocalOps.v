(** * GapLocalOps: vocabulary of C136. *)
From Coq Require Import List.
From Verif Require Import Base IntervalModel LocalOps Spec.
Import ListNotations.

Section Vocabulary.
  Context {I : Type} `{Ord I}.

  (** [a] and [b] have the same points in [q]. *)
  Definition same_inside {Q A B} `{InclusiveInterval I Q} `{InclusiveInterval I A} `{InclusiveInterval I B}
    (q : Q) (a : A) (b : B) : Prop :=
    forall p, covers q p -> (covers a p <-> covers b p).

  (** The interval [w] contains [q] and, on each side of it, reaches the end of the
      type or a point of [w] outside [P]. *)
  Definition shows_surroundings {Q} `{InclusiveInterval I Q} (P : I -> Prop) (q : Q) (w : Interval I) : Prop :=
    (forall p, covers q p -> covers w p) /\
    ((forall x, ple (istart w) x) \/ exists x, covers w x /\ ~ P x /\ forall y, covers q y -> ple x y) /\
    ((forall x, ple x (iend w)) \/ exists x, covers w x /\ ~ P x /\ forall y, covers q y -> ple y x).

  (** Every call but [remove_overlapping], which removes entries that stick out of
      its interval as a whole. *)
  Definition keeps_outside {D : DiscreteFinite I} {K V} `{InclusiveInterval I K} (c : call I K V) : Prop :=
    match c with RemoveOverlapping _ => False | _ => True end.
End Vocabulary.
