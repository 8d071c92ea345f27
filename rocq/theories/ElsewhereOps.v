(** * ElsewhereOps: vocabulary of C119.  No proofs in this file; part of the
      specification. *)
From Coq Require Import List.
From Verif Require Import Base BTree IntervalModel NoditModel ZosditModel Spec.
Import ListNotations.

Section Spec.
  Context {I : Type} `{Ord I}.
  Context {K : Type} `{InclusiveInterval I K}.
  Context {V : Type}.
  (** [x] compares with every point of [c] as the points of [q] do. *)
  Definition same_side {C Q} `{InclusiveInterval I C} `{InclusiveInterval I Q} (c : C) (q : Q) (x : I) : Prop :=
    forall y w, covers c y -> covers q w -> (plt x y <-> plt w y) /\ (plt y x <-> plt y w).
  (** [e'] is [e] without the points of [c] and beyond, seen from [q]; [e] itself
      if it has no point in [c]. *)
  Definition clipped {C Q} `{InclusiveInterval I C} `{InclusiveInterval I Q} (c : C) (q : Q) (e e' : K * V) : Prop :=
    snd e' = snd e /\ (~ overlap (fst e) c -> e' = e) /\
    forall x, covers (fst e') x <-> covers (fst e) x /\ same_side c q x.
  (** Some point lies strictly between [c] and [q]. *)
  Definition separated {C Q} `{InclusiveInterval I C} `{InclusiveInterval I Q} (c : C) (q : Q) : Prop :=
    exists x, (forall y, covers c y -> plt x y) /\ (forall w, covers q w -> plt w x) \/
              (forall y, covers c y -> plt y x) /\ (forall w, covers q w -> plt x w).
End Spec.
