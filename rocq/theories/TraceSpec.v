(** * TraceSpec: the vocabulary of the statements about intermediate states. *)
From Coq Require Import List.
From Verif Require Import Base NoditModel NoditOps GqditOps Spec.
Import ListNotations.

(** One entry more, one entry less, or no difference. *)
Definition one_entry {T} (l l' : list T) : Prop :=
  l = l' \/ exists A e B, l = A ++ e :: B /\ l' = A ++ B \/ l = A ++ B /\ l' = A ++ e :: B.

Section Spec.
  Context {I : Type} `{Ord I} `{DiscreteFinite I}.
  Context {K : Type} `{InclusiveInterval I K}.
  Context {V : Type}.

  (** The calls that insert or remove entries of the map they are given (the
      others start a new map or write through a [&mut V]). *)
  Definition by_entries (o : op I K V) : Prop :=
    match o with
    | OpNew | OpOverlappingMut _ _ | OpGetAtPointMut _ _ | OpIterMut _ | OpFromIterStrict _ | OpDeserialize _ => False
    | _ => True
    end.

  (** The entries the call is about: those it merges with the new one, or that
      overlap its interval. *)
  Definition about (o : op I K V) (e : K * V) : Prop :=
    match o with
    | OpInsertStrict _ _ => False
    | OpInsertMergeTouching k _ => touch (fst e) k
    | OpInsertMergeTouchingIfValuesEqual veq k v => touch (fst e) k /\ veq (snd e) v = true
    | OpInsertMergeTouchingOrOverlapping k _ => touch (fst e) k \/ overlap (fst e) k
    | OpInsertMergeOverlapping k _ | OpInsertOverwrite k _ => overlap (fst e) k
    | OpRemoveOverlapping q | OpCut q => overlap (fst e) q
    | _ => True
    end.
End Spec.
