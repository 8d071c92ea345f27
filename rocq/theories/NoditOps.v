(** * NoditOps: histories of NoditMap calls.  No proofs in this file.

    One constructor per public method of /repo/src/nodit/map.rs that changes the
    map, with arbitrary arguments (query intervals of any type; the equality on
    values and the functions a caller applies through a [&mut V] are arguments).
    A call that panics leaves the state the model computes for it, as seen by a
    caller that catches the panic.  A bulk constructor or a deserialization
    replaces the map when it returns [Ok]. *)
From Coq Require Import List.
From Verif Require Import Base BTree UtilsModel IntervalModel NoditModel.
Import ListNotations.

Section Ops.
  Context {I : Type} `{Ord I} `{DiscreteFinite I}.
  Context {K : Type} `{InclusiveInterval I K}.
  Context {V : Type}.

  Inductive op : Type :=
  | OpNew
  | OpInsertStrict (k : K) (v : V)
  | OpInsertMergeTouching (k : K) (v : V)
  | OpInsertMergeTouchingIfValuesEqual (veq : V -> V -> bool) (k : K) (v : V)
  | OpInsertMergeOverlapping (k : K) (v : V)
  | OpInsertMergeTouchingOrOverlapping (k : K) (v : V)
  | OpInsertOverwrite (k : K) (v : V)
  | OpRemoveOverlapping {Q : Type} `{InclusiveInterval I Q} (q : Q)
  | OpCut {Q : Type} `{InclusiveInterval I Q} (q : Q)
  | OpOverlappingMut {Q : Type} `{InclusiveInterval I Q} (f : K -> V -> V) (q : Q)
  | OpGetAtPointMut (f : V -> V) (p : I)
  | OpIterMut (f : K -> V -> V)
  | OpFromIterStrict (l : list (K * V))
  | OpDeserialize (l : list (option (K * V))).

  Definition step (m : NoditMap K V) (o : op) : NoditMap K V :=
    match o with
    | OpNew => new
    | OpInsertStrict k v => fst (insert_strict k v m)
    | OpInsertMergeTouching k v => fst (insert_merge_touching k v m)
    | OpInsertMergeTouchingIfValuesEqual veq k v =>
        fst (insert_merge_touching_if_values_equal veq k v m)
    | OpInsertMergeOverlapping k v => fst (insert_merge_overlapping k v m)
    | OpInsertMergeTouchingOrOverlapping k v => fst (insert_merge_touching_or_overlapping k v m)
    | OpInsertOverwrite k v => fst (insert_overwrite k v m)
    | OpRemoveOverlapping q => fst (remove_overlapping q m)
    | OpCut q => fst (cut q m)
    | OpOverlappingMut f q => fst (overlapping_mut f q m)
    | OpGetAtPointMut f p => fst (get_at_point_mut f p m)
    | OpIterMut f => iter_mut f m
    | OpFromIterStrict l => match from_iter_strict l with Val (Ok m') => m' | _ => m end
    | OpDeserialize l => match deserialize l with Val (Ok m') => m' | _ => m end
    end.

  (** The map after a history of calls. *)
  Definition run (ops : list op) : NoditMap K V := fold_left step ops new.

  (** A map some program can hold. *)
  Definition reachable (m : NoditMap K V) : Prop := exists ops, m = run ops.

  (** Calls that never use [From<Interval<I>> for K] (C54). *)
  Definition converts_nothing (o : op) : Prop :=
    match o with
    | OpNew | OpInsertStrict _ _ | OpRemoveOverlapping _ | OpOverlappingMut _ _ | OpGetAtPointMut _ _
    | OpIterMut _ | OpFromIterStrict _ | OpDeserialize _ => True
    | _ => False
    end.
End Ops.
Arguments op : clear implicits.

(** Calling [insert_strict] for each entry in turn: the resulting map if every
    call returned [Ok]. *)
Fixpoint insert_each {I} `{Ord I} {K} `{InclusiveInterval I K} {V}
  (l : list (K * V)) (m : NoditMap K V) : option (NoditMap K V) :=
  match l with
  | [] => Some m
  | (k, v) :: r =>
      match insert_strict k v m with
      | (m', Val (Ok _)) => insert_each r m'
      | _ => None
      end
  end.
