(** * EqualOps: the same calls with other points that compare Equal.  No proofs
      in this file; part of the specification of C97 and C98. *)
From Coq Require Import List.
From Verif Require Import Base BTree UtilsModel IntervalModel NoditModel NoditOps ZosditModel ZosditOps Spec.
Import ListNotations.

(** Both panic, or both return and the results are related by [R]. *)
Definition alike {A B} (R : A -> B -> Prop) (x : outcome A) (y : outcome B) : Prop :=
  match x, y with Val a, Val b => R a b | Panic, Panic => True | _, _ => False end.
(** Both [Ok] and related by [R], or both [Err] and related by [S]. *)
Definition alike_result {A B E F} (R : A -> B -> Prop) (S : E -> F -> Prop) (x : result A E) (y : result B F) : Prop :=
  match x, y with Ok a, Ok b => R a b | Err e, Err f => S e f | _, _ => False end.
Definition alike_option {A B} (R : A -> B -> Prop) (x : option A) (y : option B) : Prop :=
  match x, y with Some a, Some b => R a b | None, None => True | _, _ => False end.

Section Equal.
  Context {I : Type} {OI : Ord I} {DI : DiscreteFinite I}.

  (** The end-points compare Equal. *)
  Definition same_ends {A B} `{InclusiveInterval I A} `{InclusiveInterval I B} (a : A) (b : B) : Prop :=
    cmp (istart a) (istart b) = Eq /\ cmp (iend a) (iend b) = Eq.

  Context {K : Type} {IK : InclusiveInterval I K} {V : Type}.
  Definition same_entry (e e' : K * V) : Prop := same_ends (fst e) (fst e') /\ snd e = snd e'.

  (** [o'] is the call [o] with points replaced by Equal ones.  A closure that
      is given a key must not tell keys with Equal ends apart. *)
  Inductive op_equal : op I K V -> op I K V -> Prop :=
  | oe_new : op_equal OpNew OpNew
  | oe_strict k k' v : same_ends k k' -> op_equal (OpInsertStrict k v) (OpInsertStrict k' v)
  | oe_touching k k' v : same_ends k k' -> op_equal (OpInsertMergeTouching k v) (OpInsertMergeTouching k' v)
  | oe_touching_eq veq k k' v : same_ends k k' ->
      op_equal (OpInsertMergeTouchingIfValuesEqual veq k v) (OpInsertMergeTouchingIfValuesEqual veq k' v)
  | oe_overlapping k k' v : same_ends k k' -> op_equal (OpInsertMergeOverlapping k v) (OpInsertMergeOverlapping k' v)
  | oe_tor k k' v : same_ends k k' ->
      op_equal (OpInsertMergeTouchingOrOverlapping k v) (OpInsertMergeTouchingOrOverlapping k' v)
  | oe_overwrite k k' v : same_ends k k' -> op_equal (OpInsertOverwrite k v) (OpInsertOverwrite k' v)
  | oe_remove Q (IQ : InclusiveInterval I Q) R (IR : InclusiveInterval I R) (q : Q) (r : R) :
      same_ends q r -> op_equal (OpRemoveOverlapping q) (OpRemoveOverlapping r)
  | oe_cut Q (IQ : InclusiveInterval I Q) R (IR : InclusiveInterval I R) (q : Q) (r : R) :
      same_ends q r -> op_equal (OpCut q) (OpCut r)
  | oe_overlapping_mut Q (IQ : InclusiveInterval I Q) R (IR : InclusiveInterval I R) (q : Q) (r : R) u u' :
      same_ends q r -> (forall k k' v, same_ends k k' -> u k v = u' k' v) ->
      op_equal (OpOverlappingMut u q) (OpOverlappingMut u' r)
  | oe_get_mut u p p' : cmp p p' = Eq -> op_equal (OpGetAtPointMut u p) (OpGetAtPointMut u p')
  | oe_iter_mut u u' : (forall k k' v, same_ends k k' -> u k v = u' k' v) -> op_equal (OpIterMut u) (OpIterMut u')
  | oe_from_iter l l' : Forall2 same_entry l l' -> op_equal (OpFromIterStrict l) (OpFromIterStrict l')
  | oe_deserialize l l' : Forall2 (alike_option same_entry) l l' -> op_equal (OpDeserialize l) (OpDeserialize l').

  Inductive zop_equal : zop I K V -> zop I K V -> Prop :=
  | ze_new : zop_equal ZNew ZNew
  | ze_insert k k' v : same_ends k k' -> zop_equal (ZInsertStrictBack k v) (ZInsertStrictBack k' v)
  | ze_remove p p' : cmp p p' = Eq -> zop_equal (ZRemoveLast p) (ZRemoveLast p')
  | ze_cut Q (IQ : InclusiveInterval I Q) R (IR : InclusiveInterval I R) (q : Q) (r : R) :
      same_ends q r -> zop_equal (ZCut q) (ZCut r)
  | ze_from_iter l l' : Forall2 same_entry l l' -> zop_equal (ZFromIter l) (ZFromIter l')
  | ze_deserialize l l' : Forall2 (alike_option same_entry) l l' -> zop_equal (ZDeserialize l) (ZDeserialize l').
End Equal.
