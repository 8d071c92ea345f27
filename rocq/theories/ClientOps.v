(** * ClientOps: programs that use a NoditMap through its methods, choosing each call from
      the answers to the earlier ones (vocabulary of C130).  No proofs in this file. *)
From Coq Require Import List.
From Verif Require Import Base BTree UtilsModel IntervalModel NoditModel Spec CompleteOps.
Import ListNotations.

Section Client.
  Context {I : Type} `{Ord I} `{DiscreteFinite I}.
  Context {K : Type} `{InclusiveInterval I K}.
  Context {V : Type}.

  (** One constructor per method taking [&self] or [&mut self]
      (/repo/src/nodit/map.rs:116-1176, 1276-1394; the queries may be of any interval type [Q]). *)
  Inductive call : Type :=
  | CallLen
  | CallIsEmpty
  | CallIter
  | CallFirstKeyValue
  | CallLastKeyValue
  | CallGetAtPoint (p : I)
  | CallContainsPoint (p : I)
  | CallGetKeyValueAtPoint (p : I)
  | CallOverlapping {Q : Type} `{InclusiveInterval I Q} (q : Q)
  | CallOverlaps {Q : Type} `{InclusiveInterval I Q} (q : Q)
  | CallContainsInterval {Q : Type} `{InclusiveInterval I Q} (q : Q)
  | CallGapsUntrimmed {Q : Type} `{InclusiveInterval I Q} (q : Q)
  | CallGapsTrimmed {Q : Type} `{InclusiveInterval I Q} (q : Q)
  | CallIterMut (f : K -> V -> V)
  | CallGetAtPointMut (f : V -> V) (p : I)
  | CallOverlappingMut {Q : Type} `{InclusiveInterval I Q} (f : K -> V -> V) (q : Q)
  | CallRemoveOverlapping {Q : Type} `{InclusiveInterval I Q} (q : Q)
  | CallCut {Q : Type} `{InclusiveInterval I Q} (q : Q)
  | CallInsertStrict (k : K) (v : V)
  | CallInsertOverwrite (k : K) (v : V)
  | CallInsertMergeTouching (k : K) (v : V)
  | CallInsertMergeTouchingIfValuesEqual (veq : V -> V -> bool) (k : K) (v : V)
  | CallInsertMergeOverlapping (k : K) (v : V)
  | CallInsertMergeTouchingOrOverlapping (k : K) (v : V).

  (** What a call returns. *)
  Definition answer (c : call) : Type :=
    match c with
    | CallLen => nat
    | CallIsEmpty => bool
    | CallIter => list (K * V)
    | CallFirstKeyValue | CallLastKeyValue => option (K * V)
    | CallGetAtPoint _ => outcome (option V)
    | CallContainsPoint _ | CallOverlaps _ | CallContainsInterval _ => outcome bool
    | CallGetKeyValueAtPoint _ => outcome (result (K * V) K)
    | CallOverlapping _ | CallRemoveOverlapping _ | CallCut _ | CallInsertOverwrite _ _ => outcome (list (K * V))
    | CallGapsUntrimmed _ | CallGapsTrimmed _ => outcome (list K)
    | CallIterMut _ => unit
    | CallGetAtPointMut _ _ => option V
    | CallOverlappingMut _ _ => outcome unit
    | CallInsertStrict _ _ => outcome (result unit V)
    | CallInsertMergeTouching _ _ | CallInsertMergeTouchingIfValuesEqual _ _ _ => outcome (result K V)
    | CallInsertMergeOverlapping _ _ | CallInsertMergeTouchingOrOverlapping _ _ => outcome K
    end.

  (** The documented effect of a call: [m] and [m'] are the entries, in the order of [iter],
      before and after it. *)
  Definition documented (c : call) (m m' : list (K * V)) : answer c -> Prop :=
    match c return answer c -> Prop with
    | CallLen => fun a => m' = m /\ a = length m
    | CallIsEmpty => fun a => m' = m /\ (a = true <-> m = [])
    | CallIter => fun a => m' = m /\ a = m
    | CallFirstKeyValue => fun a => m' = m /\ forall e, a = Some e <-> exists l, m = e :: l
    | CallLastKeyValue => fun a => m' = m /\ forall e, a = Some e <-> exists l, m = l ++ [e]
    | CallGetAtPoint p => fun a => m' = m /\ doc_get_at_point p m a
    | CallContainsPoint p => fun a => m' = m /\ doc_contains_point p m a
    | CallGetKeyValueAtPoint p => fun a => m' = m /\ doc_get_key_value_at_point p m a
    | CallOverlapping q => fun a => m' = m /\ doc_overlapping q m a
    | CallOverlaps q => fun a => m' = m /\ doc_overlaps q m a
    | CallContainsInterval q => fun a => m' = m /\ doc_contains_interval q m a
    | CallGapsUntrimmed q => fun a => m' = m /\ doc_gaps_untrimmed q m a
    | CallGapsTrimmed q => fun a => m' = m /\ doc_gaps_trimmed q m a
    | CallIterMut f => fun _ =>
        Forall2 (fun e e' => fst e' = fst e /\ snd e' = f (fst e) (snd e)) m m'
    | CallGetAtPointMut f p => fun a =>
        (forall v, a = Some v <-> maps_to m p v) /\
        Forall2 (fun e e' => fst e' = fst e /\ (covers (fst e) p -> snd e' = f (snd e)) /\
                             (~ covers (fst e) p -> snd e' = snd e)) m m'
    | CallOverlappingMut f q => fun a =>
        (valid q -> a = Val tt /\
           Forall2 (fun e e' => fst e' = fst e /\ (overlap (fst e) q -> snd e' = f (fst e) (snd e)) /\
                                (~ overlap (fst e) q -> snd e' = snd e)) m m') /\
        (~ valid q -> a = Panic /\ m' = m)
    | CallRemoveOverlapping q => fun a => doc_remove_overlapping q m (m', a)
    | CallCut q => fun a => doc_cut q m (m', a)
    | CallInsertStrict k v => fun a => doc_insert_strict k v m (m', a)
    | CallInsertOverwrite k v => fun a => doc_insert_overwrite k v m (m', a)
    | CallInsertMergeTouching k v => fun a => doc_insert_merge_touching k v m (m', a)
    | CallInsertMergeTouchingIfValuesEqual veq k v => fun a =>
        doc_insert_merge_touching_if_values_equal veq k v m (m', a)
    | CallInsertMergeOverlapping k v => fun a => doc_insert_merge_overlapping k v m (m', a)
    | CallInsertMergeTouchingOrOverlapping k v => fun a => doc_insert_merge_touching_or_overlapping k v m (m', a)
    end.

  (** The model's methods. *)
  Definition perform (c : call) (m : NoditMap K V) : NoditMap K V * answer c :=
    match c return NoditMap K V * answer c with
    | CallLen => (m, len m)
    | CallIsEmpty => (m, is_empty m)
    | CallIter => (m, iter m)
    | CallFirstKeyValue => (m, first_key_value m)
    | CallLastKeyValue => (m, last_key_value m)
    | CallGetAtPoint p => (m, get_at_point m p)
    | CallContainsPoint p => (m, map_contains_point m p)
    | CallGetKeyValueAtPoint p => (m, get_key_value_at_point m p)
    | CallOverlapping q => (m, overlapping m q)
    | CallOverlaps q => (m, map_overlaps m q)
    | CallContainsInterval q => (m, map_contains_interval m q)
    | CallGapsUntrimmed q => (m, gaps_untrimmed m q)
    | CallGapsTrimmed q => (m, gaps_trimmed m q)
    | CallIterMut f => (iter_mut f m, tt)
    | CallGetAtPointMut f p => get_at_point_mut f p m
    | CallOverlappingMut f q => overlapping_mut f q m
    | CallRemoveOverlapping q => remove_overlapping q m
    | CallCut q => cut q m
    | CallInsertStrict k v => insert_strict k v m
    | CallInsertOverwrite k v => insert_overwrite k v m
    | CallInsertMergeTouching k v => insert_merge_touching k v m
    | CallInsertMergeTouchingIfValuesEqual veq k v => insert_merge_touching_if_values_equal veq k v m
    | CallInsertMergeOverlapping k v => insert_merge_overlapping k v m
    | CallInsertMergeTouchingOrOverlapping k v => insert_merge_touching_or_overlapping k v m
    end.

  (** A program: it stops with a result or makes a call and goes on as the answer tells it.
      (What a program that never stops has done up to any moment is such a program.) *)
  Inductive client (R : Type) : Type :=
  | Stop (r : R)
  | Make (c : call) (next : answer c -> client R).

  (** An implementation: states, the state of a new map, and what each call does. *)
  Record implementation : Type := {
    state : Type;
    start : state;
    does : forall c, state -> state * answer c
  }.
  Fixpoint execute {R} (i : implementation) (s : state i) (p : client R) : R :=
    match p with
    | Stop _ r => r
    | Make _ c next => let (s', a) := does i c s in execute i s' (next a)
    end.
  (** The states an implementation can get into. *)
  Inductive occurs (i : implementation) : state i -> Prop :=
  | occurs_start : occurs i (start i)
  | occurs_after s c : occurs i s -> occurs i (fst (does i c s)).
  (** It does what is documented, its states being read as sequences of entries by [entries]. *)
  Definition as_documented (i : implementation) (entries : state i -> list (K * V)) : Prop :=
    entries (start i) = [] /\
    forall s c, occurs i s -> documented c (entries s) (entries (fst (does i c s))) (snd (does i c s)).

  (** The modelled NoditMap. *)
  Definition nodit : implementation := {| state := NoditMap K V; start := new; does := perform |}.
End Client.
Arguments call : clear implicits.
