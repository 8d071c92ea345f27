(** * LocalOps: calls about one interval, their answers, and which entries they
      can see.  No proofs in this file.

    One constructor per public method of /repo/src/nodit/map.rs that takes one
    interval or point, changes the map or looks something up in it, and whose
    documented answer is about that place only.  The gap queries and
    [contains_interval] are left out: they change nothing, and other
    properties state them by the covered points. *)
From Coq Require Import List Bool.
From Verif Require Import Base BTree UtilsModel IntervalModel NoditModel Spec.
Import ListNotations.

Section Local.
  Context {I : Type} {OI : Ord I} {DI : DiscreteFinite I}.
  Context {K : Type} {IK : InclusiveInterval I K}.
  Context {V : Type}.

  Inductive call : Type :=
  | InsertStrict (k : K) (v : V)
  | InsertMergeTouching (k : K) (v : V)
  | InsertMergeTouchingIfValuesEqual (veq : V -> V -> bool) (k : K) (v : V)
  | InsertMergeOverlapping (k : K) (v : V)
  | InsertMergeTouchingOrOverlapping (k : K) (v : V)
  | InsertOverwrite (k : K) (v : V)
  | RemoveOverlapping {Q : Type} {IQ : InclusiveInterval I Q} (q : Q)
  | Cut {Q : Type} {IQ : InclusiveInterval I Q} (q : Q)
  | OverlappingMut {Q : Type} {IQ : InclusiveInterval I Q} (f : K -> V -> V) (q : Q)
  | Overlapping {Q : Type} {IQ : InclusiveInterval I Q} (q : Q)
  | Overlaps {Q : Type} {IQ : InclusiveInterval I Q} (q : Q)
  | GetAtPointMut (f : V -> V) (p : I)
  | GetAtPoint (p : I)
  | ContainsPoint (p : I).

  Inductive reply : Type :=
  | Nothing (r : outcome unit)
  | Inserted (r : outcome (result unit V))
  | Merged (r : outcome (result K V))
  | Into (r : outcome K)
  | Entries (r : outcome (list (K * V)))
  | Answer (r : outcome bool)
  | Value (r : outcome (option V)).

  Definition answering {A} (f : A -> reply) (x : NoditMap K V * A) : NoditMap K V * reply := (fst x, f (snd x)).

  (** The map after the call, and what the call returned. *)
  Definition perform (c : call) (m : NoditMap K V) : NoditMap K V * reply :=
    match c with
    | InsertStrict k v => answering Inserted (insert_strict k v m)
    | InsertMergeTouching k v => answering Merged (insert_merge_touching k v m)
    | InsertMergeTouchingIfValuesEqual veq k v =>
        answering Merged (insert_merge_touching_if_values_equal veq k v m)
    | InsertMergeOverlapping k v => answering Into (insert_merge_overlapping k v m)
    | InsertMergeTouchingOrOverlapping k v => answering Into (insert_merge_touching_or_overlapping k v m)
    | InsertOverwrite k v => answering Entries (insert_overwrite k v m)
    | RemoveOverlapping q => answering Entries (remove_overlapping q m)
    | Cut q => answering Entries (cut q m)
    | OverlappingMut f q => answering Nothing (overlapping_mut f q m)
    | Overlapping q => (m, Entries (overlapping m q))
    | Overlaps q => (m, Answer (map_overlaps m q))
    | GetAtPointMut f p => answering (fun o => Value (Val o)) (get_at_point_mut f p m)
    | GetAtPoint p => (m, Value (get_at_point m p))
    | ContainsPoint p => (m, Answer (map_contains_point m p))
    end.

  (** The interval the call is about. *)
  Definition subject (c : call) : Interval I :=
    match c with
    | InsertStrict k _ | InsertMergeTouching k _ | InsertMergeTouchingIfValuesEqual _ k _
    | InsertMergeOverlapping k _ | InsertMergeTouchingOrOverlapping k _ | InsertOverwrite k _ =>
        mkInterval (istart k) (iend k)
    | RemoveOverlapping q | Cut q | OverlappingMut _ q | Overlapping q | Overlaps q =>
        mkInterval (istart q) (iend q)
    | GetAtPointMut _ p | GetAtPoint p | ContainsPoint p => mkInterval p p
    end.

  (** The calls that also treat touching intervals specially. *)
  Definition looks_at_touching (c : call) : bool :=
    match c with
    | InsertMergeTouching _ _ | InsertMergeTouchingIfValuesEqual _ _ _
    | InsertMergeTouchingOrOverlapping _ _ => true
    | _ => false
    end.

  (** The interval [e] is none of the call's business. *)
  Definition clear {E : Type} {IE : InclusiveInterval I E} (c : call) (e : E) : Prop :=
    ~ overlap e (subject c) /\ (looks_at_touching c = true -> ~ touch e (subject c)).

  (** Neither call is about what the other is about. *)
  Definition independent (c d : call) : Prop := clear c (subject d) /\ clear d (subject c).

  (** Several calls, one after the other. *)
  Fixpoint perform_all (cs : list call) (m : NoditMap K V) : NoditMap K V * list reply :=
    match cs with
    | [] => (m, [])
    | c :: cs =>
        let (m, r) := perform c m in
        let (m, rs) := perform_all cs m in
        (m, r :: rs)
    end.

  (** Of a list with two owners, the part that belongs to [b]. *)
  Definition owned {A : Type} (b : bool) (l : list (bool * A)) : list A :=
    map snd (filter (fun x => Bool.eqb (fst x) b) l).
End Local.
Arguments call : clear implicits.
Arguments reply : clear implicits.
