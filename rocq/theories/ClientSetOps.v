(** * ClientSetOps: what each NoditSet method is documented to do, and programs that use a
      NoditSet through its methods (vocabulary of C133).  No proofs in this file. *)
From Coq Require Import List.
From Verif Require Import Base BTree UtilsModel IntervalModel NoditModel NoditSetModel Spec CompleteOps.
Import ListNotations.

(** ** The documented effects

    Nothing here mentions a method of the model: [s] and [s'] are the intervals of the set in
    the order of [iter], before and after the call. *)
Section Documented.
  Context {I : Type} `{Ord I}.
  Context {K : Type} `{InclusiveInterval I K}.
  Implicit Types (s out : list K) (k r : K) (p : I).

  (** [p] lies in an interval of the set. *)
  Definition holds s p : Prop := exists k, In k s /\ covers k p.
  (** An interval of the set overlaps [q]. *)
  Definition hits {Q} `{InclusiveInterval I Q} (q : Q) s : Prop := exists k, In k s /\ overlap k q.
  (** The method returns what is [right], and the set consists of valid intervals in ascending
      order; given an invalid interval it panics and leaves the set alone. *)
  Definition modifies {Q A} `{InclusiveInterval I Q} (q : Q) s s' (o : outcome A) (right : A -> Prop) : Prop :=
    (valid q -> Forall valid s' /\ ascending s' /\ exists a, o = Val a /\ right a) /\
    (~ valid q -> s' = s /\ o = Panic).
  (** [g] is what is left of an interval of the set on one side of [q]. *)
  Definition rest {Q} `{InclusiveInterval I Q} (q : Q) s (g : K) : Prop :=
    exists k, In k s /\ max_run (fun p => covers k p /\ ~ covers q p) g.
  (** [out] lists the parts inside [q] of the intervals that overlap [q], from left to right. *)
  Definition parts {Q} `{InclusiveInterval I Q} (q : Q) s out : Prop :=
    exists l, sub (fun k => overlap k q) s l /\
      Forall2 (fun k i => forall p, covers i p <-> covers k p /\ covers q p) l out.
  (** [k] and the intervals satisfying [P] are replaced by one interval [r] with their points. *)
  Definition joined (P : K -> Prop) k s s' r : Prop :=
    (forall p, covers r p <-> covers k p \/ exists j, In j s /\ P j /\ covers j p) /\
    (forall j, In j s' <-> j = r \/ (In j s /\ ~ P j)).
End Documented.

Section Client.
  Context {I : Type} `{Ord I} `{DiscreteFinite I}.
  Context {K : Type} `{InclusiveInterval I K}.

  (** One constructor per method taking [&self] or [&mut self]
      (/repo/src/nodit/set.rs:33-127, 149-182; the queries may be of any interval type [Q]). *)
  Inductive scall : Type :=
  | SCallLen
  | SCallIsEmpty
  | SCallIter
  | SCallFirst
  | SCallLast
  | SCallGetAtPoint (p : I)
  | SCallContainsPoint (p : I)
  | SCallOverlapping {Q : Type} `{InclusiveInterval I Q} (q : Q)
  | SCallOverlaps {Q : Type} `{InclusiveInterval I Q} (q : Q)
  | SCallContainsInterval {Q : Type} `{InclusiveInterval I Q} (q : Q)
  | SCallGapsUntrimmed {Q : Type} `{InclusiveInterval I Q} (q : Q)
  | SCallGapsTrimmed {Q : Type} `{InclusiveInterval I Q} (q : Q)
  | SCallRemoveOverlapping {Q : Type} `{InclusiveInterval I Q} (q : Q)
  | SCallCut {Q : Type} `{InclusiveInterval I Q} (q : Q)
  | SCallInsertStrict (k : K)
  | SCallInsertOverwrite (k : K)
  | SCallInsertMergeTouching (k : K)
  | SCallInsertMergeOverlapping (k : K)
  | SCallInsertMergeTouchingOrOverlapping (k : K).

  (** What a call returns. *)
  Definition sanswer (c : scall) : Type :=
    match c with
    | SCallLen => nat
    | SCallIsEmpty => bool
    | SCallIter => list K
    | SCallFirst | SCallLast => option K
    | SCallGetAtPoint _ => outcome (result K K)
    | SCallContainsPoint _ | SCallOverlaps _ | SCallContainsInterval _ => outcome bool
    | SCallOverlapping _ | SCallRemoveOverlapping _ | SCallCut _ | SCallInsertOverwrite _
    | SCallGapsUntrimmed _ | SCallGapsTrimmed _ => outcome (list K)
    | SCallInsertStrict _ => outcome (result unit unit)
    | SCallInsertMergeTouching _ => outcome (result K unit)
    | SCallInsertMergeOverlapping _ | SCallInsertMergeTouchingOrOverlapping _ => outcome K
    end.

  (** The documented effect of a call. *)
  Definition set_documented (c : scall) (s s' : list K) : sanswer c -> Prop :=
    match c return sanswer c -> Prop with
    | SCallLen => fun a => s' = s /\ a = length s
    | SCallIsEmpty => fun a => s' = s /\ (a = true <-> s = [])
    | SCallIter => fun a => s' = s /\ a = s
    | SCallFirst => fun a => s' = s /\ forall k, a = Some k <-> exists l, s = k :: l
    | SCallLast => fun a => s' = s /\ forall k, a = Some k <-> exists l, s = l ++ [k]
    | SCallGetAtPoint p => fun a => s' = s /\
        ((exists k, a = Val (Ok k) /\ In k s /\ covers k p) \/
         (exists g, a = Val (Err g) /\ covers g p /\ max_run (fun x => ~ holds s x) g))
    | SCallContainsPoint p => fun a => s' = s /\ exists b, a = Val b /\ (b = true <-> holds s p)
    | SCallOverlapping q => fun a => s' = s /\ answers q a (fun l => sub (fun k => overlap k q) s l)
    | SCallOverlaps q => fun a => s' = s /\ answers q a (fun b => b = true <-> hits q s)
    | SCallContainsInterval q => fun a => s' = s /\ answers q a (fun b => b = true <-> forall p, covers q p -> holds s p)
    | SCallGapsUntrimmed q => fun a => s' = s /\
        answers q a (fun l => lists_max_runs (fun p => ~ holds s p) (fun g => overlap g q) l)
    | SCallGapsTrimmed q => fun a => s' = s /\
        answers q a (fun l => lists_max_runs (fun p => ~ holds s p /\ covers q p) (fun _ => True) l)
    | SCallRemoveOverlapping q => fun a => modifies q s s' a (fun out =>
        sub (fun k => overlap k q) s out /\ forall k, In k s' <-> In k s /\ ~ overlap k q)
    | SCallCut q => fun a => modifies q s s' a (fun out => parts q s out /\ forall g, In g s' <-> rest q s g)
    | SCallInsertStrict k => fun a => modifies k s s' a (fun r =>
        (hits k s /\ r = Err tt /\ s' = s) \/
        (~ hits k s /\ r = Ok tt /\ forall j, In j s' <-> j = k \/ In j s))
    | SCallInsertOverwrite k => fun a => modifies k s s' a (fun out =>
        parts k s out /\ forall g, In g s' <-> g = k \/ rest k s g)
    | SCallInsertMergeTouching k => fun a => modifies k s s' a (fun o =>
        (hits k s /\ o = Err tt /\ s' = s) \/
        (~ hits k s /\ exists r, o = Ok r /\ joined (fun j => touch j k) k s s' r))
    | SCallInsertMergeOverlapping k => fun a => modifies k s s' a (fun r => joined (fun j => overlap j k) k s s' r)
    | SCallInsertMergeTouchingOrOverlapping k => fun a =>
        modifies k s s' a (fun r => joined (fun j => touch j k \/ overlap j k) k s s' r)
    end.

  (** The model's methods. *)
  Definition set_perform (c : scall) (s : NoditSet K) : NoditSet K * sanswer c :=
    match c return NoditSet K * sanswer c with
    | SCallLen => (s, set_len s)
    | SCallIsEmpty => (s, set_is_empty s)
    | SCallIter => (s, set_iter s)
    | SCallFirst => (s, set_first s)
    | SCallLast => (s, set_last s)
    | SCallGetAtPoint p => (s, set_get_at_point s p)
    | SCallContainsPoint p => (s, set_contains_point s p)
    | SCallOverlapping q => (s, set_overlapping s q)
    | SCallOverlaps q => (s, set_overlaps s q)
    | SCallContainsInterval q => (s, set_contains_interval s q)
    | SCallGapsUntrimmed q => (s, set_gaps_untrimmed s q)
    | SCallGapsTrimmed q => (s, set_gaps_trimmed s q)
    | SCallRemoveOverlapping q => set_remove_overlapping q s
    | SCallCut q => set_cut q s
    | SCallInsertStrict k => set_insert_strict k s
    | SCallInsertOverwrite k => set_insert_overwrite k s
    | SCallInsertMergeTouching k => set_insert_merge_touching k s
    | SCallInsertMergeOverlapping k => set_insert_merge_overlapping k s
    | SCallInsertMergeTouchingOrOverlapping k => set_insert_merge_touching_or_overlapping k s
    end.

  (** ** Programs: see [ClientOps] *)
  Inductive set_client (R : Type) : Type :=
  | SStop (r : R)
  | SMake (c : scall) (next : sanswer c -> set_client R).
  Record set_implementation : Type := {
    set_state : Type;
    set_start : set_state;
    set_does : forall c, set_state -> set_state * sanswer c
  }.
  Fixpoint set_execute {R} (i : set_implementation) (s : set_state i) (p : set_client R) : R :=
    match p with
    | SStop _ r => r
    | SMake _ c next => let (s', a) := set_does i c s in set_execute i s' (next a)
    end.
  Inductive set_occurs (i : set_implementation) : set_state i -> Prop :=
  | set_occurs_start : set_occurs i (set_start i)
  | set_occurs_after s c : set_occurs i s -> set_occurs i (fst (set_does i c s)).
  (** It does what is documented, its states being read as sequences of intervals. *)
  Definition set_as_documented (i : set_implementation) (intervals : set_state i -> list K) : Prop :=
    intervals (set_start i) = [] /\
    forall s c, set_occurs i s ->
      set_documented c (intervals s) (intervals (fst (set_does i c s))) (snd (set_does i c s)).
  (** The modelled NoditSet. *)
  Definition noditset : set_implementation :=
    {| set_state := NoditSet K; set_start := set_new; set_does := set_perform |}.
End Client.
Arguments scall : clear implicits.
