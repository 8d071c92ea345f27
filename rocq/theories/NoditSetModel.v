(** * NoditSetModel: model of /repo/src/nodit/set.rs.  No proofs in this file. *)
From Coq Require Import List Bool.
From Verif Require Import Base BTree UtilsModel IntervalModel NoditModel.
Import ListNotations.

Section NoditSet.
  Context {I : Type} `{Ord I} `{DiscreteFinite I}.
  Context {K : Type} `{InclusiveInterval I K}.

  (** [NoditSet]  (/repo/src/nodit/set.rs:23-25): a newtype around
      [NoditMap<I, K, ()>]. *)
  Definition NoditSet : Type := NoditMap K unit.

  (** helper [first]  (/repo/src/nodit/set.rs:181-183) *)
  Definition first {A B} (p : A * B) : A := let (a, _) := p in a.

  (** [new]/[Default]  (/repo/src/nodit/set.rs:152-156, 214-223) *)
  Definition set_new : NoditSet := new.
  (** [len]  (/repo/src/nodit/set.rs:158-160) *)
  Definition set_len (s : NoditSet) : nat := len s.
  (** [is_empty]  (/repo/src/nodit/set.rs:162-164) *)
  Definition set_is_empty (s : NoditSet) : bool := is_empty s.
  (** [iter] and [into_iter]  (/repo/src/nodit/set.rs:166-168, 187-212) *)
  Definition set_iter (s : NoditSet) : list K := map first (iter s).
  Definition set_into_iter (s : NoditSet) : list K := map first (into_iter s).
  (** [first]  (/repo/src/nodit/set.rs:170-172) *)
  Definition set_first (s : NoditSet) : option K := option_map first (first_key_value s).
  (** [last]  (/repo/src/nodit/set.rs:174-176) *)
  Definition set_last (s : NoditSet) : option K := option_map first (last_key_value s).

  Section Queries.
    Context {Q : Type} `{InclusiveInterval I Q}.
    (** [overlaps]  (/repo/src/nodit/set.rs:33-38) *)
    Definition set_overlaps (s : NoditSet) (q : Q) : outcome bool := map_overlaps s q.
    (** [overlapping]  (/repo/src/nodit/set.rs:40-48) *)
    Definition set_overlapping (s : NoditSet) (q : Q) : outcome (list K) :=
      omap (map first) (overlapping s q).
    (** [remove_overlapping]  (/repo/src/nodit/set.rs:58-66) *)
    Definition set_remove_overlapping (q : Q) (s : NoditSet) : NoditSet * outcome (list K) :=
      let (s, r) := remove_overlapping q s in (s, omap (map first) r).
    (** [cut]  (/repo/src/nodit/set.rs:68-73) *)
    Definition set_cut (q : Q) (s : NoditSet) : NoditSet * outcome (list K) :=
      let (s, r) := cut q s in (s, omap (map first) r).
    (** [gaps_untrimmed]  (/repo/src/nodit/set.rs:75-83) *)
    Definition set_gaps_untrimmed (s : NoditSet) (q : Q) : outcome (list K) := gaps_untrimmed s q.
    (** [gaps_trimmed]  (/repo/src/nodit/set.rs:85-93) *)
    Definition set_gaps_trimmed (s : NoditSet) (q : Q) : outcome (list K) := gaps_trimmed s q.
    (** [contains_interval]  (/repo/src/nodit/set.rs:95-100) *)
    Definition set_contains_interval (s : NoditSet) (q : Q) : outcome bool :=
      map_contains_interval s q.
  End Queries.

  (** [get_at_point]  (/repo/src/nodit/set.rs:50-52) *)
  Definition set_get_at_point (s : NoditSet) (point : I) : outcome (result K K) :=
    let? r := get_key_value_at_point s point in
    Val (match r with Ok kv => Ok (first kv) | Err g => Err g end).
  (** [contains_point]  (/repo/src/nodit/set.rs:54-56) *)
  Definition set_contains_point (s : NoditSet) (point : I) : outcome bool :=
    map_contains_point s point.

  (** [insert_strict]  (/repo/src/nodit/set.rs:102-107) *)
  Definition set_insert_strict (interval : K) (s : NoditSet)
    : NoditSet * outcome (result unit unit) := insert_strict interval tt s.
  (** [insert_merge_touching]  (/repo/src/nodit/set.rs:109-114) *)
  Definition set_insert_merge_touching (interval : K) (s : NoditSet)
    : NoditSet * outcome (result K unit) := insert_merge_touching interval tt s.
  (** [insert_merge_overlapping]  (/repo/src/nodit/set.rs:116-118) *)
  Definition set_insert_merge_overlapping (interval : K) (s : NoditSet)
    : NoditSet * outcome K := insert_merge_overlapping interval tt s.
  (** [insert_merge_touching_or_overlapping]  (/repo/src/nodit/set.rs:120-123) *)
  Definition set_insert_merge_touching_or_overlapping (interval : K) (s : NoditSet)
    : NoditSet * outcome K := insert_merge_touching_or_overlapping interval tt s.
  (** [insert_overwrite]  (/repo/src/nodit/set.rs:125-127) *)
  Definition set_insert_overwrite (interval : K) (s : NoditSet)
    : NoditSet * outcome (list K) :=
    let (s, r) := insert_overwrite interval tt s in (s, omap (map first) r).

  (** The loop of [from_slice_strict] and [from_iter_strict]
      (/repo/src/nodit/set.rs:132-136, 142-146) *)
  Fixpoint set_extend_strict (l : list K) (s : NoditSet) : outcome (result NoditSet unit) :=
    match l with
    | [] => Val (Ok s)
    | interval :: r =>
        match set_insert_strict interval s with
        | (_, Panic) => Panic
        | (_, Val (Err e)) => Val (Err e)
        | (s, Val (Ok _)) => set_extend_strict r s
        end
    end.
  (** [from_slice_strict]  (/repo/src/nodit/set.rs:129-137) *)
  Definition set_from_slice_strict (l : list K) : outcome (result NoditSet unit) :=
    set_extend_strict l set_new.
  (** [from_iter_strict]  (/repo/src/nodit/set.rs:139-147) *)
  Definition set_from_iter_strict (l : list K) : outcome (result NoditSet unit) :=
    set_extend_strict l set_new.

  (** serde  (/repo/src/nodit/set.rs:235-249, 286-297); see [NoditModel.serialize]
      for the modelling of serde sequences. *)
  Definition set_serialize (s : NoditSet) : nat * list K := (set_len s, set_iter s).
  Fixpoint set_visit_seq (access : list (option K)) (s : NoditSet)
    : outcome (result NoditSet de_error) :=
    match access with
    | [] => Val (Ok s)
    | None :: _ => Val (Err DeElement)
    | Some interval :: rest =>
        match set_insert_strict interval s with
        | (_, Panic) => Panic
        | (_, Val (Err _)) => Val (Err DeOverlap)
        | (s, Val (Ok _)) => set_visit_seq rest s
        end
    end.
  Definition set_deserialize (access : list (option K)) : outcome (result NoditSet de_error) :=
    set_visit_seq access set_new.
End NoditSet.
Arguments NoditSet : clear implicits.
