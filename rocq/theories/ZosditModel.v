(** * ZosditModel: model of /repo/src/zosdit/map.rs.  No proofs in this file. *)
From Coq Require Import List Bool Arith.
From Verif Require Import Base BTree UtilsModel IntervalModel NoditModel.
Import ListNotations.

Section Zosdit.
  Context {I : Type} `{Ord I} `{DiscreteFinite I}.
  Context {K : Type} `{InclusiveInterval I K}.
  Context {V : Type}.

  (** [ZosditMap]  (/repo/src/zosdit/map.rs:61-68).  [ValueStore<V>]
      ([SmallVec<[V; 2]>], line 24) is a list.  [len] is a [usize]: subtraction
      below zero is a panic (as in a debug build); additions are not bounded
      (overflow needs more than [usize::MAX] stored values). *)
  Record ZosditMap : Type := mkZosdit {
    z_len : nat;
    z_inner : BTreeMap K (list V)
  }.

  (** [new]/[Default]  (/repo/src/zosdit/map.rs:91-93, 614-622) *)
  Definition z_new : ZosditMap := mkZosdit 0 [].
  (** [len]  (/repo/src/zosdit/map.rs:96-98) *)
  Definition zosdit_len (z : ZosditMap) : nat := z_len z.
  (** [is_empty]  (/repo/src/zosdit/map.rs:100-102) *)
  Definition zosdit_is_empty (z : ZosditMap) : bool := Nat.eqb (z_len z) 0.

  Definition vec_first (l : list V) : option V :=
    match l with [] => None | v :: _ => Some v end.
  Fixpoint vec_last (l : list V) : option V :=
    match l with
    | [] => None
    | [v] => Some v
    | _ :: r => vec_last r
    end.
  (** [SmallVec::pop]: the last element and the shortened vector.
      (used at /repo/src/zosdit/map.rs:235) *)
  Definition vec_pop (l : list V) : option (V * list V) :=
    match rev l with
    | [] => None
    | v :: r => Some (v, rev r)
    end.

  (** [first_key_value]  (/repo/src/zosdit/map.rs:122-128) *)
  Definition zosdit_first_key_value (z : ZosditMap) : option (K * V) :=
    match bt_first (z_inner z) with
    | None => None
    | Some (key, value_store) =>
        match vec_first value_store with
        | None => None
        | Some first_value => Some (key, first_value)
        end
    end.

  (** [last_key_value]  (/repo/src/zosdit/map.rs:148-154) *)
  Definition zosdit_last_key_value (z : ZosditMap) : option (K * V) :=
    match bt_last (z_inner z) with
    | None => None
    | Some (key, value_store) =>
        match vec_last value_store with
        | None => None
        | Some last_value => Some (key, last_value)
        end
    end.

  (** The cursor positioning shared by [get_last_value_at_point]
      (/repo/src/zosdit/map.rs:177-184) and [remove_last_value_at_point]
      (lines 224-231). *)
  Definition last_value_cursor (z : ZosditMap) (point : I) : cursor K (list V) :=
    let c := lower_bound (exclusive_comp point Gt) (z_inner z) in
    match cursor_key c with
    | None => move_prev c
    | Some _ => c
    end.

  (** [get_last_value_at_point]  (/repo/src/zosdit/map.rs:176-190) *)
  Definition get_last_value_at_point (z : ZosditMap) (point : I) : option V :=
    match cursor_key_value (last_value_cursor z point) with
    | Some (key, value_store) =>
        if contains_point key point then vec_last value_store else None
    | None => None
    end.

  (** [remove_last_value_at_point]  (/repo/src/zosdit/map.rs:223-246).  As in
      the code, [self.len] is not touched. *)
  Definition remove_last_value_at_point (point : I) (z : ZosditMap) : ZosditMap * outcome (option V) :=
    let c := last_value_cursor z point in
    match snd c with
    | (key, value) :: rest =>
        if contains_point key point then
          match vec_pop value with
          | None => (z, Panic)
          | Some (last, value) =>
              match value with
              | [] => (mkZosdit (z_len z) (fst c ++ rest), Val (Some last))
              | _ => (mkZosdit (z_len z) (fst c ++ (key, value) :: rest), Val (Some last))
              end
          end
        else (z, Val None)
    | [] => (z, Val None)
    end.

  (** The comparator of the [entry] call of [insert_strict_back]
      (/repo/src/zosdit/map.rs:290-315); its [unreachable!()] arms are [Panic]. *)
  Definition entry_comp (inner_interval new_interval : K) : outcome comparison :=
    let start_result := exclusive_comp (istart new_interval) Gt inner_interval in
    let end_result := exclusive_comp (iend new_interval) Lt inner_interval in
    match start_result, end_result with
    | Gt, Lt => Val Eq
    | Lt, Lt => Val Lt
    | Gt, Gt => Val Gt
    | Lt, Gt => Panic
    | Eq, Lt => Panic
    | Gt, Eq => Panic
    | Eq, Gt => Panic
    | Eq, Eq => Panic
    | Lt, Eq => Panic
    end.

  (** [self.inner.entry(interval, comp).or_default().push(value)]
      (/repo/src/zosdit/map.rs:289-317): the node search of [BTree.seek] with a
      comparator that may panic.  An occupied entry keeps its key. *)
  Fixpoint entry_push (interval : K) (value : V) (pre l : BTreeMap K (list V))
    : outcome (BTreeMap K (list V)) :=
    match l with
    | [] => Val (pre ++ [(interval, [value])])
    | (k, vs) :: r =>
        match entry_comp k interval with
        | Panic => Panic
        | Val Gt => entry_push interval value (pre ++ [(k, vs)]) r
        | Val Eq => Val (pre ++ (k, vs ++ [value]) :: r)
        | Val Lt => Val (pre ++ (interval, [value]) :: l)
        end
    end.

  Section Queries.
    Context {Q : Type} `{InclusiveInterval I Q}.

    (** [is_zero_overlap]  (/repo/src/zosdit/map.rs:354-373) *)
    Definition is_zero_overlap (z : ZosditMap) (q : Q) : outcome bool :=
      let? _ := invalid_interval_panic q in
      Val (match range (exclusive_comp (istart q) Gt) (exclusive_comp (iend q) Lt) (z_inner z) with
           | [] => true
           | _ => false
           end).
  End Queries.

  (** [insert_strict_back]  (/repo/src/zosdit/map.rs:279-323) *)
  Definition insert_strict_back (interval : K) (value : V) (z : ZosditMap)
    : ZosditMap * outcome (result unit V) :=
    match invalid_interval_panic interval with
    | Panic => (z, Panic)
    | Val _ =>
        match is_zero_overlap z interval with
        | Panic => (z, Panic)
        | Val false => (z, Val (Err value))
        | Val true =>
            match entry_push interval value [] (z_inner z) with
            | Panic => (z, Panic)
            | Val inner => (mkZosdit (z_len z + 1) inner, Val (Ok tt))
            end
        end
    end.

  (** Flattening of the value stores, shared by [iter], [into_iter],
      [overlapping] and [cut]: [value_store.iter().map(|v| (interval, v))].
      (/repo/src/zosdit/map.rs:514, 542, 634) *)
  Definition flatten (l : BTreeMap K (list V)) : list (K * V) :=
    flat_map (fun kvs => map (fun v => (fst kvs, v)) (snd kvs)) l.

  (** [iter]  (/repo/src/zosdit/map.rs:541-545) *)
  Definition zosdit_iter (z : ZosditMap) : list (K * V) := flatten (z_inner z).
  (** [into_iter]  (/repo/src/zosdit/map.rs:624-638) *)
  Definition zosdit_into_iter (z : ZosditMap) : list (K * V) := flatten (z_inner z).

  Section Cut.
    Context {Q : Type} `{InclusiveInterval I Q}.

    (** [overlapping]  (/repo/src/zosdit/map.rs:501-517) *)
    Definition zosdit_overlapping (z : ZosditMap) (q : Q) : outcome (list (K * V)) :=
      let? _ := invalid_interval_panic q in
      Val (flatten (range (inclusive_comp (istart q) Lt) (inclusive_comp (iend q) Gt) (z_inner z))).

    (** [cursor.insert_before(..)] of an optional piece together with
        [self.len += value_store.len()]  (/repo/src/zosdit/map.rs:446-453) *)
    Definition z_piece (p : option (Interval I)) (vs : list V)
      (s : nat * BTreeMap K (list V)) : nat * BTreeMap K (list V) :=
      match p with
      | Some i => (fst s + length vs, snd s ++ [(ifrom i, vs)])
      | None => s
      end.

    (** The loop of [cut]  (/repo/src/zosdit/map.rs:437-461).  [(pre, post)] is
        the cursor and [n] is [self.len]. *)
    Fixpoint zosdit_cut_loop (q : Q) (n : nat) (pre post : BTreeMap K (list V)) (acc : list (K * V))
      : ZosditMap * outcome (list (K * V)) :=
      match post with
      | [] => (mkZosdit n (pre ++ post), Val acc)
      | (k, vs) :: rest =>
          match overlaps k q with
          | Panic => (mkZosdit n (pre ++ post), Panic)
          | Val false => (mkZosdit n (pre ++ post), Val acc)
          | Val true =>
              match cut_interval k q with
              | Panic => (mkZosdit n (pre ++ rest), Panic)
              | Val r =>
                  let s := z_piece (before_cut r) vs (n, pre) in
                  let s := z_piece (after_cut r) vs s in
                  let (n, pre) := s in
                  if Nat.ltb n (length vs) then (mkZosdit n (pre ++ rest), Panic)
                  else
                    match inside_cut r, vs with
                    | None, _ :: _ => (mkZosdit (n - length vs) (pre ++ rest), Panic)
                    | None, [] => zosdit_cut_loop q (n - length vs) pre rest acc
                    | Some i, _ =>
                        zosdit_cut_loop q (n - length vs) pre rest
                          (acc ++ map (fun v => (ifrom i, v)) vs)
                    end
              end
          end
      end.

    (** [cut]  (/repo/src/zosdit/map.rs:419-464) *)
    Definition zosdit_cut (q : Q) (z : ZosditMap) : ZosditMap * outcome (list (K * V)) :=
      match invalid_interval_panic q with
      | Panic => (z, Panic)
      | Val _ =>
          let c := upper_bound (exclusive_comp (istart q) Lt) (z_inner z) in
          let c := match cursor_key c with None => move_next c | Some _ => c end in
          zosdit_cut_loop q (z_len z) (fst c) (snd c) []
      end.
  End Cut.

  (** The loop of [from_iter_strict_back]  (/repo/src/zosdit/map.rs:607-609) *)
  Fixpoint extend_strict_back (l : list (K * V)) (z : ZosditMap) : outcome (result ZosditMap V) :=
    match l with
    | [] => Val (Ok z)
    | (interval, value) :: r =>
        match insert_strict_back interval value z with
        | (_, Panic) => Panic
        | (_, Val (Err e)) => Val (Err e)
        | (z, Val (Ok _)) => extend_strict_back r z
        end
    end.
  (** [from_iter_strict_back]  (/repo/src/zosdit/map.rs:603-611) *)
  Definition from_iter_strict_back (l : list (K * V)) : outcome (result ZosditMap V) :=
    extend_strict_back l z_new.
  (** [from_slice_strict_back]  (/repo/src/zosdit/map.rs:571-575) *)
  Definition from_slice_strict_back (l : list (K * V)) : outcome (result ZosditMap V) :=
    from_iter_strict_back l.

  (** serde  (/repo/src/zosdit/map.rs:650-666, 707-718); see
      [NoditModel.serialize] for the modelling of serde sequences. *)
  Definition zosdit_serialize (z : ZosditMap) : nat * list (K * V) :=
    (zosdit_len z, zosdit_iter z).
  Fixpoint zosdit_visit_seq (access : list (option (K * V))) (z : ZosditMap)
    : outcome (result ZosditMap de_error) :=
    match access with
    | [] => Val (Ok z)
    | None :: _ => Val (Err DeElement)
    | Some (interval, value) :: rest =>
        match insert_strict_back interval value z with
        | (_, Panic) => Panic
        | (_, Val (Err _)) => Val (Err DeOverlap)
        | (z, Val (Ok _)) => zosdit_visit_seq rest z
        end
    end.
  Definition zosdit_deserialize (access : list (option (K * V)))
    : outcome (result ZosditMap de_error) := zosdit_visit_seq access z_new.
End Zosdit.
Arguments ZosditMap : clear implicits.
