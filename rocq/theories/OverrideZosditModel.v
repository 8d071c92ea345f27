(** * OverrideZosditModel: [ZosditMap] with interval types that override the
      provided methods of [InclusiveInterval] (C142).  No proofs in this file.

    [ZosditMap] calls three of them on the types of its user: [is_valid]
    (through [invalid_interval_panic], /repo/src/utils.rs:250-262), [overlaps]
    in [cut] (/repo/src/zosdit/map.rs:438) and [contains_point]
    (/repo/src/zosdit/map.rs:188, 234).  They are arguments here; [overlaps]
    and [contains_point] may panic.  Everything else is as in [ZosditModel]. *)
From Coq Require Import List Arith.
From Verif Require Import Base BTree UtilsModel IntervalModel NoditModel ZosditModel OverrideModel.
Import ListNotations.

Section OverrideZosdit.
  Context {I : Type} `{Ord I} `{DiscreteFinite I}.
  Context {K : Type} `{InclusiveInterval I K}.
  Context {V : Type}.
  Notation ZosditMap := (ZosditMap K V).

  (** [get_last_value_at_point]  (/repo/src/zosdit/map.rs:176-190) *)
  Definition get_last_value_at_point_o (k_contains : K -> I -> outcome bool) (z : ZosditMap) (point : I)
    : outcome (option V) :=
    match cursor_key_value (last_value_cursor z point) with
    | Some (key, value_store) =>
        let? b := k_contains key point in
        Val (if b then vec_last value_store else None)
    | None => Val None
    end.

  (** [remove_last_value_at_point]  (/repo/src/zosdit/map.rs:223-246) *)
  Definition remove_last_value_at_point_o (k_contains : K -> I -> outcome bool) (point : I) (z : ZosditMap)
    : ZosditMap * outcome (option V) :=
    let c := last_value_cursor z point in
    match snd c with
    | (key, value) :: rest =>
        match k_contains key point with
        | Panic => (z, Panic)
        | Val true =>
            match vec_pop value with
            | None => (z, Panic)
            | Some (last, value) =>
                match value with
                | [] => (mkZosdit (z_len z) (fst c ++ rest), Val (Some last))
                | _ => (mkZosdit (z_len z) (fst c ++ (key, value) :: rest), Val (Some last))
                end
            end
        | Val false => (z, Val None)
        end
    | [] => (z, Val None)
    end.

  Section Queries.
    Context {Q : Type} `{InclusiveInterval I Q}.
    Context (q_valid : Q -> bool).

    (** [is_zero_overlap]  (/repo/src/zosdit/map.rs:354-373) *)
    Definition is_zero_overlap_o (z : ZosditMap) (q : Q) : outcome bool :=
      let? _ := invalid_interval_panic_o q_valid q in
      Val (match range (exclusive_comp (istart q) Gt) (exclusive_comp (iend q) Lt) (z_inner z) with
           | [] => true
           | _ => false
           end).

    (** [overlapping]  (/repo/src/zosdit/map.rs:501-517) *)
    Definition zosdit_overlapping_o (z : ZosditMap) (q : Q) : outcome (list (K * V)) :=
      let? _ := invalid_interval_panic_o q_valid q in
      Val (flatten (range (inclusive_comp (istart q) Lt) (inclusive_comp (iend q) Gt) (z_inner z))).

    (** The loop of [cut]  (/repo/src/zosdit/map.rs:437-461); [k_overlaps k q]
        is [k.overlaps(q)]. *)
    Fixpoint zosdit_cut_loop_o (k_overlaps : K -> Q -> outcome bool) (q : Q) (n : nat)
      (pre post : BTreeMap K (list V)) (acc : list (K * V)) : ZosditMap * outcome (list (K * V)) :=
      match post with
      | [] => (mkZosdit n (pre ++ post), Val acc)
      | (k, vs) :: rest =>
          match k_overlaps k q with
          | Panic => (mkZosdit n (pre ++ post), Panic)
          | Val false => (mkZosdit n (pre ++ post), Val acc)
          | Val true =>
              match cut_interval k q with
              | Panic => (mkZosdit n (pre ++ rest), Panic)
              | Val r =>
                  let s := z_piece (before_cut r) vs (n, pre) in
                  let s := z_piece (after_cut r) vs s in
                  let (n, pre) := s in
                  if Nat.ltb n (length vs) then (mkZosdit n (pre ++ rest), Panic)
                  else
                    match inside_cut r, vs with
                    | None, _ :: _ => (mkZosdit (n - length vs) (pre ++ rest), Panic)
                    | None, [] => zosdit_cut_loop_o k_overlaps q (n - length vs) pre rest acc
                    | Some i, _ =>
                        zosdit_cut_loop_o k_overlaps q (n - length vs) pre rest
                          (acc ++ map (fun v => (ifrom i, v)) vs)
                    end
              end
          end
      end.

    (** [cut]  (/repo/src/zosdit/map.rs:419-464) *)
    Definition zosdit_cut_o (k_overlaps : K -> Q -> outcome bool) (q : Q) (z : ZosditMap)
      : ZosditMap * outcome (list (K * V)) :=
      match invalid_interval_panic_o q_valid q with
      | Panic => (z, Panic)
      | Val _ =>
          let c := upper_bound (exclusive_comp (istart q) Lt) (z_inner z) in
          let c := match cursor_key c with None => move_next c | Some _ => c end in
          zosdit_cut_loop_o k_overlaps q (z_len z) (fst c) (snd c) []
      end.
  End Queries.

  Context (k_valid : K -> bool).

  (** [insert_strict_back]  (/repo/src/zosdit/map.rs:279-323) *)
  Definition insert_strict_back_o (interval : K) (value : V) (z : ZosditMap)
    : ZosditMap * outcome (result unit V) :=
    match invalid_interval_panic_o k_valid interval with
    | Panic => (z, Panic)
    | Val _ =>
        match is_zero_overlap_o k_valid z interval with
        | Panic => (z, Panic)
        | Val false => (z, Val (Err value))
        | Val true =>
            match entry_push interval value [] (z_inner z) with
            | Panic => (z, Panic)
            | Val inner => (mkZosdit (z_len z + 1) inner, Val (Ok tt))
            end
        end
    end.

  (** [from_iter_strict_back]  (/repo/src/zosdit/map.rs:603-611), continued from [z]. *)
  Fixpoint extend_strict_back_o (l : list (K * V)) (z : ZosditMap) : outcome (result ZosditMap V) :=
    match l with
    | [] => Val (Ok z)
    | (interval, value) :: r =>
        match insert_strict_back_o interval value z with
        | (_, Panic) => Panic
        | (_, Val (Err v)) => Val (Err v)
        | (z, Val (Ok _)) => extend_strict_back_o r z
        end
    end.

  (** Calls on a map whose key type has the overrides [k_valid] and
      [k_contains]; a query type brings its own. *)
  Inductive zop_o : Type :=
  | ZONew
  | ZOInsertStrictBack (k : K) (v : V)
  | ZORemoveLast (p : I)
  | ZOCut {Q : Type} `{InclusiveInterval I Q} (q_valid : Q -> bool)
      (k_overlaps_q : K -> Q -> outcome bool) (q : Q)
  | ZOFromIter (l : list (K * V)).

  Definition zstep_o (k_contains : K -> I -> outcome bool) (z : ZosditMap) (o : zop_o) : ZosditMap :=
    match o with
    | ZONew => z_new
    | ZOInsertStrictBack k v => fst (insert_strict_back_o k v z)
    | ZORemoveLast p => fst (remove_last_value_at_point_o k_contains p z)
    | ZOCut q_valid k_overlaps_q q => fst (zosdit_cut_o q_valid k_overlaps_q q z)
    | ZOFromIter l => match extend_strict_back_o l z_new with Val (Ok z') => z' | _ => z end
    end.
  Definition zrun_o (k_contains : K -> I -> outcome bool) (os : list zop_o) : ZosditMap :=
    fold_left (zstep_o k_contains) os z_new.
End OverrideZosdit.
Arguments zop_o : clear implicits.
