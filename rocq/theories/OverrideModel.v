(** * OverrideModel: [NoditMap] over interval types that override the provided
      methods of the trait.  No proofs in this file.

    Only [start] and [end] of the trait [InclusiveInterval] are required
    (/repo/src/interval.rs:383-407); an implementation may replace the bodies
    of the others ([contains_point], [contains_interval], [is_valid],
    [is_singular], [intersection], [overlaps], [translate], [width];
    /repo/src/interval.rs:408-577).  [NoditModel] uses the provided bodies.  Here
    the methods that /repo/src/nodit/map.rs and /repo/src/utils.rs call on a
    type of the user are arguments: [is_valid] (utils.rs:254, nodit/map.rs:543,
    643) and [overlaps] (nodit/map.rs:384, 445); an [overlaps] may panic.  The
    comparators of utils.rs, [config] and [cut_interval] only call [start] and
    [end], and the crate's own [Interval] overrides nothing. *)
From Coq Require Import List Bool.
From Verif Require Import Base BTree UtilsModel IntervalModel NoditModel.
Import ListNotations.

Section Override.
  Context {I : Type} `{Ord I} `{DiscreteFinite I}.
  Context {K : Type} `{InclusiveInterval I K}.
  Context {V : Type}.
  Notation NoditMap := (NoditMap K V).

  (** [invalid_interval_panic]  (/repo/src/utils.rs:249-261) *)
  Definition invalid_interval_panic_o {Q} (is_valid : Q -> bool) (q : Q) : outcome unit :=
    if negb (is_valid q) then Panic else Val tt.

  Section Queries.
    Context {Q : Type} `{InclusiveInterval I Q} (q_valid : Q -> bool).

    (** [NoditMap::overlapping]  (/repo/src/nodit/map.rs:153-168) *)
    Definition overlapping_o (m : NoditMap) (q : Q) : outcome (list (K * V)) :=
      let? _ := invalid_interval_panic_o q_valid q in
      Val (range (overlapping_comp (istart q)) (overlapping_comp (iend q)) m).

    (** [NoditMap::overlaps]  (/repo/src/nodit/map.rs:116-123) *)
    Definition map_overlaps_o (m : NoditMap) (q : Q) : outcome bool :=
      let? _ := invalid_interval_panic_o q_valid q in
      let? l := overlapping_o m q in
      Val (match l with [] => false | _ => true end).

    (** [NoditMap::overlapping_mut]  (/repo/src/nodit/map.rs:199-214) *)
    Definition overlapping_mut_o (f : K -> V -> V) (q : Q) (m : NoditMap) : NoditMap * outcome unit :=
      match invalid_interval_panic_o q_valid q with
      | Panic => (m, Panic)
      | Val _ =>
          (range_mut (overlapping_comp (istart q)) (overlapping_comp (iend q)) f m, Val tt)
      end.

    (** The loop of [remove_overlapping]  (/repo/src/nodit/map.rs:382-387);
        [q_overlaps q k] is [q.overlaps(k)]. *)
    Fixpoint remove_overlapping_loop_o (q_overlaps : Q -> K -> outcome bool) (q : Q) (pre post acc : list (K * V))
      : NoditMap * outcome (list (K * V)) :=
      match post with
      | [] => (pre ++ post, Val acc)
      | (k, v) :: rest =>
          match q_overlaps q k with
          | Panic => (pre ++ post, Panic)
          | Val false => (pre ++ post, Val acc)
          | Val true => remove_overlapping_loop_o q_overlaps q pre rest (acc ++ [(k, v)])
          end
      end.

    (** [NoditMap::remove_overlapping]  (/repo/src/nodit/map.rs:366-390) *)
    Definition remove_overlapping_o (q_overlaps : Q -> K -> outcome bool) (q : Q) (m : NoditMap)
      : NoditMap * outcome (list (K * V)) :=
      match invalid_interval_panic_o q_valid q with
      | Panic => (m, Panic)
      | Val _ =>
          let c := lower_bound (overlapping_comp (istart q)) m in
          remove_overlapping_loop_o q_overlaps q (fst c) (snd c) []
      end.

    (** The loop of [cut]  (/repo/src/nodit/map.rs:444-461); [k_overlaps k q] is
        [k.overlaps(q)]. *)
    Fixpoint cut_loop_o (k_overlaps : K -> Q -> outcome bool) (q : Q) (pre post acc : list (K * V))
      : NoditMap * outcome (list (K * V)) :=
      match post with
      | [] => (pre ++ post, Val acc)
      | (k, v) :: rest =>
          match k_overlaps k q with
          | Panic => (pre ++ post, Panic)
          | Val false => (pre ++ post, Val acc)
          | Val true =>
              match cut_interval k q with
              | Panic => (pre ++ rest, Panic)
              | Val r =>
                  let pre := insert_piece (before_cut r) v pre in
                  let pre := insert_piece (after_cut r) v pre in
                  match inside_cut r with
                  | None => (pre ++ rest, Panic)
                  | Some i => cut_loop_o k_overlaps q pre rest (acc ++ [(ifrom i, v)])
                  end
              end
          end
      end.

    (** [NoditMap::cut]  (/repo/src/nodit/map.rs:430-464) *)
    Definition cut_o (k_overlaps : K -> Q -> outcome bool) (q : Q) (m : NoditMap)
      : NoditMap * outcome (list (K * V)) :=
      match invalid_interval_panic_o q_valid q with
      | Panic => (m, Panic)
      | Val _ =>
          let c := lower_bound (overlapping_comp (istart q)) m in
          cut_loop_o k_overlaps q (fst c) (snd c) []
      end.
  End Queries.

  (** The overrides of the key type itself. *)
  Context (k_valid : K -> bool) (k_overlaps : K -> K -> outcome bool).

  (** [NoditMap::insert_strict]  (/repo/src/nodit/map.rs:714-728) *)
  Definition insert_strict_o (interval : K) (value : V) (m : NoditMap)
    : NoditMap * outcome (result unit V) :=
    match invalid_interval_panic_o k_valid interval with
    | Panic => (m, Panic)
    | Val _ =>
        match map_overlaps_o k_valid m interval with
        | Panic => (m, Panic)
        | Val true => (m, Val (Err value))
        | Val false => (insert_unchecked interval value m, Val (Ok tt))
        end
    end.

  (** [NoditMap::insert_merge_with_comps]  (/repo/src/nodit/map.rs:733-777) *)
  Definition insert_merge_with_comps_o (interval : K) (value : V)
    (get_start get_end : NoditMap -> V -> option K)
    (remove_start remove_end : NoditMap -> V -> NoditMap)
    (m : NoditMap) : NoditMap * outcome K :=
    match invalid_interval_panic_o k_valid interval with
    | Panic => (m, Panic)
    | Val _ =>
        let matching_start := get_start m value in
        let matching_end := get_end m value in
        let returning :=
          match matching_start, matching_end with
          | Some matching_start, Some matching_end =>
              ifrom (mkInterval (istart matching_start) (iend matching_end))
          | Some matching_start, None =>
              ifrom (mkInterval (istart matching_start) (iend interval))
          | None, Some matching_end =>
              ifrom (mkInterval (istart interval) (iend matching_end))
          | None, None => interval
          end in
        match remove_overlapping_o k_valid k_overlaps interval m with
        | (m, Panic) => (m, Panic)
        | (m, Val _) =>
            let m := remove_start m value in
            let m := remove_end m value in
            (insert_unchecked returning value m, Val returning)
        end
    end.

  (** [NoditMap::insert_merge_touching]  (/repo/src/nodit/map.rs:832-867) *)
  Definition insert_merge_touching_o (interval : K) (value : V) (m : NoditMap)
    : NoditMap * outcome (result K V) :=
    match invalid_interval_panic_o k_valid interval with
    | Panic => (m, Panic)
    | Val _ =>
        match map_overlaps_o k_valid m interval with
        | Panic => (m, Panic)
        | Val true => (m, Val (Err value))
        | Val false =>
            let (m, r) :=
              insert_merge_with_comps_o interval value
                (fun m _ => option_map fst (get_key_value (touching_start_comp (istart interval)) m))
                (fun m _ => option_map fst (get_key_value (touching_end_comp (iend interval)) m))
                (fun m _ => fst (remove (touching_start_comp (istart interval)) m))
                (fun m _ => fst (remove (touching_end_comp (iend interval)) m))
                m in
            (m, omap Ok r)
        end
    end.

  (** [NoditMap::insert_merge_touching_if_values_equal]
      (/repo/src/nodit/map.rs:920-971) *)
  Definition insert_merge_touching_if_values_equal_o (veq : V -> V -> bool)
    (interval : K) (value : V) (m : NoditMap) : NoditMap * outcome (result K V) :=
    match invalid_interval_panic_o k_valid interval with
    | Panic => (m, Panic)
    | Val _ =>
        match map_overlaps_o k_valid m interval with
        | Panic => (m, Panic)
        | Val true => (m, Val (Err value))
        | Val false =>
            let get_start := get_if_equal veq (touching_start_comp (istart interval)) in
            let get_end := get_if_equal veq (touching_end_comp (iend interval)) in
            let (m, r) :=
              insert_merge_with_comps_o interval value get_start get_end
                (fun m value => if is_some (get_start m value)
                                then fst (remove (touching_start_comp (istart interval)) m) else m)
                (fun m value => if is_some (get_end m value)
                                then fst (remove (touching_end_comp (iend interval)) m) else m)
                m in
            (m, omap Ok r)
        end
    end.

  (** [NoditMap::insert_merge_overlapping]  (/repo/src/nodit/map.rs:1021-1044) *)
  Definition insert_merge_overlapping_o (interval : K) (value : V) (m : NoditMap)
    : NoditMap * outcome K :=
    match invalid_interval_panic_o k_valid interval with
    | Panic => (m, Panic)
    | Val _ =>
        insert_merge_with_comps_o interval value
          (fun m _ => option_map fst (get_key_value (overlapping_comp (istart interval)) m))
          (fun m _ => option_map fst (get_key_value (overlapping_comp (iend interval)) m))
          (fun m _ => m)
          (fun m _ => m)
          m
    end.

  (** [NoditMap::insert_merge_touching_or_overlapping]
      (/repo/src/nodit/map.rs:1094-1133) *)
  Definition insert_merge_touching_or_overlapping_o (interval : K) (value : V) (m : NoditMap)
    : NoditMap * outcome K :=
    match invalid_interval_panic_o k_valid interval with
    | Panic => (m, Panic)
    | Val _ =>
        insert_merge_with_comps_o interval value
          (fun m _ => option_or
             (option_map fst (get_key_value (touching_start_comp (istart interval)) m))
             (option_map fst (get_key_value (overlapping_comp (istart interval)) m)))
          (fun m _ => option_or
             (option_map fst (get_key_value (touching_end_comp (iend interval)) m))
             (option_map fst (get_key_value (overlapping_comp (iend interval)) m)))
          (fun m _ => fst (remove (touching_start_comp (istart interval)) m))
          (fun m _ => fst (remove (touching_end_comp (iend interval)) m))
          m
    end.

  (** [NoditMap::insert_overwrite]  (/repo/src/nodit/map.rs:1166-1179) *)
  Definition insert_overwrite_o (interval : K) (value : V) (m : NoditMap)
    : NoditMap * outcome (list (K * V)) :=
    match invalid_interval_panic_o k_valid interval with
    | Panic => (m, Panic)
    | Val _ =>
        match cut_o k_valid k_overlaps interval m with
        | (m, Panic) => (m, Panic)
        | (m, Val c) => (insert_unchecked interval value m, Val c)
        end
    end.

  (** The loop of [from_iter_strict]  (/repo/src/nodit/map.rs:1243-1245) *)
  Fixpoint extend_strict_o (l : list (K * V)) (m : NoditMap) : outcome (result NoditMap V) :=
    match l with
    | [] => Val (Ok m)
    | (interval, value) :: r =>
        match insert_strict_o interval value m with
        | (_, Panic) => Panic
        | (_, Val (Err e)) => Val (Err e)
        | (m, Val (Ok _)) => extend_strict_o r m
        end
    end.

  (** [tuple_windows().map(..).filter(|interval| interval.is_valid())]
      (/repo/src/nodit/map.rs:535-543, 635-643): [is_valid] of the key type. *)
  Fixpoint inner_gaps_o (l : list (K * V)) : outcome (list K) :=
    match l with
    | first :: ((second :: _) as r) =>
        let? u := unwrap (up (iend (fst first))) in
        let? d := unwrap (down (istart (fst second))) in
        let g := ifrom (mkInterval u d) : K in
        let? gs := inner_gaps_o r in
        Val (if k_valid g then g :: gs else gs)
    | _ => Val []
    end.

  (** [NoditMap::gaps_untrimmed]  (/repo/src/nodit/map.rs:497-551) *)
  Definition gaps_untrimmed_o {Q} `{InclusiveInterval I Q} (q_valid : Q -> bool) (m : NoditMap) (q : Q)
    : outcome (list K) :=
    let? _ := invalid_interval_panic_o q_valid q in
    let? start_gap := end_gap m (istart q) in
    let? end_gap := end_gap m (iend q) in
    let '(start_gap, end_gap) :=
      match start_gap, end_gap with
      | Some start_gap, Some end_gap =>
          if eqb (ivl_start start_gap) (ivl_start end_gap)
          then (Some start_gap, None)
          else (Some start_gap, Some end_gap)
      | Some start_gap, None => (Some start_gap, None)
      | None, Some end_gap => (None, Some end_gap)
      | None, None => (None, None)
      end in
    let? overlapping := overlapping_o q_valid m q in
    let? inner := inner_gaps_o overlapping in
    Val (opt_list (option_map ifrom start_gap) ++ inner ++ opt_list (option_map ifrom end_gap)).

  (** [NoditMap::gaps_trimmed]  (/repo/src/nodit/map.rs:585-651) *)
  Definition gaps_trimmed_o {Q} `{InclusiveInterval I Q} (q_valid : Q -> bool) (m : NoditMap) (q : Q)
    : outcome (list K) :=
    let? _ := invalid_interval_panic_o q_valid q in
    let? start_gap := end_gap m (istart q) in
    let? end_gap := end_gap m (iend q) in
    let '(trimmed_start_gap, trimmed_end_gap) :=
      match start_gap, end_gap with
      | Some start_gap, Some end_gap =>
          if eqb (ivl_start start_gap) (ivl_start end_gap)
          then (Some (mkInterval (istart q) (iend q)), None)
          else (Some (mkInterval (istart q) (ivl_end start_gap)),
                Some (mkInterval (ivl_start end_gap) (iend q)))
      | Some start_gap, None => (Some (mkInterval (istart q) (ivl_end start_gap)), None)
      | None, Some end_gap => (None, Some (mkInterval (ivl_start end_gap) (iend q)))
      | None, None => (None, None)
      end in
    let? overlapping := overlapping_o q_valid m q in
    let? inner := inner_gaps_o overlapping in
    Val (opt_list (option_map ifrom trimmed_start_gap) ++ inner
         ++ opt_list (option_map ifrom trimmed_end_gap)).
End Override.

(** Calls on a map whose key type has the overrides [k_valid] and [k_overlaps].
    A query interval brings its own type with the overrides of that type:
    [q_valid], its [overlaps] on keys, and the [overlaps] of keys on it. *)
Section OverrideOps.
  Context {I : Type} `{Ord I} `{DiscreteFinite I}.
  Context {K : Type} `{InclusiveInterval I K}.
  Context {V : Type}.

  Inductive op_o : Type :=
  | ONew
  | OInsertStrict (k : K) (v : V)
  | OInsertMergeTouching (k : K) (v : V)
  | OInsertMergeTouchingIfValuesEqual (veq : V -> V -> bool) (k : K) (v : V)
  | OInsertMergeOverlapping (k : K) (v : V)
  | OInsertMergeTouchingOrOverlapping (k : K) (v : V)
  | OInsertOverwrite (k : K) (v : V)
  | ORemoveOverlapping {Q : Type} `{InclusiveInterval I Q} (q_valid : Q -> bool)
      (q_overlaps : Q -> K -> outcome bool) (q : Q)
  | OCut {Q : Type} `{InclusiveInterval I Q} (q_valid : Q -> bool)
      (k_overlaps_q : K -> Q -> outcome bool) (q : Q)
  | OOverlappingMut {Q : Type} `{InclusiveInterval I Q} (q_valid : Q -> bool) (f : K -> V -> V) (q : Q)
  | OGetAtPointMut (f : V -> V) (p : I)
  | OIterMut (f : K -> V -> V)
  | OFromIterStrict (l : list (K * V)).

  Definition step_o (k_valid : K -> bool) (k_overlaps : K -> K -> outcome bool) (m : NoditMap K V) (o : op_o)
    : NoditMap K V :=
    match o with
    | ONew => new
    | OInsertStrict k v => fst (insert_strict_o k_valid k v m)
    | OInsertMergeTouching k v => fst (insert_merge_touching_o k_valid k_overlaps k v m)
    | OInsertMergeTouchingIfValuesEqual veq k v =>
        fst (insert_merge_touching_if_values_equal_o k_valid k_overlaps veq k v m)
    | OInsertMergeOverlapping k v => fst (insert_merge_overlapping_o k_valid k_overlaps k v m)
    | OInsertMergeTouchingOrOverlapping k v =>
        fst (insert_merge_touching_or_overlapping_o k_valid k_overlaps k v m)
    | OInsertOverwrite k v => fst (insert_overwrite_o k_valid k_overlaps k v m)
    | ORemoveOverlapping q_valid q_overlaps q => fst (remove_overlapping_o q_valid q_overlaps q m)
    | OCut q_valid k_overlaps_q q => fst (cut_o q_valid k_overlaps_q q m)
    | OOverlappingMut q_valid f q => fst (overlapping_mut_o q_valid f q m)
    | OGetAtPointMut f p => fst (get_at_point_mut f p m)
    | OIterMut f => iter_mut f m
    | OFromIterStrict l => match extend_strict_o k_valid l new with Val (Ok m') => m' | _ => m end
    end.

  Definition run_o (k_valid : K -> bool) (k_overlaps : K -> K -> outcome bool) (os : list op_o) : NoditMap K V :=
    fold_left (step_o k_valid k_overlaps) os new.
End OverrideOps.
Arguments op_o : clear implicits.
