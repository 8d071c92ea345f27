(** * NoditModel: model of /repo/src/nodit/map.rs.  No proofs in this file. *)
From Coq Require Import List Bool.
From Verif Require Import Base BTree UtilsModel IntervalModel.
Import ListNotations.

Section Nodit.
  Context {I : Type} `{Ord I} `{DiscreteFinite I}.
  Context {K : Type} `{InclusiveInterval I K}.
  Context {V : Type}.

  (** [NoditMap]  (/repo/src/nodit/map.rs:59-62): a newtype around the B-tree
      map (the phantom marker carries no data). *)
  Definition NoditMap : Type := BTreeMap K V.

  (** [NoditMap::new]/[Default]  (/repo/src/nodit/map.rs:1259-1261, 1427-1434) *)
  Definition new : NoditMap := [].
  (** [NoditMap::len]  (/repo/src/nodit/map.rs:1276-1278) *)
  Definition len (m : NoditMap) : nat := length m.
  (** [NoditMap::is_empty]  (/repo/src/nodit/map.rs:1294-1296) *)
  Definition is_empty (m : NoditMap) : bool := match m with [] => true | _ => false end.
  (** [NoditMap::iter] and [into_iter]  (/repo/src/nodit/map.rs:1320-1322, 1398-1425) *)
  Definition iter (m : NoditMap) : list (K * V) := m.
  Definition into_iter (m : NoditMap) : list (K * V) := m.
  (** [NoditMap::iter_mut], the caller mapping every value by [f]
      (/repo/src/nodit/map.rs:1347-1351) *)
  Definition iter_mut (f : K -> V -> V) (m : NoditMap) : NoditMap := map_values f m.
  (** [NoditMap::first_key_value]  (/repo/src/nodit/map.rs:1369-1371) *)
  Definition first_key_value (m : NoditMap) : option (K * V) := bt_first m.
  (** [NoditMap::last_key_value]  (/repo/src/nodit/map.rs:1391-1393) *)
  Definition last_key_value (m : NoditMap) : option (K * V) := bt_last m.

  Section Queries.
    Context {Q : Type} `{InclusiveInterval I Q}.

    (** [NoditMap::overlapping]  (/repo/src/nodit/map.rs:153-168) *)
    Definition overlapping (m : NoditMap) (q : Q) : outcome (list (K * V)) :=
      let? _ := invalid_interval_panic q in
      Val (range (overlapping_comp (istart q)) (overlapping_comp (iend q)) m).

    (** [NoditMap::overlaps]  (/repo/src/nodit/map.rs:116-123) *)
    Definition map_overlaps (m : NoditMap) (q : Q) : outcome bool :=
      let? _ := invalid_interval_panic q in
      let? l := overlapping m q in
      Val (match l with [] => false | _ => true end).

    (** [NoditMap::overlapping_mut], the caller mapping every visited value by
        [f]  (/repo/src/nodit/map.rs:199-214) *)
    Definition overlapping_mut (f : K -> V -> V) (q : Q) (m : NoditMap) : NoditMap * outcome unit :=
      match invalid_interval_panic q with
      | Panic => (m, Panic)
      | Val _ =>
          (range_mut (overlapping_comp (istart q)) (overlapping_comp (iend q)) f m, Val tt)
      end.
  End Queries.

  (** [NoditMap::get_gap_at_raw]  (/repo/src/nodit/map.rs:315-331) *)
  Definition get_gap_at_raw (m : NoditMap) (point : I) : outcome (Interval I) :=
    let lower := upper_bound (overlapping_comp point) m in
    let upper := lower_bound (overlapping_comp point) m in
    let? s := match cursor_key lower with
              | None => Val MIN
              | Some lower => unwrap (up (iend lower))
              end in
    let? e := match cursor_key upper with
              | None => Val MAX
              | Some upper => unwrap (down (istart upper))
              end in
    Val (mkInterval s e).

  (** [NoditMap::get_key_value_at_point]  (/repo/src/nodit/map.rs:310-314) *)
  Definition get_key_value_at_point (m : NoditMap) (point : I) : outcome (result (K * V) K) :=
    match get_key_value (overlapping_comp point) m with
    | Some kv => Val (Ok kv)
    | None => let? g := get_gap_at_raw m point in Val (Err (ifrom g))
    end.

  (** [NoditMap::get_at_point]  (/repo/src/nodit/map.rs:235-239) *)
  Definition get_at_point (m : NoditMap) (point : I) : outcome (option V) :=
    let? r := get_key_value_at_point m point in
    Val (match r with Ok (_, value) => Some value | Err _ => None end).

  (** [NoditMap::get_at_point_mut], the caller applying [f] through the returned
      reference  (/repo/src/nodit/map.rs:257-259).  The second component is the
      value the reference points at before the caller writes. *)
  Definition get_at_point_mut (f : V -> V) (point : I) (m : NoditMap) : NoditMap * option V :=
    get_mut (overlapping_comp point) f m.

  (** [NoditMap::contains_point]  (/repo/src/nodit/map.rs:280-282) *)
  Definition map_contains_point (m : NoditMap) (point : I) : outcome bool :=
    let? r := get_key_value_at_point m point in
    Val (match r with Ok _ => true | Err _ => false end).

  Section Removal.
    Context {Q : Type} `{InclusiveInterval I Q}.

    (** The loop of [remove_overlapping]  (/repo/src/nodit/map.rs:382-387).
        [(pre, post)] is the cursor, [acc] is [result]. *)
    Fixpoint remove_overlapping_loop (q : Q) (pre post acc : list (K * V))
      : NoditMap * outcome (list (K * V)) :=
      match post with
      | [] => (pre ++ post, Val acc)
      | (k, v) :: rest =>
          match overlaps q k with
          | Panic => (pre ++ post, Panic)
          | Val false => (pre ++ post, Val acc)
          | Val true => remove_overlapping_loop q pre rest (acc ++ [(k, v)])
          end
      end.

    (** [NoditMap::remove_overlapping]  (/repo/src/nodit/map.rs:366-390) *)
    Definition remove_overlapping (q : Q) (m : NoditMap) : NoditMap * outcome (list (K * V)) :=
      match invalid_interval_panic q with
      | Panic => (m, Panic)
      | Val _ =>
          let c := lower_bound (overlapping_comp (istart q)) m in
          remove_overlapping_loop q (fst c) (snd c) []
      end.

    (** [cursor.insert_before] of an optional piece.
        (/repo/src/nodit/map.rs:453-458) *)
    Definition insert_piece (p : option (Interval I)) (v : V) (pre : list (K * V)) : list (K * V) :=
      match p with
      | Some i => pre ++ [(ifrom i, v)]
      | None => pre
      end.

    (** The loop of [cut]  (/repo/src/nodit/map.rs:444-461).  [V::clone] is the
        identity. *)
    Fixpoint cut_loop (q : Q) (pre post acc : list (K * V)) : NoditMap * outcome (list (K * V)) :=
      match post with
      | [] => (pre ++ post, Val acc)
      | (k, v) :: rest =>
          match overlaps k q with
          | Panic => (pre ++ post, Panic)
          | Val false => (pre ++ post, Val acc)
          | Val true =>
              match cut_interval k q with
              | Panic => (pre ++ rest, Panic)
              | Val r =>
                  let pre := insert_piece (before_cut r) v pre in
                  let pre := insert_piece (after_cut r) v pre in
                  match inside_cut r with
                  | None => (pre ++ rest, Panic)
                  | Some i => cut_loop q pre rest (acc ++ [(ifrom i, v)])
                  end
              end
          end
      end.

    (** [NoditMap::cut]  (/repo/src/nodit/map.rs:430-464) *)
    Definition cut (q : Q) (m : NoditMap) : NoditMap * outcome (list (K * V)) :=
      match invalid_interval_panic q with
      | Panic => (m, Panic)
      | Val _ =>
          let c := lower_bound (overlapping_comp (istart q)) m in
          cut_loop q (fst c) (snd c) []
      end.
  End Removal.

  Section Gaps.
    Context {Q : Type} `{InclusiveInterval I Q}.

    (** [(!contains_key(..)).then(|| self.get_gap_at_raw(..))]
        (/repo/src/nodit/map.rs:509-514, 597-602) *)
    Definition end_gap (m : NoditMap) (point : I) : outcome (option (Interval I)) :=
      if negb (contains_key (overlapping_comp point) m)
      then omap Some (get_gap_at_raw m point)
      else Val None.

    (** [overlapping.tuple_windows().map(..).filter(|i| i.is_valid())]
        (/repo/src/nodit/map.rs:531-543, 631-643).  The iterator is lazy in the
        code; the model computes it at once. *)
    Fixpoint inner_gaps (l : list (K * V)) : outcome (list K) :=
      match l with
      | first :: ((second :: _) as r) =>
          let? u := unwrap (up (iend (fst first))) in
          let? d := unwrap (down (istart (fst second))) in
          let g := ifrom (mkInterval u d) : K in
          let? gs := inner_gaps r in
          Val (if is_valid g then g :: gs else gs)
      | _ => Val []
      end.

    Definition opt_list {A} (o : option A) : list A :=
      match o with Some a => [a] | None => [] end.

    (** [NoditMap::gaps_untrimmed]  (/repo/src/nodit/map.rs:497-551) *)
    Definition gaps_untrimmed (m : NoditMap) (q : Q) : outcome (list K) :=
      let? _ := invalid_interval_panic q in
      let? start_gap := end_gap m (istart q) in
      let? end_gap := end_gap m (iend q) in
      let '(start_gap, end_gap) :=
        match start_gap, end_gap with
        | Some start_gap, Some end_gap =>
            if eqb (ivl_start start_gap) (ivl_start end_gap)
            then (Some start_gap, None)
            else (Some start_gap, Some end_gap)
        | Some start_gap, None => (Some start_gap, None)
        | None, Some end_gap => (None, Some end_gap)
        | None, None => (None, None)
        end in
      let? overlapping := overlapping m q in
      let? inner := inner_gaps overlapping in
      Val (opt_list (option_map ifrom start_gap) ++ inner ++ opt_list (option_map ifrom end_gap)).

    (** [NoditMap::gaps_trimmed]  (/repo/src/nodit/map.rs:585-651) *)
    Definition gaps_trimmed (m : NoditMap) (q : Q) : outcome (list K) :=
      let? _ := invalid_interval_panic q in
      let? start_gap := end_gap m (istart q) in
      let? end_gap := end_gap m (iend q) in
      let '(trimmed_start_gap, trimmed_end_gap) :=
        match start_gap, end_gap with
        | Some start_gap, Some end_gap =>
            if eqb (ivl_start start_gap) (ivl_start end_gap)
            then (Some (mkInterval (istart q) (iend q)), None)
            else (Some (mkInterval (istart q) (ivl_end start_gap)),
                  Some (mkInterval (ivl_start end_gap) (iend q)))
        | Some start_gap, None => (Some (mkInterval (istart q) (ivl_end start_gap)), None)
        | None, Some end_gap => (None, Some (mkInterval (ivl_start end_gap) (iend q)))
        | None, None => (None, None)
        end in
      let? overlapping := overlapping m q in
      let? inner := inner_gaps overlapping in
      Val (opt_list (option_map ifrom trimmed_start_gap) ++ inner
           ++ opt_list (option_map ifrom trimmed_end_gap)).

    (** [NoditMap::contains_interval]  (/repo/src/nodit/map.rs:678-686) *)
    Definition map_contains_interval (m : NoditMap) (q : Q) : outcome bool :=
      let? _ := invalid_interval_panic q in
      let? g := gaps_untrimmed m q in
      Val (match g with [] => true | _ => false end).
  End Gaps.

  (** ** Insertions *)

  (** [NoditMap::insert_unchecked]  (/repo/src/nodit/map.rs:729-731) *)
  Definition insert_unchecked (interval : K) (value : V) (m : NoditMap) : NoditMap :=
    fst (insert interval value starts_comp m).

  (** [NoditMap::insert_strict]  (/repo/src/nodit/map.rs:714-728).
      [OverlapError { value }] is modelled by the value it carries. *)
  Definition insert_strict (interval : K) (value : V) (m : NoditMap)
    : NoditMap * outcome (result unit V) :=
    match invalid_interval_panic interval with
    | Panic => (m, Panic)
    | Val _ =>
        match map_overlaps m interval with
        | Panic => (m, Panic)
        | Val true => (m, Val (Err value))
        | Val false => (insert_unchecked interval value m, Val (Ok tt))
        end
    end.

  (** [NoditMap::insert_merge_with_comps]  (/repo/src/nodit/map.rs:733-777).
      The result of [remove_overlapping] is dropped; a panic of it propagates. *)
  Definition insert_merge_with_comps (interval : K) (value : V)
    (get_start get_end : NoditMap -> V -> option K)
    (remove_start remove_end : NoditMap -> V -> NoditMap)
    (m : NoditMap) : NoditMap * outcome K :=
    match invalid_interval_panic interval with
    | Panic => (m, Panic)
    | Val _ =>
        let matching_start := get_start m value in
        let matching_end := get_end m value in
        let returning :=
          match matching_start, matching_end with
          | Some matching_start, Some matching_end =>
              ifrom (mkInterval (istart matching_start) (iend matching_end))
          | Some matching_start, None =>
              ifrom (mkInterval (istart matching_start) (iend interval))
          | None, Some matching_end =>
              ifrom (mkInterval (istart interval) (iend matching_end))
          | None, None => interval
          end in
        match remove_overlapping interval m with
        | (m, Panic) => (m, Panic)
        | (m, Val _) =>
            let m := remove_start m value in
            let m := remove_end m value in
            (insert_unchecked returning value m, Val returning)
        end
    end.

  (** [NoditMap::insert_merge_touching]  (/repo/src/nodit/map.rs:832-867) *)
  Definition insert_merge_touching (interval : K) (value : V) (m : NoditMap)
    : NoditMap * outcome (result K V) :=
    match invalid_interval_panic interval with
    | Panic => (m, Panic)
    | Val _ =>
        match map_overlaps m interval with
        | Panic => (m, Panic)
        | Val true => (m, Val (Err value))
        | Val false =>
            let (m, r) :=
              insert_merge_with_comps interval value
                (fun m _ => option_map fst (get_key_value (touching_start_comp (istart interval)) m))
                (fun m _ => option_map fst (get_key_value (touching_end_comp (iend interval)) m))
                (fun m _ => fst (remove (touching_start_comp (istart interval)) m))
                (fun m _ => fst (remove (touching_end_comp (iend interval)) m))
                m in
            (m, omap Ok r)
        end
    end.

  (** The closures [get_start] and [get_end] of
      [insert_merge_touching_if_values_equal]  (/repo/src/nodit/map.rs:934-953);
      [veq] is [V]'s [PartialEq]. *)
  Definition get_if_equal (veq : V -> V -> bool) (comp : K -> comparison) (m : NoditMap) (value : V)
    : option K :=
    match get_key_value comp m with
    | Some (k, v) => if veq v value then Some k else None
    | None => None
    end.

  (** [NoditMap::insert_merge_touching_if_values_equal]
      (/repo/src/nodit/map.rs:920-971) *)
  Definition insert_merge_touching_if_values_equal (veq : V -> V -> bool)
    (interval : K) (value : V) (m : NoditMap) : NoditMap * outcome (result K V) :=
    match invalid_interval_panic interval with
    | Panic => (m, Panic)
    | Val _ =>
        match map_overlaps m interval with
        | Panic => (m, Panic)
        | Val true => (m, Val (Err value))
        | Val false =>
            let get_start := get_if_equal veq (touching_start_comp (istart interval)) in
            let get_end := get_if_equal veq (touching_end_comp (iend interval)) in
            let (m, r) :=
              insert_merge_with_comps interval value get_start get_end
                (fun m value => if is_some (get_start m value)
                                then fst (remove (touching_start_comp (istart interval)) m) else m)
                (fun m value => if is_some (get_end m value)
                                then fst (remove (touching_end_comp (iend interval)) m) else m)
                m in
            (m, omap Ok r)
        end
    end.

  (** [NoditMap::insert_merge_overlapping]  (/repo/src/nodit/map.rs:1021-1044) *)
  Definition insert_merge_overlapping (interval : K) (value : V) (m : NoditMap)
    : NoditMap * outcome K :=
    match invalid_interval_panic interval with
    | Panic => (m, Panic)
    | Val _ =>
        insert_merge_with_comps interval value
          (fun m _ => option_map fst (get_key_value (overlapping_comp (istart interval)) m))
          (fun m _ => option_map fst (get_key_value (overlapping_comp (iend interval)) m))
          (fun m _ => m)
          (fun m _ => m)
          m
    end.

  (** [Option::or]
      (used at /repo/src/nodit/map.rs:1109, 1120) *)
  Definition option_or {A} (a b : option A) : option A :=
    match a with Some _ => a | None => b end.

  (** [NoditMap::insert_merge_touching_or_overlapping]
      (/repo/src/nodit/map.rs:1094-1133) *)
  Definition insert_merge_touching_or_overlapping (interval : K) (value : V) (m : NoditMap)
    : NoditMap * outcome K :=
    match invalid_interval_panic interval with
    | Panic => (m, Panic)
    | Val _ =>
        insert_merge_with_comps interval value
          (fun m _ => option_or
             (option_map fst (get_key_value (touching_start_comp (istart interval)) m))
             (option_map fst (get_key_value (overlapping_comp (istart interval)) m)))
          (fun m _ => option_or
             (option_map fst (get_key_value (touching_end_comp (iend interval)) m))
             (option_map fst (get_key_value (overlapping_comp (iend interval)) m)))
          (fun m _ => fst (remove (touching_start_comp (istart interval)) m))
          (fun m _ => fst (remove (touching_end_comp (iend interval)) m))
          m
    end.

  (** [NoditMap::insert_overwrite]  (/repo/src/nodit/map.rs:1166-1179) *)
  Definition insert_overwrite (interval : K) (value : V) (m : NoditMap)
    : NoditMap * outcome (list (K * V)) :=
    match invalid_interval_panic interval with
    | Panic => (m, Panic)
    | Val _ =>
        match cut interval m with
        | (m, Panic) => (m, Panic)
        | (m, Val c) => (insert_unchecked interval value m, Val c)
        end
    end.

  (** The loop of [from_iter_strict]  (/repo/src/nodit/map.rs:1243-1245); the
      [?] operator returns the first error. *)
  Fixpoint extend_strict (l : list (K * V)) (m : NoditMap) : outcome (result NoditMap V) :=
    match l with
    | [] => Val (Ok m)
    | (interval, value) :: r =>
        match insert_strict interval value m with
        | (_, Panic) => Panic
        | (_, Val (Err e)) => Val (Err e)
        | (m, Val (Ok _)) => extend_strict r m
        end
    end.

  (** [NoditMap::from_iter_strict]  (/repo/src/nodit/map.rs:1239-1247) *)
  Definition from_iter_strict (l : list (K * V)) : outcome (result NoditMap V) :=
    extend_strict l new.
  (** [NoditMap::from_slice_strict]  (/repo/src/nodit/map.rs:1206-1210) *)
  Definition from_slice_strict (l : list (K * V)) : outcome (result NoditMap V) :=
    from_iter_strict l.

  (** ** serde  (/repo/src/nodit/map.rs:1436-1514)

      A serde sequence is modelled by the length announced to [serialize_seq]
      and the elements, each element being the pair of an interval and a value
      (their own encoding is not modelled).  [visit_seq] receives the elements
      one at a time; an element that fails to parse is [None] and aborts with
      the deserializer's error. *)
  Inductive de_error := DeElement | DeOverlap.

  (** [Serialize for NoditMap]  (/repo/src/nodit/map.rs:1446-1461) *)
  Definition serialize (m : NoditMap) : nat * list (K * V) := (len m, iter m).

  (** [NoditMapVisitor::visit_seq]  (/repo/src/nodit/map.rs:1502-1512) *)
  Fixpoint visit_seq (access : list (option (K * V))) (m : NoditMap)
    : outcome (result NoditMap de_error) :=
    match access with
    | [] => Val (Ok m)
    | None :: _ => Val (Err DeElement)
    | Some (interval, value) :: rest =>
        match insert_strict interval value m with
        | (_, Panic) => Panic
        | (_, Val (Err _)) => Val (Err DeOverlap)
        | (m, Val (Ok _)) => visit_seq rest m
        end
    end.

  (** [Deserialize for NoditMap]  (/repo/src/nodit/map.rs:1463-1479) *)
  Definition deserialize (access : list (option (K * V))) : outcome (result NoditMap de_error) :=
    visit_seq access new.
End Nodit.
Arguments NoditMap : clear implicits.
