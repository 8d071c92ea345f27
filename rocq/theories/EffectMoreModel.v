(** * EffectMoreModel: the default methods of [InclusiveInterval], the constructors, the rest of
      [NoditMap] and [NoditSet] with user code that may do anything (see [EffectModel]).  No
      proofs in this file. *)
From Coq Require Import List Bool Arith.
From Verif Require Import Base BTree UtilsModel IntervalModel NoditModel NoditSetModel TreeShape EffectModel EffectGqditModel EffectBulkModel.
Import ListNotations.

(** ** interval.rs *)
Section Interval.
  Context {W I : Type} (P : point_code W I).
  (** An interval type that only implements [start] and [end]: [is_valid] is the default
      (/repo/src/interval.rs:463-468) *)
  Definition default_valid_e {X} (start end_ : X -> user W I) (x : X) : user W bool :=
    do! s := start x in do! e := end_ x in e_le P s e.
  Definition default_code {X} (start end_ : X -> user W I) : interval_code W I X :=
    {| e_start := start; e_end := end_; e_valid := default_valid_e start end_ |}.
  Section Methods.
    Context {A B : Type} (ia : interval_code W I A) (ib : interval_code W I B).
    (** [contains_point]  (/repo/src/interval.rs:421-426) *)
    Definition default_contains_point_e (a : A) (point : I) : user W bool :=
      do! s := e_start ia a in
      do! b := e_ge P point s in
      if b then do! e := e_end ia a in e_le P point e else uret false.
    (** [contains_interval]  (/repo/src/interval.rs:442-448) *)
    Definition default_contains_interval_e (a : A) (b : B) : user W bool :=
      do! s := e_start ia a in
      do! s' := e_start ib b in
      do! x := e_le P s s' in
      if x then do! e := e_end ia a in do! e' := e_end ib b in e_ge P e e' else uret false.
    (** [is_singular]  (/repo/src/interval.rs:481-486) *)
    Definition default_is_singular_e (a : A) : user W bool :=
      do! s := e_start ia a in do! e := e_end ia a in e_eq P s e.
    (** [intersection]  (/repo/src/interval.rs:498-514); [max] and [min] are the methods of
        [Ord], [from] is [Self::from] *)
    Definition default_intersection_e (max min : I -> I -> user W I) (from : Interval I -> user W A) (a : A) (b : B) : user W (option A) :=
      do! s := e_start ia a in
      do! s' := e_start ib b in
      do! intersect_start := max s s' in
      do! e := e_end ia a in
      do! e' := e_end ib b in
      do! intersect_end := min e e' in
      do! x := e_le P intersect_start intersect_end in
      if x then do! k := from (mkInterval intersect_start intersect_end) in uret (Some k) else uret None.
    (** [overlaps] and [sorted_config]  (/repo/src/interval.rs:526-535, /repo/src/utils.rs:51-78) *)
    Definition sorted_config_e (a : A) (b : B) : user W (SortedConfig I) :=
      do! s := e_start ia a in
      do! e := e_end ia a in
      do! s' := e_start ib b in
      do! e' := e_end ib b in
      do! c := config_e P ia ib a b in
      let ae := mkInterval s e in
      let be := mkInterval s' e' in
      uret match c with
           | LeftFirstNonOverlapping => NonOverlapping ae be
           | LeftFirstPartialOverlap => Swallowed ae be
           | LeftContainsRight => Swallowed ae be
           | RightFirstNonOverlapping => NonOverlapping be ae
           | RightFirstPartialOverlap => PartialOverlap be ae
           | RightContainsLeft => Swallowed be ae
           end.
    Definition default_overlaps_e (a : A) (b : B) : user W bool :=
      do! c := sorted_config_e a b in uret (match c with NonOverlapping _ _ => false | _ => true end).
    (** [translate]  (/repo/src/interval.rs:547-557) *)
    Definition default_translate_e (add : I -> I -> user W I) (from : Interval I -> user W A) (a : A) (delta : I) : user W A :=
      do! s := e_start ia a in
      do! s := add s delta in
      do! e := e_end ia a in
      do! e := add e delta in
      from (mkInterval s e).
    (** [width]  (/repo/src/interval.rs:571-577) *)
    Definition default_width_e (sub : I -> I -> user W I) (a : A) : user W I :=
      do! e := e_end ia a in do! s := e_start ia a in sub e s.
  End Methods.

  (** The constructors; [ii] is [ii_e]; [MIN] and [MAX] are constants. *)
  Context `{DiscreteFinite I}.
  Definition up_e (x : I) : user W I := do! u := e_up P x in uout (unwrap u).
  Definition down_e (x : I) : user W I := do! d := e_down P x in uout (unwrap d).
  (** /repo/src/interval.rs:145-157, 174-183, 229-238 *)
  Definition uu_e : user W (Interval I) := ii_e P MIN MAX.
  Definition ui_e (end_ : I) : user W (Interval I) := ii_e P MIN end_.
  Definition iu_e (start : I) : user W (Interval I) := ii_e P start MAX.
  (** /repo/src/interval.rs:200-212 *)
  Definition ue_e (end_ : I) : user W (Interval I) := do! d := down_e end_ in ii_e P MIN d.
  (** /repo/src/interval.rs:255-267 *)
  Definition eu_e (start : I) : user W (Interval I) := do! u := up_e start in ii_e P u MAX.
  (** /repo/src/interval.rs:310-322 *)
  Definition ie_e (start end_ : I) : user W (Interval I) := do! d := down_e end_ in ii_e P start d.
  (** /repo/src/interval.rs:339-351 *)
  Definition ei_e (start end_ : I) : user W (Interval I) := do! u := up_e start in ii_e P u end_.
  (** /repo/src/interval.rs:368-380 *)
  Definition ee_e (start end_ : I) : user W (Interval I) := do! u := up_e start in do! d := down_e end_ in ii_e P u d.
  (** [From<RangeInclusive>], [From<Interval> for Range], [From<Range>]
      (/repo/src/interval.rs:103-126) *)
  Definition interval_from_range_inclusive_e (r : RangeInclusive I) : user W (Interval I) := ii_e P (ri_start r) (ri_end r).
  Definition range_from_e (i : Interval I) : user W (Range I) := do! u := up_e (ivl_end i) in uret (mkRange (ivl_start i) u).
  Definition interval_from_range_e (r : Range I) : user W (Interval I) := ie_e (r_start r) (r_end r).
End Interval.

(** ** The rest of nodit/map.rs *)
Section Map.
  Context {W I K V : Type} (P : point_code W I) `{DiscreteFinite I} (ik : interval_code W I K) (C : entry_code W I K V).
  (** [get_at_point] and [contains_point]  (/repo/src/nodit/map.rs:235-239, 280-282) *)
  Definition get_at_point_e (t : tree K V) (point : I) : user W (option V) :=
    do! r := get_key_value_at_point_e P ik C t point in
    uret (match r with Ok (_, value) => Some value | Err _ => None end).
  Definition map_contains_point_e (t : tree K V) (point : I) : user W bool :=
    do! r := get_key_value_at_point_e P ik C t point in
    uret (match r with Ok _ => true | Err _ => false end).

  (** [gaps_untrimmed(..).next()]: the gaps between the entries are looked at until one is
      found  (/repo/src/nodit/map.rs:531-543, 685) *)
  Fixpoint any_window_e (first : I * I) (l : list (K * V)) : user W bool :=
    match l with
    | [] => uret false
    | e :: r =>
        do! second := bounds_e ik (fst e) in
        do! u := up_e P (snd first) in
        do! d := down_e P (fst second) in
        do! g := e_from C (mkInterval u d) in
        do! b := e_valid ik g in
        if b then uret true else any_window_e second r
    end.
  Definition any_inner_gap_e (l : list (K * V)) : user W bool :=
    match l with [] => uret false | e :: r => do! first := bounds_e ik (fst e) in any_window_e first r end.
  (** [contains_interval]  (/repo/src/nodit/map.rs:678-686, 497-551) *)
  Definition map_contains_interval_e {Q} (iq : interval_code W I Q) (t : tree K V) (q : Q) : user W bool :=
    do! _ := invalid_interval_panic_e iq q in
    do! _ := invalid_interval_panic_e iq q in
    do! start_gap := end_gap_e P ik t (e_start iq q) in
    do! end_gap := end_gap_e P ik t (e_end iq q) in
    do! end_gap :=
      match start_gap, end_gap with
      | Some start_gap, Some end_gap =>
          do! same := e_eq P (ivl_start start_gap) (ivl_start end_gap) in
          uret (if same then None else Some end_gap)
      | _, _ => uret end_gap
      end in
    do! overlapping := overlapping_e P ik iq t q in
    do! start_gap := from_e C start_gap in
    do! end_gap := from_e C end_gap in
    match start_gap with
    | _ :: _ => uret false
    | [] => do! b := any_inner_gap_e overlapping in
            uret (if b then false else match end_gap with [] => true | _ :: _ => false end)
    end.

  (** What the caller does with a [&mut V]: the value left behind, also when it panics. *)
  Definition edit : Type := K -> V -> W -> (V * outcome unit) * W.
  (** The caller's loop over an iterator of [&mut V]s: [pre] is behind it. *)
  Fixpoint edit_all (f : edit) (pre l post : list (K * V)) : changing W K V unit :=
    match l with
    | [] => mret (pre ++ post) (Val tt)
    | (k, v) :: l => fun w =>
        match f k v w with
        | ((v, Val _), w) => edit_all f (pre ++ [(k, v)]) l post w
        | ((v, Panic), w) => ((pre ++ (k, v) :: l ++ post, Panic), w)
        end
    end.
  (** [iter_mut]  (/repo/src/nodit/map.rs:1347-1351) *)
  Definition iter_mut_e (f : edit) (m : NoditMap K V) : changing W K V unit := edit_all f [] m [].
  (** [overlapping_mut]  (/repo/src/nodit/map.rs:199-214) *)
  Definition overlapping_mut_e {Q} (iq : interval_code W I Q) (f : edit) (q : Q) (t : tree K V) : changing W K V unit :=
    mbind (entries t) (invalid_interval_panic_e iq q) (fun _ =>
    mbind (entries t) (e_start iq q) (fun s =>
    mbind (entries t) (e_end iq q) (fun e =>
    mbind (entries t) (e_search (overlapping_comp_e P ik s) t) (fun '(a, _, _) =>
    mbind (entries t) (e_search (overlapping_comp_e P ik e) t) (fun '(a', x', _) =>
    let lower := length a in
    let upper := length a' + (if is_some x' then 1 else 0) in
    edit_all f (firstn lower (entries t)) (skipn lower (firstn upper (entries t))) (skipn (Nat.max lower upper) (entries t))))))).
  (** [get_at_point_mut]  (/repo/src/nodit/map.rs:257-259): the value before the caller changed it *)
  Definition get_at_point_mut_e (f : edit) (point : I) (t : tree K V) : changing W K V (option V) :=
    mbind (entries t) (e_search (overlapping_comp_e P ik point) t) (fun '(a, x, b) =>
    match x with
    | Some (k, v) => mthen (edit_all f a [(k, v)] b) (fun m _ => mret m (Val (Some v)))
    | None => mret (entries t) (Val None)
    end).
End Map.

(** ** nodit/set.rs *)
Section Set_.
  Context {W I K : Type} (P : point_code W I) `{DiscreteFinite I} (ik : interval_code W I K) (from : Interval I -> user W K).
  (** The values are [()]: cloning and comparing them runs no user code. *)
  Definition unit_code : entry_code W I K unit := {| e_from := from; e_clone := fun v => uret v; e_veq := fun _ _ => uret true |}.
  Implicit Type t : tree K unit.
  Section Queries.
    Context {Q : Type} (iq : interval_code W I Q).
    (** /repo/src/nodit/set.rs:33-48 *)
    Definition set_overlaps_e t (q : Q) : user W bool := map_overlaps_e P ik iq t q.
    Definition set_overlapping_e t (q : Q) : user W (list K) := do! l := overlapping_e P ik iq t q in uret (map first l).
    (** /repo/src/nodit/set.rs:75-100 *)
    Definition set_gaps_untrimmed_e t (q : Q) : user W (list K) := gaps_untrimmed_e P ik unit_code iq t q.
    Definition set_gaps_trimmed_e t (q : Q) : user W (list K) := gaps_trimmed_e P ik unit_code iq t q.
    Definition set_contains_interval_e t (q : Q) : user W bool := map_contains_interval_e P ik unit_code iq t q.
    (** /repo/src/nodit/set.rs:58-73 *)
    Definition set_remove_overlapping_e (q_overlaps : Q -> K -> user W bool) (q : Q) t : changing W K unit (list K) :=
      mthen (remove_overlapping_e P ik iq q_overlaps q t) (fun s l => mret s (Val (map first l))).
    Definition set_cut_e (k_overlaps : K -> Q -> user W bool) (q : Q) t : changing W K unit (list K) :=
      mthen (cut_e P ik unit_code iq k_overlaps q t) (fun s l => mret s (Val (map first l))).
  End Queries.
  (** /repo/src/nodit/set.rs:50-56 *)
  Definition set_get_at_point_e t (point : I) : user W (result K K) :=
    do! r := get_key_value_at_point_e P ik unit_code t point in
    uret (match r with Ok kv => Ok (first kv) | Err g => Err g end).
  Definition set_contains_point_e t (point : I) : user W bool := map_contains_point_e P ik unit_code t point.

  (** /repo/src/nodit/set.rs:102-127 *)
  Context (overlaps_k : K -> K -> user W bool) (T : nat -> BTreeMap K unit -> tree K unit).
  Definition set_insert_strict_e (interval : K) (s : NoditSet K) : changing W K unit (result unit unit) :=
    insert_strict_e P ik T interval tt s.
  Definition set_insert_merge_touching_e (interval : K) (s : NoditSet K) : changing W K unit (result K unit) :=
    insert_merge_touching_e P ik unit_code overlaps_k T interval tt s.
  Definition set_insert_merge_overlapping_e (interval : K) (s : NoditSet K) : changing W K unit K :=
    insert_merge_overlapping_e P ik unit_code overlaps_k T interval tt s.
  Definition set_insert_merge_touching_or_overlapping_e (interval : K) (s : NoditSet K) : changing W K unit K :=
    insert_merge_touching_or_overlapping_e P ik unit_code overlaps_k T interval tt s.
  Definition set_insert_overwrite_e (interval : K) (s : NoditSet K) : changing W K unit (list K) :=
    mthen (insert_overwrite_e P ik unit_code overlaps_k T interval tt s) (fun s l => mret s (Val (map first l))).
End Set_.

Section SetBulk.
  Context {W I K : Type} (P : point_code W I) (ik : interval_code W I K).
  (** An element of the set as an entry of the map in it. *)
  Definition as_entry {E} (next : user W (result (option K) E)) : user W (result (option (K * unit)) E) :=
    do! x := next in uret (match x with Ok (Some k) => Ok (Some (k, tt)) | Ok None => Ok None | Err e => Err e end).
  (** [from_iter_strict]; [from_slice_strict] is that with a source that runs no user code
      (/repo/src/nodit/set.rs:129-147) *)
  Definition set_from_iter_strict_e (T : nat -> nat -> BTreeMap K unit -> tree K unit) (next : user W (option K)) (fuel : nat)
    : W -> loaded (NoditSet K) unit * list (K * unit) * W :=
    load_e (as_entry (do! x := next in uret (Ok x))) (fun i k _ s => set_insert_strict_e P ik (T i) k s) fuel 0 set_new.
  (** [.map_err(|_| custom(..))]: the error is only made if there is one
      (/repo/src/nodit/set.rs:292-294) *)
  Definition map_err_custom {M E} (custom : user W E) (x : (M * outcome (result unit unit)) * W) : (M * outcome (result unit E)) * W :=
    match x with
    | ((m, Panic), w) => ((m, Panic), w)
    | ((m, Val (Ok u)), w) => ((m, Val (Ok u)), w)
    | ((m, Val (Err _)), w) =>
        match custom w with
        | (Panic, w) => ((m, Panic), w)
        | (Val e, w) => ((m, Val (Err e)), w)
        end
    end.
  (** [visit_seq]  (/repo/src/nodit/set.rs:286-297) *)
  Definition set_visit_seq_e {E} (T : nat -> nat -> BTreeMap K unit -> tree K unit) (custom : user W E) (next : user W (result (option K) E)) (fuel : nat)
    : W -> loaded (NoditSet K) E * list (K * unit) * W :=
    load_e (as_entry next) (fun i k _ s w => map_err_custom custom (set_insert_strict_e P ik (T i) k s w)) fuel 0 set_new.
  (** [serialize]  (/repo/src/nodit/set.rs:235-249) *)
  Definition set_serialize_e {A E} (announce : nat -> user W (result unit E)) (element : K -> user W (result unit E)) (finish : user W (result A E)) (s : NoditSet K) :=
    serialize_e announce (fun e : K * unit => element (first e)) finish (set_len s) s.
End SetBulk.
