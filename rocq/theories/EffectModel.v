(** * EffectModel: [NoditMap] with user code that may do anything.  No proofs in
      this file.

    The methods of /repo/src/nodit/map.rs call methods of the user's types: the
    comparisons of the points, [up] and [down] (trait [DiscreteFinite]), [start],
    [end], [is_valid] and [overlaps] of the intervals, [K::from], [V::clone] and
    [V::eq].  [NoditModel] takes them to be functions.  Here each is a program
    that runs in some world (counters, files, interior mutability, ...): it may
    change the world, answer differently each time, answer nonsense or panic.

    A map is searched in some tree with its entries ([TreeShape]): [T i m] is the
    [i]-th tree met by a call.  The two searches of a range are done one after
    the other; if they cross, the range is empty here (the tree may panic, also
    without having changed anything).  [K] and [I] are [Copy], copying them runs no user code. *)
From Coq Require Import List Bool.
From Verif Require Import Base BTree UtilsModel IntervalModel NoditModel TreeShape.
Import ListNotations.

Section Effect.
  Context {W : Type}.
  (** User code: the answer or a panic, and the world afterwards. *)
  Definition user (A : Type) : Type := W -> outcome A * W.
  Definition uret {A} (a : A) : user A := fun w => (Val a, w).
  Definition ubind {A B} (x : user A) (f : A -> user B) : user B :=
    fun w => match x w with (Val a, w) => f a w | (Panic, w) => (Panic, w) end.
  (** The crate's own panics and [unwrap]. *)
  Definition uout {A} (o : outcome A) : user A := fun w => (o, w).
End Effect.
Arguments user : clear implicits.
Notation "'do!' p := x 'in' b" := (ubind x (fun p => b)) (at level 200, p pattern, x at level 100, b at level 200).

(** The user's point type; [<], [>], [<=], [>=] are methods of [PartialOrd], [==] is
    one of [PartialEq]; they need not agree with [cmp]. *)
Record point_code (W I : Type) : Type := {
  e_cmp : I -> I -> user W comparison;
  e_lt : I -> I -> user W bool;
  e_gt : I -> I -> user W bool;
  e_le : I -> I -> user W bool;
  e_ge : I -> I -> user W bool;
  e_eq : I -> I -> user W bool;
  e_up : I -> user W (option I);
  e_down : I -> user W (option I)
}.
Arguments e_cmp {W I}. Arguments e_lt {W I}. Arguments e_gt {W I}. Arguments e_le {W I}. Arguments e_ge {W I}. Arguments e_eq {W I}. Arguments e_up {W I}. Arguments e_down {W I}.
(** An interval type of the user. *)
Record interval_code (W I X : Type) : Type := {
  e_start : X -> user W I;
  e_end : X -> user W I;
  e_valid : X -> user W bool
}.
Arguments e_start {W I X}. Arguments e_end {W I X}. Arguments e_valid {W I X}.
(** The value type, and [K::from]. *)
Record entry_code (W I K V : Type) : Type := {
  e_from : Interval I -> user W K;
  e_clone : V -> user W V;
  e_veq : V -> V -> user W bool
}.
Arguments e_from {W I K V}. Arguments e_clone {W I K V}. Arguments e_veq {W I K V}.

Section Model.
  Context {W I K V : Type} (P : point_code W I).

  (** ** utils.rs *)
  Section Comparators.
    Context {X : Type} (ix : interval_code W I X).
    (** [invalid_interval_panic]  (/repo/src/utils.rs:249-259) *)
    Definition invalid_interval_panic_e (x : X) : user W unit :=
      do! b := e_valid ix x in if negb b then uout Panic else uret tt.
    (** [cmp_point_with_interval], [overlapping_comp] and
        [inclusive_comp_generator]  (/repo/src/utils.rs:5-11, 203-227) *)
    Definition overlapping_comp_e (point : I) (inner : X) : user W comparison :=
      do! s := e_start ix inner in
      do! b := e_lt P point s in
      if b then uret Lt
      else do! e := e_end ix inner in
           do! c := e_gt P point e in
           uret (if c then Gt else Eq).
    (** [touching_start_comp]  (/repo/src/utils.rs:228-237) *)
    Definition touching_start_comp_e (start : I) (inner : X) : user W comparison :=
      do! e := e_end ix inner in
      do! u := e_up P e in
      match u with Some touching_position => e_cmp P start touching_position | None => uret Lt end.
    (** [touching_end_comp]  (/repo/src/utils.rs:238-247) *)
    Definition touching_end_comp_e (end_ : I) (inner : X) : user W comparison :=
      do! s := e_start ix inner in
      do! d := e_down P s in
      match d with Some touching_position => e_cmp P end_ touching_position | None => uret Gt end.
    (** [starts_comp]  (/repo/src/utils.rs:174-182) *)
    Definition starts_comp_e (inner new : X) : user W comparison :=
      do! n := e_start ix new in
      do! s := e_start ix inner in
      e_cmp P n s.
    (** [contains_point]  (/repo/src/utils.rs:80-86) *)
    Definition contains_point_e (x : X) (point : I) : user W bool :=
      do! c := overlapping_comp_e point x in uret (match c with Eq => true | _ => false end).
  End Comparators.

  Section Cut.
    Context {A B : Type} (ia : interval_code W I A) (ib : interval_code W I B).
    (** [config]  (/repo/src/utils.rs:23-44) *)
    Definition config_e (a : A) (b : B) : user W Config :=
      do! sa := e_start ia a in
      do! sb := e_start ib b in
      do! first := e_lt P sa sb in
      if first then
        do! sb := e_start ib b in
        do! x := contains_point_e ia a sb in
        do! eb := e_end ib b in
        do! y := contains_point_e ia a eb in
        uout match x, y with
             | false, false => Val LeftFirstNonOverlapping
             | true, false => Val LeftFirstPartialOverlap
             | true, true => Val LeftContainsRight
             | false, true => Panic
             end
      else
        do! sa := e_start ia a in
        do! x := contains_point_e ib b sa in
        do! ea := e_end ia a in
        do! y := contains_point_e ib b ea in
        uout match x, y with
             | false, false => Val RightFirstNonOverlapping
             | true, false => Val RightFirstPartialOverlap
             | true, true => Val RightContainsLeft
             | false, true => Panic
             end.
    (** [Option::filter(|x| x.is_valid())] on the crate's [Interval]
        (/repo/src/utils.rs:168-170, /repo/src/interval.rs:463-468) *)
    Definition filter_valid_e (o : option (Interval I)) : user W (option (Interval I)) :=
      match o with
      | Some x => do! b := e_le P (ivl_start x) (ivl_end x) in uret (if b then Some x else None)
      | None => uret None
      end.
    (** [cut_interval]  (/repo/src/utils.rs:94-172) *)
    Definition cut_interval_raw_e (base : A) (cut : B) : user W (CutResult I) :=
      do! c := config_e base cut in
      match c with
      | LeftFirstNonOverlapping =>
          do! s := e_start ia base in
          do! e := e_end ia base in
          uret (mkCut (Some (mkInterval s e)) None None)
      | LeftFirstPartialOverlap =>
          do! s := e_start ia base in
          do! sc := e_start ib cut in
          do! d := e_down P sc in
          do! d := uout (unwrap d) in
          do! sc := e_start ib cut in
          do! e := e_end ia base in
          uret (mkCut (Some (mkInterval s d)) (Some (mkInterval sc e)) None)
      | LeftContainsRight =>
          do! s := e_start ia base in
          do! sc := e_start ib cut in
          do! d := e_down P sc in
          do! d := uout (unwrap d) in
          do! sc := e_start ib cut in
          do! ec := e_end ib cut in
          do! ec' := e_end ib cut in
          do! u := e_up P ec' in
          match u with
          | Some upped_end =>
              do! e := e_end ia base in
              uret (mkCut (Some (mkInterval s d)) (Some (mkInterval sc ec)) (Some (mkInterval upped_end e)))
          | None => uret (mkCut (Some (mkInterval s d)) (Some (mkInterval sc ec)) None)
          end
      | RightFirstNonOverlapping =>
          do! s := e_start ia base in
          do! e := e_end ia base in
          uret (mkCut None None (Some (mkInterval s e)))
      | RightFirstPartialOverlap =>
          do! ec := e_end ib cut in
          do! u := e_up P ec in
          do! u := uout (unwrap u) in
          do! e := e_end ia base in
          do! s := e_start ia base in
          do! ec := e_end ib cut in
          uret (mkCut None (Some (mkInterval s ec)) (Some (mkInterval u e)))
      | RightContainsLeft =>
          do! s := e_start ia base in
          do! e := e_end ia base in
          uret (mkCut None (Some (mkInterval s e)) None)
      end.
    Definition cut_interval_e (base : A) (cut : B) : user W (CutResult I) :=
      do! r := cut_interval_raw_e base cut in
      do! b := filter_valid_e (before_cut r) in
      do! i := filter_valid_e (inside_cut r) in
      do! a := filter_valid_e (after_cut r) in
      uret (mkCut b i a).
  End Cut.

  (** ** The searches, see [TreeShape] *)
  Fixpoint e_search (comp : K -> user W comparison) (t : tree K V) : user W (place (K := K) (V := V)) :=
    match t with
    | Tip => uret ([], None, [])
    | Node n => e_search_node comp n
    end
  with e_search_node (comp : K -> user W comparison) (n : edges K V) : user W (place (K := K) (V := V)) :=
    match n with
    | Last t => e_search comp t
    | More t kv n =>
        do! c := comp (fst kv) in
        match c with
        | Gt => do! (a, x, b) := e_search_node comp n in uret (entries t ++ kv :: a, x, b)
        | Eq => uret (entries t, Some kv, edges_entries n)
        | Lt => do! (a, x, b) := e_search comp t in uret (a, x, b ++ kv :: edges_entries n)
        end
    end.
  Definition e_get comp t : user W (option (K * V)) := do! (_, x, _) := e_search comp t in uret x.
  Definition e_remove comp t : user W (BTreeMap K V) :=
    do! p := e_search comp t in
    uret match p with (a, Some _, b) => a ++ b | (_, None, _) => entries t end.
  Definition e_insert (key : K) (value : V) comp t : user W (BTreeMap K V) :=
    do! p := e_search comp t in
    uret match p with (a, Some (k, _), b) => a ++ (k, value) :: b | (a, None, b) => a ++ (key, value) :: b end.
  Definition e_lower comp t : user W (cursor K V) :=
    do! p := e_search comp t in
    uret match p with (a, Some kv, b) => (a, kv :: b) | (a, None, b) => (a, b) end.
  Definition e_upper comp t : user W (cursor K V) :=
    do! p := e_search comp t in
    uret match p with (a, Some kv, b) => (a, kv :: b) | (a, None, b) => move_prev (a, b) end.
  Definition e_range lower upper t : user W (BTreeMap K V) :=
    do! (a, _, _) := e_search lower t in
    do! (a', x', _) := e_search upper t in
    uret (skipn (length a) (firstn (length a' + (if is_some x' then 1 else 0)) (entries t))).

  (** ** nodit/map.rs *)
  Context `{DiscreteFinite I} (ik : interval_code W I K) (C : entry_code W I K V).
  (** A method that changes the map: the map left behind, the outcome, the world. *)
  Definition changing (A : Type) : Type := W -> (NoditMap K V * outcome A) * W.
  (** Run user code while the map is [m]. *)
  Definition mbind {A B} (m : NoditMap K V) (x : user W A) (f : A -> changing B) : changing B :=
    fun w => match x w with (Val a, w) => f a w | (Panic, w) => ((m, Panic), w) end.
  Definition mret {A} (m : NoditMap K V) (o : outcome A) : changing A := fun w => ((m, o), w).
  (** Call a method, go on if it returns. *)
  Definition mthen {A B} (x : changing A) (f : NoditMap K V -> A -> changing B) : changing B :=
    fun w => match x w with ((m, Val a), w) => f m a w | ((m, Panic), w) => ((m, Panic), w) end.
  Notation "'with!' m 'do!' p := x 'in' b" := (mbind m x (fun p => b)) (at level 200, m at level 9, p pattern, x at level 100, b at level 200).

  Section Queries.
    Context {Q : Type} (iq : interval_code W I Q).
    (** [overlapping]  (/repo/src/nodit/map.rs:153-168) *)
    Definition overlapping_e (t : tree K V) (q : Q) : user W (list (K * V)) :=
      do! _ := invalid_interval_panic_e iq q in
      do! s := e_start iq q in
      do! e := e_end iq q in
      e_range (overlapping_comp_e ik s) (overlapping_comp_e ik e) t.
    (** [overlaps]  (/repo/src/nodit/map.rs:116-123) *)
    Definition map_overlaps_e (t : tree K V) (q : Q) : user W bool :=
      do! _ := invalid_interval_panic_e iq q in
      do! l := overlapping_e t q in
      uret (match l with [] => false | _ => true end).

    (** [remove_overlapping]  (/repo/src/nodit/map.rs:366-390); [q_overlaps q k] is
        [q.overlaps(k)] *)
    Context (q_overlaps : Q -> K -> user W bool) (k_overlaps : K -> Q -> user W bool).
    Fixpoint remove_overlapping_loop_e (q : Q) (pre post acc : list (K * V)) : changing (list (K * V)) :=
      match post with
      | [] => mret (pre ++ post) (Val acc)
      | (k, v) :: rest =>
          with! (pre ++ post) do! b := q_overlaps q k in
          if b then remove_overlapping_loop_e q pre rest (acc ++ [(k, v)]) else mret (pre ++ post) (Val acc)
      end.
    Definition remove_overlapping_e (q : Q) (t : tree K V) : changing (list (K * V)) :=
      with! (entries t) do! _ := invalid_interval_panic_e iq q in
      with! (entries t) do! s := e_start iq q in
      with! (entries t) do! c := e_lower (overlapping_comp_e ik s) t in
      remove_overlapping_loop_e q (fst c) (snd c) [].

    (** The loop of [cut]  (/repo/src/nodit/map.rs:444-461); [k_overlaps k q] is
        [k.overlaps(q)] *)
    Definition piece_e (p : option (Interval I)) (v : V) : user W (list (K * V)) :=
      match p with
      | Some i => do! k := e_from C i in do! v := e_clone C v in uret [(k, v)]
      | None => uret []
      end.
    Fixpoint cut_loop_e (q : Q) (pre post acc : list (K * V)) : changing (list (K * V)) :=
      match post with
      | [] => mret (pre ++ post) (Val acc)
      | (k, v) :: rest =>
          with! (pre ++ post) do! b := k_overlaps k q in
          if b then
            with! (pre ++ rest) do! r := cut_interval_e ik iq k q in
            with! (pre ++ rest) do! before := piece_e (before_cut r) v in
            with! ((pre ++ before) ++ rest) do! after := piece_e (after_cut r) v in
            with! ((pre ++ before ++ after) ++ rest) do! i := uout (unwrap (inside_cut r)) in
            with! ((pre ++ before ++ after) ++ rest) do! k := e_from C i in
            cut_loop_e q (pre ++ before ++ after) rest (acc ++ [(k, v)])
          else mret (pre ++ post) (Val acc)
      end.
    (** [cut]  (/repo/src/nodit/map.rs:430-464) *)
    Definition cut_e (q : Q) (t : tree K V) : changing (list (K * V)) :=
      with! (entries t) do! _ := invalid_interval_panic_e iq q in
      with! (entries t) do! s := e_start iq q in
      with! (entries t) do! c := e_lower (overlapping_comp_e ik s) t in
      cut_loop_e q (fst c) (snd c) [].
  End Queries.

  (** [get_gap_at_raw] and [get_key_value_at_point]  (/repo/src/nodit/map.rs:310-331) *)
  Definition get_gap_at_raw_e (t : tree K V) (point : I) : user W (Interval I) :=
    do! lower := e_upper (overlapping_comp_e ik point) t in
    do! upper := e_lower (overlapping_comp_e ik point) t in
    do! s := match cursor_key lower with
             | None => uret MIN
             | Some lower => do! e := e_end ik lower in do! u := e_up P e in uout (unwrap u)
             end in
    do! e := match cursor_key upper with
             | None => uret MAX
             | Some upper => do! s := e_start ik upper in do! d := e_down P s in uout (unwrap d)
             end in
    uret (mkInterval s e).
  Definition get_key_value_at_point_e (t : tree K V) (point : I) : user W (result (K * V) K) :=
    do! x := e_get (overlapping_comp_e ik point) t in
    match x with
    | Some kv => uret (Ok kv)
    | None => do! g := get_gap_at_raw_e t point in do! k := e_from C g in uret (Err k)
    end.

  (** *** Gap queries, the iterators consumed to the end *)
  Definition bounds_e (k : K) : user W (I * I) := do! s := e_start ik k in do! e := e_end ik k in uret (s, e).
  (** [overlapping.map(..).tuple_windows().map(..).filter(..)]
      (/repo/src/nodit/map.rs:527-543, 627-643) *)
  Fixpoint windows_e (first : I * I) (l : list (K * V)) : user W (list K) :=
    match l with
    | [] => uret []
    | e :: r =>
        do! second := bounds_e (fst e) in
        do! u := e_up P (snd first) in
        do! u := uout (unwrap u) in
        do! d := e_down P (fst second) in
        do! d := uout (unwrap d) in
        do! g := e_from C (mkInterval u d) in
        do! b := e_valid ik g in
        do! gs := windows_e second r in
        uret (if b then g :: gs else gs)
    end.
  Definition inner_gaps_e (l : list (K * V)) : user W (list K) :=
    match l with [] => uret [] | e :: r => do! first := bounds_e (fst e) in windows_e first r end.
  Definition from_e (o : option (Interval I)) : user W (list K) :=
    match o with Some i => do! k := e_from C i in uret [k] | None => uret [] end.
  Section Gaps.
    Context {Q : Type} (iq : interval_code W I Q).
    (** The gap at one end of the interval  (/repo/src/nodit/map.rs:509-514, 597-602) *)
    Definition end_gap_e (t : tree K V) (point : user W I) : user W (option (Interval I)) :=
      do! p := point in
      do! x := e_get (overlapping_comp_e ik p) t in
      if is_some x then uret None
      else do! p := point in do! g := get_gap_at_raw_e t p in uret (Some g).
    (** [gaps_untrimmed]  (/repo/src/nodit/map.rs:497-551) *)
    Definition gaps_untrimmed_e (t : tree K V) (q : Q) : user W (list K) :=
      do! _ := invalid_interval_panic_e iq q in
      do! start_gap := end_gap_e t (e_start iq q) in
      do! end_gap := end_gap_e t (e_end iq q) in
      do! (start_gap, end_gap) :=
        match start_gap, end_gap with
        | Some start_gap, Some end_gap =>
            do! same := e_eq P (ivl_start start_gap) (ivl_start end_gap) in
            uret (Some start_gap, if same then None else Some end_gap)
        | _, _ => uret (start_gap, end_gap)
        end in
      do! overlapping := overlapping_e iq t q in
      do! start_gap := from_e start_gap in
      do! end_gap := from_e end_gap in
      do! inner := inner_gaps_e overlapping in
      uret (start_gap ++ inner ++ end_gap).
    (** [gaps_trimmed]  (/repo/src/nodit/map.rs:585-651) *)
    Definition gaps_trimmed_e (t : tree K V) (q : Q) : user W (list K) :=
      do! _ := invalid_interval_panic_e iq q in
      do! start_gap := end_gap_e t (e_start iq q) in
      do! end_gap := end_gap_e t (e_end iq q) in
      do! (start_gap, end_gap) :=
        match start_gap, end_gap with
        | Some start_gap, Some end_gap =>
            do! same := e_eq P (ivl_start start_gap) (ivl_start end_gap) in
            do! s := e_start iq q in
            do! e := e_end iq q in
            uret (if same then (Some (mkInterval s e), None)
                  else (Some (mkInterval s (ivl_end start_gap)), Some (mkInterval (ivl_start end_gap) e)))
        | Some start_gap, None => do! s := e_start iq q in uret (Some (mkInterval s (ivl_end start_gap)), None)
        | None, Some end_gap => do! e := e_end iq q in uret (None, Some (mkInterval (ivl_start end_gap) e))
        | None, None => uret (None, None)
        end in
      do! overlapping := overlapping_e iq t q in
      do! start_gap := from_e start_gap in
      do! end_gap := from_e end_gap in
      do! inner := inner_gaps_e overlapping in
      uret (start_gap ++ inner ++ end_gap).
  End Gaps.

  (** [overlaps] between two intervals of the map's own type. *)
  Context (overlaps_k : K -> K -> user W bool) (T : nat -> BTreeMap K V -> tree K V).
  (** [insert_unchecked]  (/repo/src/nodit/map.rs:729-731) *)
  Definition insert_unchecked_e (interval : K) (value : V) (t : tree K V) : user W (BTreeMap K V) :=
    e_insert interval value (fun inner => starts_comp_e ik inner interval) t.
  (** [insert_strict]  (/repo/src/nodit/map.rs:714-728) *)
  Definition insert_strict_e (interval : K) (value : V) (m : NoditMap K V) : changing (result unit V) :=
    with! m do! _ := invalid_interval_panic_e ik interval in
    with! m do! b := map_overlaps_e ik (T 0 m) interval in
    if b then mret m (Val (Err value))
    else with! m do! m' := insert_unchecked_e interval value (T 0 m) in mret m' (Val (Ok tt)).
  (** [insert_overwrite]  (/repo/src/nodit/map.rs:1166-1179) *)
  Definition insert_overwrite_e (interval : K) (value : V) (m : NoditMap K V) : changing (list (K * V)) :=
    with! m do! _ := invalid_interval_panic_e ik interval in
    mthen (cut_e ik overlaps_k interval (T 0 m)) (fun m c =>
    with! m do! m' := insert_unchecked_e interval value (T 1 m) in mret m' (Val c)).

  (** [insert_merge_with_comps]  (/repo/src/nodit/map.rs:733-777) *)
  Definition insert_merge_with_comps_e (interval : K) (value : V)
    (get_start get_end : tree K V -> user W (option K))
    (remove_start remove_end : tree K V -> user W (BTreeMap K V)) (m : NoditMap K V) : changing K :=
    with! m do! _ := invalid_interval_panic_e ik interval in
    with! m do! matching_start := get_start (T 0 m) in
    with! m do! matching_end := get_end (T 0 m) in
    with! m do! returning :=
      match matching_start, matching_end with
      | Some matching_start, Some matching_end =>
          do! s := e_start ik matching_start in do! e := e_end ik matching_end in e_from C (mkInterval s e)
      | Some matching_start, None =>
          do! s := e_start ik matching_start in do! e := e_end ik interval in e_from C (mkInterval s e)
      | None, Some matching_end =>
          do! s := e_start ik interval in do! e := e_end ik matching_end in e_from C (mkInterval s e)
      | None, None => uret interval
      end in
    mthen (remove_overlapping_e ik overlaps_k interval (T 0 m)) (fun m _ =>
    with! m do! m2 := remove_start (T 1 m) in
    with! m2 do! m3 := remove_end (T 2 m2) in
    with! m3 do! m4 := insert_unchecked_e returning value (T 3 m3) in
    mret m4 (Val returning)).
  (** Look up the neighbour or the entry at one end of the interval. *)
  Definition key_e (point : user W I) (comp : I -> K -> user W comparison) (t : tree K V) : user W (option K) :=
    do! p := point in do! e := e_get (comp p) t in uret (option_map fst e).
  Definition remove_e (point : user W I) (comp : I -> K -> user W comparison) (t : tree K V) : user W (BTreeMap K V) :=
    do! p := point in e_remove (comp p) t.
  (** [insert_merge_touching]  (/repo/src/nodit/map.rs:832-867) *)
  Definition insert_merge_touching_e (interval : K) (value : V) (m : NoditMap K V) : changing (result K V) :=
    with! m do! _ := invalid_interval_panic_e ik interval in
    with! m do! b := map_overlaps_e ik (T 0 m) interval in
    if b then mret m (Val (Err value))
    else mthen (insert_merge_with_comps_e interval value
           (key_e (e_start ik interval) (touching_start_comp_e ik)) (key_e (e_end ik interval) (touching_end_comp_e ik))
           (remove_e (e_start ik interval) (touching_start_comp_e ik)) (remove_e (e_end ik interval) (touching_end_comp_e ik)) m)
         (fun m r => mret m (Val (Ok r))).
  (** [insert_merge_touching_if_values_equal]  (/repo/src/nodit/map.rs:920-971) *)
  Definition key_if_e (value : V) (point : user W I) (comp : I -> K -> user W comparison) (t : tree K V) : user W (option K) :=
    do! p := point in
    do! e := e_get (comp p) t in
    match e with
    | Some (k, v) => do! b := e_veq C v value in uret (if b then Some k else None)
    | None => uret None
    end.
  Definition remove_if_e (value : V) (point : user W I) (comp : I -> K -> user W comparison) (t : tree K V) : user W (BTreeMap K V) :=
    do! e := key_if_e value point comp t in
    if is_some e then remove_e point comp t else uret (entries t).
  Definition insert_merge_touching_if_values_equal_e (interval : K) (value : V) (m : NoditMap K V) : changing (result K V) :=
    with! m do! _ := invalid_interval_panic_e ik interval in
    with! m do! b := map_overlaps_e ik (T 0 m) interval in
    if b then mret m (Val (Err value))
    else mthen (insert_merge_with_comps_e interval value
           (key_if_e value (e_start ik interval) (touching_start_comp_e ik)) (key_if_e value (e_end ik interval) (touching_end_comp_e ik))
           (remove_if_e value (e_start ik interval) (touching_start_comp_e ik)) (remove_if_e value (e_end ik interval) (touching_end_comp_e ik)) m)
         (fun m r => mret m (Val (Ok r))).
  (** [insert_merge_overlapping]  (/repo/src/nodit/map.rs:1021-1044) *)
  Definition insert_merge_overlapping_e (interval : K) (value : V) (m : NoditMap K V) : changing K :=
    with! m do! _ := invalid_interval_panic_e ik interval in
    insert_merge_with_comps_e interval value
      (key_e (e_start ik interval) (overlapping_comp_e ik)) (key_e (e_end ik interval) (overlapping_comp_e ik))
      (fun t => uret (entries t)) (fun t => uret (entries t)) m.
  (** [insert_merge_touching_or_overlapping]  (/repo/src/nodit/map.rs:1094-1133);
      the argument of [Option::or] is computed in any case *)
  Definition key_or_e (point : user W I) (comp comp' : I -> K -> user W comparison) (t : tree K V) : user W (option K) :=
    do! a := key_e point comp t in do! b := key_e point comp' t in uret (option_or a b).
  Definition insert_merge_touching_or_overlapping_e (interval : K) (value : V) (m : NoditMap K V) : changing K :=
    with! m do! _ := invalid_interval_panic_e ik interval in
    insert_merge_with_comps_e interval value
      (key_or_e (e_start ik interval) (touching_start_comp_e ik) (overlapping_comp_e ik))
      (key_or_e (e_end ik interval) (touching_end_comp_e ik) (overlapping_comp_e ik))
      (remove_e (e_start ik interval) (touching_start_comp_e ik)) (remove_e (e_end ik interval) (touching_end_comp_e ik)) m.
End Model.
Arguments changing : clear implicits.
