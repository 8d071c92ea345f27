(** * LooksOps: which stored intervals a whole call looks at (C154).

    The methods of /repo/src/nodit/map.rs, /repo/src/zosdit/map.rs and
    /repo/src/gqdit/mod.rs on the trees of [TreeShape], each with everything it
    looks at: the intervals given to a comparator on the way down a search
    ([Asked], see [SearchOps.asks]) and those of the entries an iterator or a
    cursor steps on ([Walked]).  Moving an iterator or a cursor to the neighbour
    compares nothing.

    A call that changes the map searches several trees, one after another.
    [T i m] is the [i]-th of them, holding the entries [m]; nothing is assumed
    about how they are related.  Iterators are run to the end.  No proofs in
    this file; part of the specification of C154. *)
From Coq Require Import List Bool Arith.
From Verif Require Import Base BTree UtilsModel IntervalModel NoditModel ZosditModel GqditModel TreeShape SearchOps.
Import ListNotations.

Inductive look (K : Type) : Type := Asked (k : K) | Walked (k : K).
Arguments Asked {K} k.
Arguments Walked {K} k.
Definition asked {K} (l : list (look K)) : list K := flat_map (fun x => match x with Asked k => [k] | Walked _ => [] end) l.
Definition walked {K} (l : list (look K)) : list K := flat_map (fun x => match x with Asked _ => [] | Walked k => [k] end) l.

(** A result and what was looked at for it. *)
Definition looking (K A : Type) : Type := (A * list (look K))%type.
Definition lbind {K A B} (x : looking K A) (f : A -> looking K B) : looking K B :=
  let (b, l) := f (fst x) in (b, snd x ++ l).
Definition lret {K A} (a : A) : looking K A := (a, []).
Notation "'look!' p := x 'in' b" := (lbind x (fun p => b)) (at level 200, p pattern, x at level 100, b at level 200).

Section Trees.
  Context {K V : Type}.
  Implicit Types (comp : K -> comparison) (t : tree K V).
  Definition searching comp t : list (look K) := map Asked (asks comp t).
  Definition l_get comp t : looking K (option (K * V)) := (t_get_key_value comp t, searching comp t).
  Definition l_lower comp t : looking K (cursor K V) := (t_lower_bound comp t, searching comp t).
  Definition l_upper comp t : looking K (cursor K V) := (t_upper_bound comp t, searching comp t).
  Definition l_remove comp t : looking K (BTreeMap K V) := (fst (t_remove comp t), searching comp t).
  Definition l_range lower upper t : looking K (BTreeMap K V) :=
    (t_range lower upper t, searching lower t ++ searching upper t).
  (** An iterator over the entries [l], run to the end. *)
  Definition l_walk (l : list (K * V)) : looking K unit := (tt, map (fun e => Walked (fst e)) l).
  (** [take_while(p)] also looks at the first entry it refuses. *)
  Fixpoint l_take_while (p : K * V -> bool) (l : list (K * V)) : looking K (list (K * V)) :=
    match l with
    | [] => ([], [])
    | e :: r => if p e then let (r, s) := l_take_while p r in (e :: r, Walked (fst e) :: s) else ([], [Walked (fst e)])
    end.
End Trees.

(** The trees met by a call. *)
Definition shapes (K V : Type) : Type := nat -> BTreeMap K V -> tree K V.
Definition good_shapes {K V} (T : shapes K V) : Prop := forall i m, entries (T i m) = m /\ exists d, btree true d (T i m).

Section Nodit.
  Context {I : Type} `{Ord I} `{DiscreteFinite I}.
  Context {K : Type} `{InclusiveInterval I K}.
  Context {V : Type}.
  Implicit Types (T : shapes K V) (t : tree K V) (m : NoditMap K V) (point : I).
  Definition l_insert (interval : K) (value : V) t : looking K (BTreeMap K V) :=
    (fst (t_insert interval value starts_comp t), searching (fun inner => starts_comp inner interval) t).

  Section Queries.
    Context {Q : Type} `{InclusiveInterval I Q}.
    (** [overlapping]  (/repo/src/nodit/map.rs:153-168), the iterator not yet used *)
    Definition l_overlapping t (q : Q) : looking K (outcome (list (K * V))) :=
      match invalid_interval_panic q with
      | Panic => lret Panic
      | Val _ => look! l := l_range (overlapping_comp (istart q)) (overlapping_comp (iend q)) t in lret (Val l)
      end.
    (** ... and run to the end *)
    Definition l_overlapping_all t (q : Q) : looking K (outcome (list (K * V))) :=
      look! o := l_overlapping t q in
      match o with Panic => lret Panic | Val l => look! _ := l_walk l in lret (Val l) end.
    (** [overlaps]  (/repo/src/nodit/map.rs:116-123): one step of the iterator *)
    Definition l_overlaps t (q : Q) : looking K (outcome bool) :=
      look! o := l_overlapping t q in
      match o with
      | Panic => lret Panic
      | Val [] => lret (Val false)
      | Val (e :: _) => look! _ := l_walk [e] in lret (Val true)
      end.

    (** [get_gap_at_raw]  (/repo/src/nodit/map.rs:315-331) *)
    Definition l_get_gap_at_raw t point : looking K (outcome (Interval I)) :=
      look! lower := l_upper (overlapping_comp point) t in
      look! upper := l_lower (overlapping_comp point) t in
      lret (let? s := match cursor_key lower with
                      | None => Val MIN
                      | Some lower => unwrap (up (iend lower))
                      end in
            let? e := match cursor_key upper with
                      | None => Val MAX
                      | Some upper => unwrap (down (istart upper))
                      end in
            Val (mkInterval s e)).
    (** the gaps at the two ends of the query  (/repo/src/nodit/map.rs:509-514, 597-602) *)
    Definition l_end_gap t point : looking K (outcome (option (Interval I))) :=
      look! found := l_get (overlapping_comp point) t in
      if negb (is_some found) then look! g := l_get_gap_at_raw t point in lret (omap Some g) else lret (Val None).
    (** [gaps_untrimmed]  (/repo/src/nodit/map.rs:497-551) *)
    Definition l_gaps_untrimmed t (q : Q) : looking K (outcome (list K)) :=
      match invalid_interval_panic q with
      | Panic => lret Panic
      | Val _ =>
          look! start_gap := l_end_gap t (istart q) in
          look! end_gap := l_end_gap t (iend q) in
          look! o := l_overlapping_all t q in
          lret (let? start_gap := start_gap in
                let? end_gap := end_gap in
                let end_gap := match start_gap, end_gap with
                               | Some s, Some e => if eqb (ivl_start s) (ivl_start e) then None else Some e
                               | _, _ => end_gap
                               end in
                let? overlapping := o in
                let? inner := inner_gaps overlapping in
                Val (opt_list (option_map ifrom start_gap) ++ inner ++ opt_list (option_map ifrom end_gap)))
      end.
    (** [remove_overlapping]  (/repo/src/nodit/map.rs:366-390) and [cut] (lines
        430-464): one search and a cursor, which steps on an entry to see whether
        it overlaps the interval and is removed. *)
    Fixpoint cursor_walk (q : Q) (post : list (K * V)) : list (look K) :=
      match post with
      | [] => []
      | (k, _) :: rest => Walked k :: match overlaps k q with Val true => cursor_walk q rest | _ => [] end
      end.
    Definition l_remove_overlapping (q : Q) t : looking K (NoditMap K V * outcome (list (K * V))) :=
      match invalid_interval_panic q with
      | Panic => lret (entries t, Panic)
      | Val _ =>
          look! c := l_lower (overlapping_comp (istart q)) t in
          (remove_overlapping_loop q (fst c) (snd c) [], cursor_walk q (snd c))
      end.
    Definition l_cut (q : Q) t : looking K (NoditMap K V * outcome (list (K * V))) :=
      match invalid_interval_panic q with
      | Panic => lret (entries t, Panic)
      | Val _ =>
          look! c := l_lower (overlapping_comp (istart q)) t in
          (cut_loop q (fst c) (snd c) [], cursor_walk q (snd c))
      end.
  End Queries.

  (** [insert_overwrite]  (/repo/src/nodit/map.rs:1166-1179) *)
  Definition l_insert_overwrite T (interval : K) (value : V) m : looking K (NoditMap K V * outcome (list (K * V))) :=
    match invalid_interval_panic interval with
    | Panic => lret (m, Panic)
    | Val _ =>
        look! (m1, r) := l_cut interval (T 0 m) in
        match r with
        | Panic => lret (m1, Panic)
        | Val c => look! m2 := l_insert interval value (T 1 m1) in lret (m2, Val c)
        end
    end.

  (** [insert_merge_with_comps]  (/repo/src/nodit/map.rs:733-777) *)
  Definition l_merge_with_comps T (interval : K) (value : V)
    (get_start get_end : tree K V -> looking K (option K))
    (remove_start remove_end : tree K V -> looking K (BTreeMap K V)) m : looking K (NoditMap K V * outcome K) :=
    match invalid_interval_panic interval with
    | Panic => lret (m, Panic)
    | Val _ =>
        look! matching_start := get_start (T 0 m) in
        look! matching_end := get_end (T 0 m) in
        let returning :=
          match matching_start, matching_end with
          | Some matching_start, Some matching_end => ifrom (mkInterval (istart matching_start) (iend matching_end))
          | Some matching_start, None => ifrom (mkInterval (istart matching_start) (iend interval))
          | None, Some matching_end => ifrom (mkInterval (istart interval) (iend matching_end))
          | None, None => interval
          end in
        look! (m1, r) := l_remove_overlapping interval (T 0 m) in
        match r with
        | Panic => lret (m1, Panic)
        | Val _ =>
            look! m2 := remove_start (T 1 m1) in
            look! m3 := remove_end (T 2 m2) in
            look! m4 := l_insert returning value (T 3 m3) in
            lret (m4, Val returning)
        end
    end.
  Definition l_key comp t : looking K (option K) := look! e := l_get comp t in lret (option_map fst e).
  (** [insert_merge_touching]  (/repo/src/nodit/map.rs:832-867) *)
  Definition l_insert_merge_touching T (interval : K) (value : V) m : looking K (NoditMap K V * outcome (result K V)) :=
    match invalid_interval_panic interval with
    | Panic => lret (m, Panic)
    | Val _ =>
        look! o := l_overlaps (T 0 m) interval in
        match o with
        | Panic => lret (m, Panic)
        | Val true => lret (m, Val (Err value))
        | Val false =>
            look! (m, r) := l_merge_with_comps T interval value
              (l_key (touching_start_comp (istart interval))) (l_key (touching_end_comp (iend interval)))
              (l_remove (touching_start_comp (istart interval))) (l_remove (touching_end_comp (iend interval))) m in
            lret (m, omap Ok r)
        end
    end.
  (** [insert_merge_touching_if_values_equal]  (/repo/src/nodit/map.rs:920-971):
      the neighbours are looked up again before they are removed *)
  Definition l_key_if (veq : V -> V -> bool) (value : V) comp t : looking K (option K) :=
    look! e := l_get comp t in
    lret (match e with Some (k, v) => if veq v value then Some k else None | None => None end).
  Definition l_remove_if (veq : V -> V -> bool) (value : V) comp t : looking K (BTreeMap K V) :=
    look! e := l_key_if veq value comp t in
    if is_some e then l_remove comp t else lret (entries t).
  Definition l_insert_merge_touching_if_values_equal (veq : V -> V -> bool) T (interval : K) (value : V) m
    : looking K (NoditMap K V * outcome (result K V)) :=
    match invalid_interval_panic interval with
    | Panic => lret (m, Panic)
    | Val _ =>
        look! o := l_overlaps (T 0 m) interval in
        match o with
        | Panic => lret (m, Panic)
        | Val true => lret (m, Val (Err value))
        | Val false =>
            look! (m, r) := l_merge_with_comps T interval value
              (l_key_if veq value (touching_start_comp (istart interval))) (l_key_if veq value (touching_end_comp (iend interval)))
              (l_remove_if veq value (touching_start_comp (istart interval))) (l_remove_if veq value (touching_end_comp (iend interval))) m in
            lret (m, omap Ok r)
        end
    end.
  (** [insert_merge_overlapping]  (/repo/src/nodit/map.rs:1021-1044) *)
  Definition l_insert_merge_overlapping T (interval : K) (value : V) m : looking K (NoditMap K V * outcome K) :=
    match invalid_interval_panic interval with
    | Panic => lret (m, Panic)
    | Val _ => l_merge_with_comps T interval value
        (l_key (overlapping_comp (istart interval))) (l_key (overlapping_comp (iend interval)))
        (fun t => lret (entries t)) (fun t => lret (entries t)) m
    end.
  (** [insert_merge_touching_or_overlapping]  (/repo/src/nodit/map.rs:1094-1133):
      [Option::or] has both searches done *)
  Definition l_key_or comp comp' t : looking K (option K) :=
    look! a := l_key comp t in look! b := l_key comp' t in lret (option_or a b).
  Definition l_insert_merge_touching_or_overlapping T (interval : K) (value : V) m : looking K (NoditMap K V * outcome K) :=
    match invalid_interval_panic interval with
    | Panic => lret (m, Panic)
    | Val _ => l_merge_with_comps T interval value
        (l_key_or (touching_start_comp (istart interval)) (overlapping_comp (istart interval)))
        (l_key_or (touching_end_comp (iend interval)) (overlapping_comp (iend interval)))
        (l_remove (touching_start_comp (istart interval))) (l_remove (touching_end_comp (iend interval))) m
    end.
End Nodit.

Section Zosdit.
  Context {I : Type} `{Ord I} `{DiscreteFinite I}.
  Context {K : Type} `{InclusiveInterval I K}.
  Context {V : Type}.
  Implicit Types (t : tree K (list V)) (point : I).
  Definition l_current (c : cursor K (list V)) : looking K unit :=
    l_walk (match snd c with [] => [] | e :: _ => [e] end).
  (** [remove_last_value_at_point]  (/repo/src/zosdit/map.rs:223-246); [n] is
      [self.len] *)
  Definition l_remove_last_value_at_point point (n : nat) t : looking K (ZosditMap K V * outcome (option V)) :=
    look! c := l_lower (exclusive_comp point Gt) t in
    let c := match cursor_key c with None => move_prev c | Some _ => c end in
    look! _ := l_current c in
    lret match snd c with
         | (key, value) :: rest =>
             if contains_point key point then
               match vec_pop value with
               | None => (mkZosdit n (entries t), Panic)
               | Some (last, value) =>
                   match value with
                   | [] => (mkZosdit n (fst c ++ rest), Val (Some last))
                   | _ => (mkZosdit n (fst c ++ (key, value) :: rest), Val (Some last))
                   end
               end
             else (mkZosdit n (entries t), Val None)
         | [] => (mkZosdit n (entries t), Val None)
         end.
  (** [insert_strict_back]  (/repo/src/zosdit/map.rs:279-323); an answer of the
      comparator that is a panic counts as [Lt] here, C68 is that there is none *)
  Definition l_insert_strict_back (t0 : tree K (list V)) (n : nat) (interval : K) (value : V)
    : looking K (ZosditMap K V * outcome (result unit V)) :=
    match invalid_interval_panic interval with
    | Panic => lret (mkZosdit n (entries t0), Panic)
    | Val _ =>
        look! r := l_range (exclusive_comp (istart interval) Gt) (exclusive_comp (iend interval) Lt) t0 in
        match r with
        | e :: _ => look! _ := l_walk [e] in lret (mkZosdit n (entries t0), Val (Err value))
        | [] =>
            let comp inner := match entry_comp inner interval with Val c => c | Panic => Lt end in
            ((mkZosdit (n + 1) (t_entry_push comp interval value t0), Val (Ok tt)), searching comp t0)
        end
    end.
  Section Queries.
    Context {Q : Type} `{InclusiveInterval I Q}.
    (** [overlapping]  (/repo/src/zosdit/map.rs:501-517) *)
    Definition l_zosdit_overlapping t (q : Q) : looking K (outcome (list (K * V))) :=
      match invalid_interval_panic q with
      | Panic => lret Panic
      | Val _ =>
          look! l := l_range (inclusive_comp (istart q) Lt) (inclusive_comp (iend q) Gt) t in
          look! _ := l_walk l in
          lret (Val (flatten l))
      end.
    (** [cut]  (/repo/src/zosdit/map.rs:419-464) *)
    Definition l_zosdit_cut (q : Q) (n : nat) t : looking K (ZosditMap K V * outcome (list (K * V))) :=
      match invalid_interval_panic q with
      | Panic => lret (mkZosdit n (entries t), Panic)
      | Val _ =>
          look! c := l_upper (exclusive_comp (istart q) Lt) t in
          let c := match cursor_key c with None => move_next c | Some _ => c end in
          (zosdit_cut_loop q n (fst c) (snd c) [], cursor_walk q (snd c))
      end.
  End Queries.
End Zosdit.

Section Gqdit.
  Context {I : Type} `{Ord I} `{DiscreteFinite I}.
  Context {K : Type} `{InclusiveInterval I K}.
  Context {D : Type} `{Ord D}.
  Implicit Types (t : tree K (BTreeSet D)) (point : I).
  (** [expand_gaps_at_point_right] and [..left]  (/repo/src/gqdit/mod.rs:457-490) *)
  Definition l_expand_right t (identifier : D) point : looking K (outcome (option K)) :=
    match iu point with
    | Panic => lret Panic
    | Val q =>
        look! o := l_overlapping t q in
        match o with
        | Panic => lret Panic
        | Val o =>
            look! l := l_take_while (fun kv => valid_identifier identifier (snd kv)) o in
            lret (let? l := coalesce (fun x y => let? m := merge_ordered x y in Val (Some (ifrom m))) (map fst l) in Val (hd_error l))
        end
    end.
  Definition l_expand_left t (identifier : D) point : looking K (outcome (option K)) :=
    match ui point with
    | Panic => lret Panic
    | Val q =>
        look! o := l_overlapping t q in
        match o with
        | Panic => lret Panic
        | Val o =>
            look! l := l_take_while (fun kv => valid_identifier identifier (snd kv)) (rev o) in
            lret (let? l := coalesce (fun x y => let? m := merge_ordered y x in Val (Some (ifrom m))) (map fst l) in Val (hd_error l))
        end
    end.
  Section Queries.
    Context {Q : Type} `{InclusiveInterval I Q}.
    (** [gaps_no_identifier]  (/repo/src/gqdit/mod.rs:121-138) *)
    Definition l_gaps_no_identifier t (q : Q) : looking K (outcome (list K)) :=
      look! o := l_overlapping_all t q in
      lret (let? o := o in Val (map fst (filter (fun kv => bset_is_empty (snd kv)) o))).
    (** [gaps_with_identifier]  (/repo/src/gqdit/mod.rs:172-226) *)
    Definition l_gaps_with_identifier t (identifier : D) (q : Q) : looking K (outcome (list K)) :=
      match invalid_interval_panic q with
      | Panic => lret Panic
      | Val _ =>
          look! o := l_overlapping_all t q in
          look! left_gap := l_expand_left t identifier (istart q) in
          look! right_gap := l_expand_right t identifier (iend q) in
          lret (
            let? o := o in
            let non_end_gaps :=
              filter (fun gap => negb (contains_point gap (istart q)) && negb (contains_point gap (iend q)))
                (map fst (filter (fun kv => valid_identifier identifier (snd kv)) o)) in
            let? left_gap := left_gap in
            let? right_gap := right_gap in
            let? (left_gap, right_gap) :=
              match left_gap, right_gap with
              | Some left_, Some right_ =>
                  if overlaps_ordered left_ right_
                  then let? m := merge_ordered left_ right_ in Val (Some (ifrom m), None)
                  else Val (left_gap, right_gap)
              | _, _ => Val (left_gap, right_gap)
              end in
            coalesce (fun x y =>
                        let? touches := touches_ordered x y in
                        if touches then let? m := merge_ordered x y in Val (Some (ifrom m)) else Val None)
              (opt_list left_gap ++ non_end_gaps ++ opt_list right_gap))
      end.
  End Queries.

  (** The updates: cut and put the parts back  (/repo/src/gqdit/mod.rs:259-287,
      317-338, 367-403).  [t0] is cut; [T i] are the trees met when the part with
      [i] more to come is put back. *)
  Fixpoint l_reinsert (T : nat -> shapes K (BTreeSet D)) (update : BTreeSet D -> BTreeSet D) (l : list (K * BTreeSet D))
    (g : Gqdit K D) : looking K (Gqdit K D * outcome unit) :=
    match l with
    | [] => lret (g, Val tt)
    | (interval, identifiers) :: r =>
        look! (g, o) := l_insert_merge_touching_if_values_equal bset_eqb (T (length r)) interval (update identifiers) g in
        match o with
        | Val (Ok _) => l_reinsert T update r g
        | _ => lret (g, Panic)
        end
    end.
  Definition l_cut_update {Q} `{InclusiveInterval I Q} (t0 : tree K (BTreeSet D)) (T : nat -> shapes K (BTreeSet D))
    (update : BTreeSet D -> BTreeSet D) (q : Q) : looking K (Gqdit K D * outcome unit) :=
    look! (g, o) := l_cut q t0 in
    match o with
    | Panic => lret (g, Panic)
    | Val l => l_reinsert T update l g
    end.
  Definition l_gqdit_insert t0 T (identifiers : BTreeSet D) (interval : K) : looking K (Gqdit K D * outcome unit) :=
    match invalid_interval_panic interval with
    | Panic => lret (entries t0, Panic)
    | Val _ => if bset_is_empty identifiers then lret (entries t0, Val tt)
               else l_cut_update t0 T (fun ids => bset_extend ids identifiers) interval
    end.
  Definition l_cut_with_identifiers {Q} `{InclusiveInterval I Q} t0 T (identifiers : BTreeSet D) (q : Q)
    : looking K (Gqdit K D * outcome unit) :=
    match invalid_interval_panic q with
    | Panic => lret (entries t0, Panic)
    | Val _ => if bset_is_empty identifiers then lret (entries t0, Val tt)
               else l_cut_update t0 T (bset_retain (fun i => negb (bset_contains identifiers i))) q
    end.
  Definition l_cut_all_identifiers {Q} `{InclusiveInterval I Q} t0 T (q : Q) : looking K (Gqdit K D * outcome unit) :=
    match invalid_interval_panic q with
    | Panic => lret (entries t0, Panic)
    | Val _ => l_cut_update t0 T (fun _ => bset_empty) q
    end.
End Gqdit.

(** ** The bounds *)
(** At most [c] searches among [n] entries, and a walk over the intervals [w]. *)
Definition looks_at {K} (c n : nat) (w : list K) (l : list (look K)) : Prop := few c n (length (asked l)) /\ walked l = w.
(** Those and perhaps one more. *)
Definition some_more {K} (w o : list K) : Prop := exists x, w = o ++ x /\ length x <= 1.
(** The entries from the beginning of [l] on, as long as [f] holds, and perhaps
    the one after them. *)
Definition run_of {E} (f : E -> Prop) (l w : list E) : Prop :=
  exists x y r, l = x ++ y ++ r /\ w = x ++ y /\ length y <= 1 /\ Forall f x.
