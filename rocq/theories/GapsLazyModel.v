(** * GapsLazyModel: the gap queries with their laziness and with a [K::from]
    that may panic.  No proofs here.

    [NoditModel] computes the gap iterators at once and takes [K::from] to
    return.  Here the iterators are lists of steps, produced on demand: [Val g]
    is a [next] that yields [g], [Panic] a [next] that unwinds; what the list holds
    after that is never reached.  [try_from] is the user's [K::from(Interval)]. *)
From Coq Require Import List Bool.
From Verif Require Import Base BTree UtilsModel IntervalModel NoditModel.
Import ListNotations.

Section Lazy.
  Context {I : Type} `{Ord I} `{DiscreteFinite I}.
  Context {K : Type} `{InclusiveInterval I K}.
  Context {V : Type}.
  Context (try_from : Interval I -> outcome K).
  Context {Q : Type} `{InclusiveInterval I Q}.

  (** [opt.map(K::from)], evaluated when the iterator is built
      (/repo/src/nodit/map.rs:546-550, 646-650) *)
  Definition try_from_opt (o : option (Interval I)) : outcome (list (outcome K)) :=
    match o with
    | None => Val []
    | Some i => omap (fun k => [Val k]) (try_from i)
    end.

  (** [overlapping.tuple_windows().map(..).filter(..)], one step per [next]
      (/repo/src/nodit/map.rs:531-543, 631-643) *)
  Fixpoint inner_steps (l : list (K * V)) : list (outcome K) :=
    match l with
    | first :: ((second :: _) as r) =>
        match (let? u := unwrap (up (iend (fst first))) in
               let? d := unwrap (down (istart (fst second))) in
               try_from (mkInterval u d)) with
        | Panic => [Panic]
        | Val g => if is_valid g then Val g :: inner_steps r else inner_steps r
        end
    | _ => []
    end.

  (** [NoditMap::gaps_untrimmed]  (/repo/src/nodit/map.rs:497-551) *)
  Definition gaps_untrimmed_lazy (m : NoditMap K V) (q : Q) : outcome (list (outcome K)) :=
    let? _ := invalid_interval_panic q in
    let? start_gap := end_gap m (istart q) in
    let? end_gap := end_gap m (iend q) in
    let '(start_gap, end_gap) :=
      match start_gap, end_gap with
      | Some start_gap, Some end_gap =>
          if eqb (ivl_start start_gap) (ivl_start end_gap)
          then (Some start_gap, None)
          else (Some start_gap, Some end_gap)
      | Some start_gap, None => (Some start_gap, None)
      | None, Some end_gap => (None, Some end_gap)
      | None, None => (None, None)
      end in
    let? overlapping := overlapping m q in
    let? first := try_from_opt start_gap in
    let? last := try_from_opt end_gap in
    Val (first ++ inner_steps overlapping ++ last).

  (** [NoditMap::gaps_trimmed]  (/repo/src/nodit/map.rs:585-651) *)
  Definition gaps_trimmed_lazy (m : NoditMap K V) (q : Q) : outcome (list (outcome K)) :=
    let? _ := invalid_interval_panic q in
    let? start_gap := end_gap m (istart q) in
    let? end_gap := end_gap m (iend q) in
    let '(trimmed_start_gap, trimmed_end_gap) :=
      match start_gap, end_gap with
      | Some start_gap, Some end_gap =>
          if eqb (ivl_start start_gap) (ivl_start end_gap)
          then (Some (mkInterval (istart q) (iend q)), None)
          else (Some (mkInterval (istart q) (ivl_end start_gap)),
                Some (mkInterval (ivl_start end_gap) (iend q)))
      | Some start_gap, None => (Some (mkInterval (istart q) (ivl_end start_gap)), None)
      | None, Some end_gap => (None, Some (mkInterval (ivl_start end_gap) (iend q)))
      | None, None => (None, None)
      end in
    let? overlapping := overlapping m q in
    let? first := try_from_opt trimmed_start_gap in
    let? last := try_from_opt trimmed_end_gap in
    Val (first ++ inner_steps overlapping ++ last).

  (** What a caller that runs the iterator to its end gets: the items, unless a
      step panics.
      (what the callers of /repo/src/nodit/map.rs:495-557, 585-657 do) *)
  Fixpoint collect (l : list (outcome K)) : outcome (list K) :=
    match l with
    | [] => Val []
    | Panic :: _ => Panic
    | Val g :: l => omap (cons g) (collect l)
    end.

  (** [NoditMap::contains_interval]: takes one step only
      (/repo/src/nodit/map.rs:678-686) *)
  Definition contains_interval_lazy (m : NoditMap K V) (q : Q) : outcome bool :=
    let? _ := invalid_interval_panic q in
    let? g := gaps_untrimmed_lazy m q in
    match g with
    | [] => Val true
    | Val _ :: _ => Val false
    | Panic :: _ => Panic
    end.
End Lazy.
