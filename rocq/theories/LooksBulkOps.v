(** * LooksBulkOps: which stored intervals [contains_interval], [gaps_trimmed],
      the bulk constructors and [Gqdit::append] look at (C154, C155), in the
      manner of [LooksOps].  No proofs in this file; part of the specification. *)
From Coq Require Import List Bool Arith.
From Verif Require Import Base BTree UtilsModel IntervalModel NoditModel ZosditModel GqditModel TreeShape SearchOps LooksOps.
Import ListNotations.

Section Nodit.
  Context {I : Type} `{Ord I} `{DiscreteFinite I}.
  Context {K : Type} `{InclusiveInterval I K}.
  Context {V : Type}.
  Implicit Types (t : tree K V).

  Section Queries.
    Context {Q : Type} `{InclusiveInterval I Q}.
    (** [gaps_trimmed]  (/repo/src/nodit/map.rs:585-651) *)
    Definition l_gaps_trimmed t (q : Q) : looking K (outcome (list K)) :=
      match invalid_interval_panic q with
      | Panic => lret Panic
      | Val _ =>
          look! start_gap := l_end_gap t (istart q) in
          look! end_gap := l_end_gap t (iend q) in
          look! o := l_overlapping_all t q in
          lret (let? start_gap := start_gap in
                let? end_gap := end_gap in
                let '(first, last) :=
                  match start_gap, end_gap with
                  | Some s, Some e =>
                      if eqb (ivl_start s) (ivl_start e) then (Some (mkInterval (istart q) (iend q)), None)
                      else (Some (mkInterval (istart q) (ivl_end s)), Some (mkInterval (ivl_start e) (iend q)))
                  | Some s, None => (Some (mkInterval (istart q) (ivl_end s)), None)
                  | None, Some e => (None, Some (mkInterval (ivl_start e) (iend q)))
                  | None, None => (None, None)
                  end in
                let? overlapping := o in
                let? inner := inner_gaps overlapping in
                Val (opt_list (option_map ifrom first) ++ inner ++ opt_list (option_map ifrom last)))
      end.
    (** The first [next] of the gaps between the entries
        (/repo/src/nodit/map.rs:527-543): whether there is one.  It steps from
        entry to entry until the place between two of them is a gap. *)
    Fixpoint l_inner_gap (l : list (K * V)) : looking K (outcome bool) :=
      match l with
      | [] => lret (Val false)
      | first :: r =>
          look! _ := l_walk [first] in
          match r with
          | [] => lret (Val false)
          | second :: _ =>
              match (let? u := unwrap (up (iend (fst first))) in
                     let? d := unwrap (down (istart (fst second))) in
                     Val (ifrom (mkInterval u d) : K)) with
              | Panic => look! _ := l_walk [second] in lret Panic
              | Val g => if is_valid g then look! _ := l_walk [second] in lret (Val true) else l_inner_gap r
              end
          end
      end.
    (** [contains_interval]  (/repo/src/nodit/map.rs:678-686): one [next] of
        [gaps_untrimmed] *)
    Definition l_contains_interval t (q : Q) : looking K (outcome bool) :=
      match invalid_interval_panic q with
      | Panic => lret Panic
      | Val _ =>
          look! start_gap := l_end_gap t (istart q) in
          look! end_gap := l_end_gap t (iend q) in
          look! o := l_overlapping t q in
          match start_gap, end_gap, o with
          | Val (Some _), Val _, Val _ => lret (Val false)
          | Val None, Val end_gap, Val l =>
              look! inner := l_inner_gap l in
              lret (let? inner := inner in Val (negb inner && negb (is_some end_gap)))
          | _, _, _ => lret Panic
          end
      end.
  End Queries.

  (** [insert_strict]  (/repo/src/nodit/map.rs:714-728) *)
  Definition l_insert_strict (T : shapes K V) (interval : K) (value : V) (m : NoditMap K V)
    : looking K (NoditMap K V * outcome (result unit V)) :=
    match invalid_interval_panic interval with
    | Panic => lret (m, Panic)
    | Val _ =>
        look! o := l_overlaps (T 0 m) interval in
        match o with
        | Panic => lret (m, Panic)
        | Val true => lret (m, Val (Err value))
        | Val false => look! m := l_insert interval value (T 1 m) in lret (m, Val (Ok tt))
        end
    end.
  (** The loop of [from_iter_strict]  (/repo/src/nodit/map.rs:1243-1245); [T i]
      are the trees met at the entry with [i] more to come. *)
  Fixpoint l_extend_strict (T : nat -> shapes K V) (l : list (K * V)) (m : NoditMap K V)
    : looking K (outcome (result (NoditMap K V) V)) :=
    match l with
    | [] => lret (Val (Ok m))
    | (interval, value) :: r =>
        look! (m, o) := l_insert_strict (T (length r)) interval value m in
        match o with
        | Panic => lret Panic
        | Val (Err e) => lret (Val (Err e))
        | Val (Ok _) => l_extend_strict T r m
        end
    end.
  Definition l_from_iter_strict T (l : list (K * V)) : looking K (outcome (result (NoditMap K V) V)) := l_extend_strict T l new.
End Nodit.

Section Zosdit.
  Context {I : Type} `{Ord I} `{DiscreteFinite I}.
  Context {K : Type} `{InclusiveInterval I K}.
  Context {V : Type}.
  (** The loop of [from_iter_strict_back]  (/repo/src/zosdit/map.rs:607-609) *)
  Fixpoint l_extend_strict_back (T : shapes K (list V)) (l : list (K * V)) (z : ZosditMap K V)
    : looking K (outcome (result (ZosditMap K V) V)) :=
    match l with
    | [] => lret (Val (Ok z))
    | (interval, value) :: r =>
        look! (z, o) := l_insert_strict_back (T (length r) (z_inner z)) (z_len z) interval value in
        match o with
        | Panic => lret Panic
        | Val (Err e) => lret (Val (Err e))
        | Val (Ok _) => l_extend_strict_back T r z
        end
    end.
  Definition l_from_iter_strict_back T (l : list (K * V)) : looking K (outcome (result (ZosditMap K V) V)) :=
    l_extend_strict_back T l z_new.
End Zosdit.

Section Gqdit.
  Context {I : Type} `{Ord I} `{DiscreteFinite I}.
  Context {K : Type} `{InclusiveInterval I K}.
  Context {D : Type} `{Ord D}.
  (** [append]  (/repo/src/gqdit/mod.rs:424-428).  [t] is [other]'s tree; when an
      entry with [i] more to come is inserted, [S i g] is cut and [T i] are the
      trees met. *)
  Fixpoint l_append_loop (S : shapes K (BTreeSet D)) (T : nat -> nat -> shapes K (BTreeSet D)) (l : list (K * BTreeSet D)) (g : Gqdit K D)
    : looking K (Gqdit K D * outcome unit) :=
    match l with
    | [] => lret (g, Val tt)
    | (interval, identifiers) :: r =>
        look! (g, o) := l_gqdit_insert (S (length r) g) (T (length r)) identifiers interval in
        match o with
        | Panic => lret (g, Panic)
        | Val _ => l_append_loop S T r g
        end
    end.
  Definition l_append S T (g : Gqdit K D) (t : tree K (BTreeSet D)) : looking K (Gqdit K D * Gqdit K D * outcome unit) :=
    match uu with
    | Panic => lret (g, entries t, Panic)
    | Val u =>
        look! (other, o) := l_remove_overlapping u t in
        match o with
        | Panic => lret (g, other, Panic)
        | Val l => look! (g, r) := l_append_loop S T l g in lret (g, other, r)
        end
    end.
End Gqdit.
