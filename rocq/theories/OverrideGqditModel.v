(** * OverrideGqditModel: [Gqdit] with interval types that override the provided
      methods of [InclusiveInterval] (C143).  No proofs in this file.

    Beside the calls its [NoditMap] makes (see [OverrideModel]), [Gqdit] calls
    [is_valid] (through [invalid_interval_panic]) and [contains_point]
    (/repo/src/gqdit/mod.rs:192-193, 525) on the types of its user.
    [expand_gaps_at_point_left], [expand_gaps_at_point_right] and the
    [remove_overlapping] of [append] query with the crate's own [Interval],
    which overrides nothing, so they are those of [GqditModel]. *)
From Coq Require Import List Bool.
From Verif Require Import Base BTree UtilsModel IntervalModel NoditModel GqditModel GqditOps OverrideModel.
Import ListNotations.

Section OverrideGqdit.
  Context {I : Type} `{Ord I} `{DiscreteFinite I}.
  Context {K : Type} `{InclusiveInterval I K}.
  Context {D : Type} `{Ord D}.
  Notation Gqdit := (Gqdit K D).
  Context (k_valid : K -> bool) (k_overlaps : K -> K -> outcome bool) (k_contains : K -> I -> outcome bool).

  (** [Default for Gqdit] and [new]  (/repo/src/gqdit/mod.rs:85-87, 548-559) *)
  Definition gqdit_new_o : outcome Gqdit :=
    let? u := uu in
    match insert_strict_o k_valid (ifrom u) bset_empty new with
    | (m, Val (Ok _)) => Val m
    | _ => Panic
    end.

  (** [overlaps_ordered]  (/repo/src/gqdit/mod.rs:519-526) *)
  Definition overlaps_ordered_o (a b : K) : outcome bool :=
    let? s := k_contains a (istart b) in
    if s then Val true else k_contains a (iend b).

  (** The filter of [gaps_with_identifier]  (/repo/src/gqdit/mod.rs:191-194),
      run to the end. *)
  Fixpoint non_end_gaps_o (s e : I) (l : list K) : outcome (list K) :=
    match l with
    | [] => Val []
    | gap :: r =>
        let? a := k_contains gap s in
        let? b := if a then Val true else k_contains gap e in
        let? out := non_end_gaps_o s e r in
        Val (if b then out else gap :: out)
    end.

  Section Queries.
    Context {Q : Type} `{InclusiveInterval I Q}.
    Context (q_valid : Q -> bool).

    (** [gaps_no_identifier]  (/repo/src/gqdit/mod.rs:121-138) *)
    Definition gaps_no_identifier_o (g : Gqdit) (q : Q) : outcome (list K) :=
      let? _ := invalid_interval_panic_o q_valid q in
      let? o := overlapping_o q_valid g q in
      Val (map fst (filter (fun kv => bset_is_empty (snd kv)) o)).

    (** [gaps_with_identifier]  (/repo/src/gqdit/mod.rs:172-226) *)
    Definition gaps_with_identifier_o (g : Gqdit) (identifier : D) (q : Q) : outcome (list K) :=
      let? _ := invalid_interval_panic_o q_valid q in
      let? o := overlapping_o q_valid g q in
      let valid_gaps :=
        map fst (filter (fun kv => valid_identifier identifier (snd kv)) o) in
      let? non_end_gaps := non_end_gaps_o (istart q) (iend q) valid_gaps in
      let? left_gap := expand_gaps_at_point_left g identifier (istart q) in
      let? right_gap := expand_gaps_at_point_right g identifier (iend q) in
      let? (left_gap, right_gap) :=
        match left_gap, right_gap with
        | Some left_, Some right_ =>
            let? b := overlaps_ordered_o left_ right_ in
            if b
            then let? m := merge_ordered left_ right_ in Val (Some (ifrom m), None)
            else Val (left_gap, right_gap)
        | _, _ => Val (left_gap, right_gap)
        end in
      coalesce (fun x y =>
                  let? t := touches_ordered x y in
                  if t then let? m := merge_ordered x y in Val (Some (ifrom m)) else Val None)
        (opt_list left_gap ++ non_end_gaps ++ opt_list right_gap).
  End Queries.

  (** The re-insertion loop  (/repo/src/gqdit/mod.rs:272-286, 323-337, 395-402) *)
  Fixpoint reinsert_o (update : BTreeSet D -> BTreeSet D) (l : list (K * BTreeSet D)) (g : Gqdit)
    : Gqdit * outcome unit :=
    match l with
    | [] => (g, Val tt)
    | (interval, identifiers) :: r =>
        match insert_merge_touching_if_values_equal_o k_valid k_overlaps bset_eqb interval (update identifiers) g with
        | (g, Val (Ok _)) => reinsert_o update r g
        | (g, _) => (g, Panic)
        end
    end.
  Definition cut_update_o {Q} `{InclusiveInterval I Q} (q_valid : Q -> bool) (k_overlaps_q : K -> Q -> outcome bool)
    (update : BTreeSet D -> BTreeSet D) (q : Q) (g : Gqdit) : Gqdit * outcome unit :=
    match cut_o q_valid k_overlaps_q q g with
    | (g, Panic) => (g, Panic)
    | (g, Val l) => reinsert_o update l g
    end.

  (** [cut_with_identifiers]  (/repo/src/gqdit/mod.rs:259-287) *)
  Definition cut_with_identifiers_o {Q} `{InclusiveInterval I Q} (q_valid : Q -> bool)
    (k_overlaps_q : K -> Q -> outcome bool) (identifiers : BTreeSet D) (q : Q) (g : Gqdit) : Gqdit * outcome unit :=
    match invalid_interval_panic_o q_valid q with
    | Panic => (g, Panic)
    | Val _ =>
        if bset_is_empty identifiers then (g, Val tt)
        else cut_update_o q_valid k_overlaps_q (bset_retain (fun i => negb (bset_contains identifiers i))) q g
    end.

  (** [cut_all_identifiers]  (/repo/src/gqdit/mod.rs:317-338) *)
  Definition cut_all_identifiers_o {Q} `{InclusiveInterval I Q} (q_valid : Q -> bool)
    (k_overlaps_q : K -> Q -> outcome bool) (q : Q) (g : Gqdit) : Gqdit * outcome unit :=
    match invalid_interval_panic_o q_valid q with
    | Panic => (g, Panic)
    | Val _ => cut_update_o q_valid k_overlaps_q (fun _ => bset_empty) q g
    end.

  (** [Gqdit::insert]  (/repo/src/gqdit/mod.rs:367-403) *)
  Definition gqdit_insert_o (identifiers : BTreeSet D) (interval : K) (g : Gqdit) : Gqdit * outcome unit :=
    match invalid_interval_panic_o k_valid interval with
    | Panic => (g, Panic)
    | Val _ =>
        if bset_is_empty identifiers then (g, Val tt)
        else cut_update_o k_valid k_overlaps (fun ids => bset_extend ids identifiers) interval g
    end.

  (** [append]  (/repo/src/gqdit/mod.rs:424-428) *)
  Fixpoint append_loop_o (l : list (K * BTreeSet D)) (g : Gqdit) : Gqdit * outcome unit :=
    match l with
    | [] => (g, Val tt)
    | (interval, identifiers) :: r =>
        match gqdit_insert_o identifiers interval g with
        | (g, Panic) => (g, Panic)
        | (g, Val _) => append_loop_o r g
        end
    end.
  Definition append_o (g other : Gqdit) : Gqdit * Gqdit * outcome unit :=
    match uu with
    | Panic => (g, other, Panic)
    | Val u =>
        match remove_overlapping u other with
        | (other, Panic) => (g, other, Panic)
        | (other, Val l) => let (g, r) := append_loop_o l g in (g, other, r)
        end
    end.

  (** Calls on a [Gqdit] with these overrides; a query type brings its own. *)
  Inductive gop_o : Type :=
  | GOInsert (ids : list D) (k : K)
  | GOCutWith (ids : list D) {Q : Type} `{InclusiveInterval I Q} (q_valid : Q -> bool)
      (k_overlaps_q : K -> Q -> outcome bool) (q : Q)
  | GOCutAll {Q : Type} `{InclusiveInterval I Q} (q_valid : Q -> bool)
      (k_overlaps_q : K -> Q -> outcome bool) (q : Q)
  | GOAppend (other : list gop_o).
  Definition gnew_o : Gqdit := match gqdit_new_o with Val g => g | Panic => [] end.
  Fixpoint gstep_o (o : gop_o) (g : Gqdit) : Gqdit :=
    match o with
    | GOInsert ids k => fst (gqdit_insert_o (collect ids) k g)
    | GOCutWith ids q_valid k_overlaps_q q => fst (cut_with_identifiers_o q_valid k_overlaps_q (collect ids) q g)
    | GOCutAll q_valid k_overlaps_q q => fst (cut_all_identifiers_o q_valid k_overlaps_q q g)
    | GOAppend os => fst (fst (append_o g (fold_left (fun g o => gstep_o o g) os gnew_o)))
    end.
  Definition grun_o (os : list gop_o) : Gqdit := fold_left (fun g o => gstep_o o g) os gnew_o.
End OverrideGqdit.
Arguments gop_o : clear implicits.
