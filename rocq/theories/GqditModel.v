(** * GqditModel: model of /repo/src/gqdit/mod.rs.  No proofs in this file. *)
From Coq Require Import List Bool Arith.
From Verif Require Import Base BTree UtilsModel IntervalModel NoditModel.
Import ListNotations.

(** ** [alloc::collections::BTreeSet<D>]

    The standard library's ordered set, modelled by its strictly ascending list
    of elements. *)
Section IdSet.
  Context {D : Type} `{Ord D}.

  Definition BTreeSet : Type := list D.
  Definition bset_empty : BTreeSet := [].
  Definition bset_is_empty (s : BTreeSet) : bool := match s with [] => true | _ => false end.
  Definition bset_len (s : BTreeSet) : nat := length s.
  Fixpoint bset_contains (s : BTreeSet) (d : D) : bool :=
    match s with
    | [] => false
    | x :: r => eqb d x || bset_contains r d
    end.
  Fixpoint bset_insert (d : D) (s : BTreeSet) : BTreeSet :=
    match s with
    | [] => [d]
    | x :: r =>
        match cmp d x with
        | Lt => d :: s
        | Eq => s
        | Gt => x :: bset_insert d r
        end
    end.
  (** [Extend::extend]
      (used at /repo/src/gqdit/mod.rs:391) *)
  Definition bset_extend (s other : BTreeSet) : BTreeSet :=
    fold_left (fun s d => bset_insert d s) other s.
  (** [BTreeSet::retain]
      (used at /repo/src/gqdit/mod.rs:278) *)
  Definition bset_retain (p : D -> bool) (s : BTreeSet) : BTreeSet := filter p s.
  (** [PartialEq for BTreeSet]
      (used by the value comparison of /repo/src/nodit/map.rs:938-949) *)
  Fixpoint bset_eqb (s t : BTreeSet) : bool :=
    match s, t with
    | [], [] => true
    | x :: s, y :: t => eqb x y && bset_eqb s t
    | _, _ => false
    end.
End IdSet.
Arguments BTreeSet : clear implicits.

Section Gqdit.
  Context {I : Type} `{Ord I} `{DiscreteFinite I}.
  Context {K : Type} `{InclusiveInterval I K}.
  Context {D : Type} `{Ord D}.

  (** [Gqdit]  (/repo/src/gqdit/mod.rs:66-69): a newtype around
      [NoditMap<I, K, BTreeSet<D>>]. *)
  Definition Gqdit : Type := NoditMap K (BTreeSet D).

  (** [Default for Gqdit] and [new]  (/repo/src/gqdit/mod.rs:85-87, 548-559) *)
  Definition gqdit_new : outcome Gqdit :=
    let? u := uu in
    match insert_strict (ifrom u) bset_empty new with
    | (m, Val (Ok _)) => Val m
    | _ => Panic
    end.

  (** [valid_identifier(Some(identifier), ..)]  (/repo/src/gqdit/mod.rs:493-508);
      it is never called with [None]. *)
  Definition valid_identifier (identifier : D) (other_identifiers : BTreeSet D) : bool :=
    bset_is_empty other_identifiers
    || (Nat.eqb (bset_len other_identifiers) 1 && bset_contains other_identifiers identifier).

  (** [merge_ordered]  (/repo/src/gqdit/mod.rs:510-517) *)
  Definition merge_ordered (a b : K) : outcome (Interval I) := ii (istart a) (iend b).
  (** [overlaps_ordered]  (/repo/src/gqdit/mod.rs:519-526) *)
  Definition overlaps_ordered (a b : K) : bool :=
    contains_point a (istart b) || contains_point a (iend b).
  (** [touches_ordered]  (/repo/src/gqdit/mod.rs:528-535) *)
  Definition touches_ordered (a b : K) : outcome bool :=
    let? d := unwrap (down (istart b)) in Val (eqb (iend a) d).

  (** [itertools::Itertools::coalesce], run to the end.  [f] joins ([Some]) or
      refuses ([None]).
      (used at /repo/src/gqdit/mod.rs:218, 465, 481) *)
  Fixpoint coalesce_from (f : K -> K -> outcome (option K)) (last : K) (l : list K)
    : outcome (list K) :=
    match l with
    | [] => Val [last]
    | next :: r =>
        let? j := f last next in
        match j with
        | Some joined => coalesce_from f joined r
        | None => let? out := coalesce_from f next r in Val (last :: out)
        end
    end.
  Definition coalesce (f : K -> K -> outcome (option K)) (l : list K) : outcome (list K) :=
    match l with
    | [] => Val []
    | x :: r => coalesce_from f x r
    end.

  (** [Iterator::take_while]
      (used at /repo/src/gqdit/mod.rs:461, 477) *)
  Fixpoint take_while {A} (p : A -> bool) (l : list A) : list A :=
    match l with
    | [] => []
    | x :: r => if p x then x :: take_while p r else []
    end.

  (** [expand_gaps_at_point_right]  (/repo/src/gqdit/mod.rs:457-471) *)
  Definition expand_gaps_at_point_right (g : Gqdit) (identifier : D) (point : I)
    : outcome (option K) :=
    let? q := iu point in
    let? overlapping_right := overlapping g q in
    let? l := coalesce (fun x y => let? m := merge_ordered x y in Val (Some (ifrom m)))
                (map fst (take_while (fun kv => valid_identifier identifier (snd kv))
                            overlapping_right)) in
    Val (hd_error l).

  (** [expand_gaps_at_point_left]  (/repo/src/gqdit/mod.rs:472-490) *)
  Definition expand_gaps_at_point_left (g : Gqdit) (identifier : D) (point : I)
    : outcome (option K) :=
    let? q := ui point in
    let? o := overlapping g q in
    let overlapping_left := rev o in
    let? l := coalesce (fun x y => let? m := merge_ordered y x in Val (Some (ifrom m)))
                (map fst (take_while (fun kv => valid_identifier identifier (snd kv))
                            overlapping_left)) in
    Val (hd_error l).

  Section Queries.
    Context {Q : Type} `{InclusiveInterval I Q}.

    (** [gaps_no_identifier]  (/repo/src/gqdit/mod.rs:121-138) *)
    Definition gaps_no_identifier (g : Gqdit) (q : Q) : outcome (list K) :=
      let? _ := invalid_interval_panic q in
      let? o := overlapping g q in
      Val (map fst (filter (fun kv => bset_is_empty (snd kv)) o)).

    (** [gaps_with_identifier]  (/repo/src/gqdit/mod.rs:172-226) *)
    Definition gaps_with_identifier (g : Gqdit) (identifier : D) (q : Q) : outcome (list K) :=
      let? _ := invalid_interval_panic q in
      let? o := overlapping g q in
      let valid_gaps :=
        map fst (filter (fun kv => valid_identifier identifier (snd kv)) o) in
      let non_end_gaps :=
        filter (fun gap => negb (contains_point gap (istart q))
                           && negb (contains_point gap (iend q))) valid_gaps in
      let? left_gap := expand_gaps_at_point_left g identifier (istart q) in
      let? right_gap := expand_gaps_at_point_right g identifier (iend q) in
      let? (left_gap, right_gap) :=
        match left_gap, right_gap with
        | Some left_, Some right_ =>
            if overlaps_ordered left_ right_
            then let? m := merge_ordered left_ right_ in Val (Some (ifrom m), None)
            else Val (left_gap, right_gap)
        | _, _ => Val (left_gap, right_gap)
        end in
      coalesce (fun x y =>
                  let? t := touches_ordered x y in
                  if t then let? m := merge_ordered x y in Val (Some (ifrom m)) else Val None)
        (opt_list left_gap ++ non_end_gaps ++ opt_list right_gap).
  End Queries.

  (** The re-insertion loop shared by [cut_with_identifiers]
      (/repo/src/gqdit/mod.rs:272-286), [cut_all_identifiers] (lines 323-337) and
      [insert] (lines 395-402): [update] is what is done to the identifiers of a
      cut piece; an [Err] is turned into a panic. *)
  Fixpoint reinsert (update : BTreeSet D -> BTreeSet D) (l : list (K * BTreeSet D)) (g : Gqdit)
    : Gqdit * outcome unit :=
    match l with
    | [] => (g, Val tt)
    | (interval, identifiers) :: r =>
        match insert_merge_touching_if_values_equal bset_eqb interval (update identifiers) g with
        | (g, Val (Ok _)) => reinsert update r g
        | (g, _) => (g, Panic)
        end
    end.

  Definition cut_update {Q} `{InclusiveInterval I Q}
    (update : BTreeSet D -> BTreeSet D) (q : Q) (g : Gqdit) : Gqdit * outcome unit :=
    match cut q g with
    | (g, Panic) => (g, Panic)
    | (g, Val l) => reinsert update l g
    end.

  (** [cut_with_identifiers]  (/repo/src/gqdit/mod.rs:259-287) *)
  Definition cut_with_identifiers {Q} `{InclusiveInterval I Q}
    (identifiers : BTreeSet D) (q : Q) (g : Gqdit) : Gqdit * outcome unit :=
    match invalid_interval_panic q with
    | Panic => (g, Panic)
    | Val _ =>
        if bset_is_empty identifiers then (g, Val tt)
        else cut_update (bset_retain (fun i => negb (bset_contains identifiers i))) q g
    end.

  (** [cut_all_identifiers]  (/repo/src/gqdit/mod.rs:317-338) *)
  Definition cut_all_identifiers {Q} `{InclusiveInterval I Q} (q : Q) (g : Gqdit)
    : Gqdit * outcome unit :=
    match invalid_interval_panic q with
    | Panic => (g, Panic)
    | Val _ => cut_update (fun _ => bset_empty) q g
    end.

  (** [Gqdit::insert]  (/repo/src/gqdit/mod.rs:367-403) *)
  Definition gqdit_insert (identifiers : BTreeSet D) (interval : K) (g : Gqdit)
    : Gqdit * outcome unit :=
    match invalid_interval_panic interval with
    | Panic => (g, Panic)
    | Val _ =>
        if bset_is_empty identifiers then (g, Val tt)
        else cut_update (fun ids => bset_extend ids identifiers) interval g
    end.

  (** The loop of [append]  (/repo/src/gqdit/mod.rs:425-427) *)
  Fixpoint append_loop (l : list (K * BTreeSet D)) (g : Gqdit) : Gqdit * outcome unit :=
    match l with
    | [] => (g, Val tt)
    | (interval, identifiers) :: r =>
        match gqdit_insert identifiers interval g with
        | (g, Panic) => (g, Panic)
        | (g, Val _) => append_loop r g
        end
    end.

  (** [append]  (/repo/src/gqdit/mod.rs:424-428): returns (self, other, outcome). *)
  Definition append (g other : Gqdit) : Gqdit * Gqdit * outcome unit :=
    match uu with
    | Panic => (g, other, Panic)
    | Val u =>
        match remove_overlapping u other with
        | (other, Panic) => (g, other, Panic)
        | (other, Val l) => let (g, r) := append_loop l g in (g, other, r)
        end
    end.

  (** [identifiers_at_point]  (/repo/src/gqdit/mod.rs:450-455) *)
  Definition identifiers_at_point (g : Gqdit) (point : I) : outcome (BTreeSet D) :=
    let? r := get_at_point g point in
    Val (match r with Some s => s | None => bset_empty end).

  (** [PartialEq for Gqdit]  (/repo/src/gqdit/mod.rs:537-546): the derived
      equality of the inner B-tree map, entry by entry; [keq] is [K]'s
      [PartialEq]. *)
  Fixpoint gqdit_eqb (keq : K -> K -> bool) (a b : Gqdit) : bool :=
    match a, b with
    | [], [] => true
    | (k, s) :: a, (k', s') :: b => keq k k' && bset_eqb s s' && gqdit_eqb keq a b
    | _, _ => false
    end.

  (** serde  (/repo/src/gqdit/mod.rs:569-597): delegates to [NoditMap]. *)
  Definition gqdit_serialize (g : Gqdit) : nat * list (K * BTreeSet D) := serialize g.
  Definition gqdit_deserialize (access : list (option (K * BTreeSet D)))
    : outcome (result Gqdit de_error) := deserialize access.
End Gqdit.
Arguments Gqdit : clear implicits.
