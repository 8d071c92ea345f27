(** * UtilsModel: model of /repo/src/utils.rs and of the provided methods of
      [InclusiveInterval] that it depends on.  No proofs in this file. *)
From Coq Require Import List Bool.
From Verif Require Import Base.
Import ListNotations.

Section Utils.
  Context {I : Type} `{Ord I} `{DiscreteFinite I}.

  (** [InclusiveInterval::is_valid]  (/repo/src/interval.rs:463-468) *)
  Definition is_valid {K} `{InclusiveInterval I K} (k : K) : bool := leb (istart k) (iend k).

  (** [invalid_interval_panic]  (/repo/src/utils.rs:249-259) *)
  Definition invalid_interval_panic {Q} `{InclusiveInterval I Q} (q : Q) : outcome unit :=
    if negb (is_valid q) then Panic else Val tt.

  (** [exclusive_comp_generator]  (/repo/src/utils.rs:183-202) *)
  Definition exclusive_comp {K} `{InclusiveInterval I K} (point : I) (extraneous : comparison)
    (inner : K) : comparison :=
    if eqb point (istart inner) && eqb point (iend inner) then extraneous
    else if leb point (istart inner) then Lt
    else if geb point (iend inner) then Gt
    else Eq.

  (** [inclusive_comp_generator]  (/repo/src/utils.rs:203-220) *)
  Definition inclusive_comp {K} `{InclusiveInterval I K} (point : I) (extraneous : comparison)
    (inner : K) : comparison :=
    if ltb point (istart inner) then Lt
    else if gtb point (iend inner) then Gt
    else extraneous.

  (** [cmp_point_with_interval]  (/repo/src/utils.rs:5-11) *)
  Definition cmp_point_with_interval {K} `{InclusiveInterval I K} (point : I) (k : K) : comparison :=
    inclusive_comp point Eq k.

  (** [overlapping_comp]  (/repo/src/utils.rs:221-227) *)
  Definition overlapping_comp {K} `{InclusiveInterval I K} (point : I) (inner : K) : comparison :=
    cmp_point_with_interval point inner.

  (** [touching_start_comp]  (/repo/src/utils.rs:228-237) *)
  Definition touching_start_comp {K} `{InclusiveInterval I K} (start : I) (inner : K) : comparison :=
    match up (iend inner) with
    | Some touching_position => cmp start touching_position
    | None => Lt
    end.

  (** [touching_end_comp]  (/repo/src/utils.rs:238-247) *)
  Definition touching_end_comp {K} `{InclusiveInterval I K} (end_ : I) (inner : K) : comparison :=
    match down (istart inner) with
    | Some touching_position => cmp end_ touching_position
    | None => Gt
    end.

  (** [starts_comp]  (/repo/src/utils.rs:174-182) *)
  Definition starts_comp {K} `{InclusiveInterval I K} (inner new : K) : comparison :=
    cmp (istart new) (istart inner).

  (** [utils::contains_point]  (/repo/src/utils.rs:80-86) *)
  Definition utils_contains_point {K} `{InclusiveInterval I K} (k : K) (point : I) : bool :=
    match cmp_point_with_interval point k with Eq => true | _ => false end.

  (** [Config]  (/repo/src/utils.rs:14-22) *)
  Inductive Config :=
  | LeftFirstNonOverlapping
  | LeftFirstPartialOverlap
  | LeftContainsRight
  | RightFirstNonOverlapping
  | RightFirstPartialOverlap
  | RightContainsLeft.

  (** [config]  (/repo/src/utils.rs:23-44); the [unreachable!()] arms are [Panic]. *)
  Definition config {A B} `{InclusiveInterval I A} `{InclusiveInterval I B} (a : A) (b : B)
    : outcome Config :=
    if ltb (istart a) (istart b) then
      match utils_contains_point a (istart b), utils_contains_point a (iend b) with
      | false, false => Val LeftFirstNonOverlapping
      | true, false => Val LeftFirstPartialOverlap
      | true, true => Val LeftContainsRight
      | false, true => Panic
      end
    else
      match utils_contains_point b (istart a), utils_contains_point b (iend a) with
      | false, false => Val RightFirstNonOverlapping
      | true, false => Val RightFirstPartialOverlap
      | true, true => Val RightContainsLeft
      | false, true => Panic
      end.

  (** [SortedConfig]  (/repo/src/utils.rs:46-50) *)
  Inductive SortedConfig :=
  | NonOverlapping (a b : Interval I)
  | PartialOverlap (a b : Interval I)
  | Swallowed (a b : Interval I).

  (** [sorted_config]  (/repo/src/utils.rs:51-78).  Line 67 maps
      [LeftFirstPartialOverlap] to [Swallowed]; only [overlaps] looks at the
      result and it does not tell the two apart. *)
  Definition sorted_config {A B} `{InclusiveInterval I A} `{InclusiveInterval I B} (a : A) (b : B)
    : outcome SortedConfig :=
    let ae := mkInterval (istart a) (iend a) in
    let be := mkInterval (istart b) (iend b) in
    let? c := config a b in
    match c with
    | LeftFirstNonOverlapping => Val (NonOverlapping ae be)
    | LeftFirstPartialOverlap => Val (Swallowed ae be)
    | LeftContainsRight => Val (Swallowed ae be)
    | RightFirstNonOverlapping => Val (NonOverlapping be ae)
    | RightFirstPartialOverlap => Val (PartialOverlap be ae)
    | RightContainsLeft => Val (Swallowed be ae)
    end.

  (** [InclusiveInterval::overlaps]  (/repo/src/interval.rs:526-535) *)
  Definition overlaps {A B} `{InclusiveInterval I A} `{InclusiveInterval I B} (a : A) (b : B)
    : outcome bool :=
    let? c := sorted_config a b in
    match c with
    | NonOverlapping _ _ => Val false
    | _ => Val true
    end.

  (** [CutResult]  (/repo/src/utils.rs:89-93) *)
  Record CutResult := mkCut {
    before_cut : option (Interval I);
    inside_cut : option (Interval I);
    after_cut : option (Interval I)
  }.

  (** [Option::filter(|x| x.is_valid())]
      (used at /repo/src/utils.rs:168-170, /repo/src/nodit/map.rs:543, 643) *)
  Definition filter_valid (o : option (Interval I)) : option (Interval I) :=
    match o with
    | Some x => if is_valid x then Some x else None
    | None => None
    end.

  (** The [match] of [cut_interval]  (/repo/src/utils.rs:106-164). *)
  Definition cut_interval_raw {A B} `{InclusiveInterval I A} `{InclusiveInterval I B}
    (base : A) (cut : B) : outcome CutResult :=
    let? c := config base cut in
    match c with
    | LeftFirstNonOverlapping =>
        Val (mkCut (Some (mkInterval (istart base) (iend base))) None None)
    | LeftFirstPartialOverlap =>
        let? d := unwrap (down (istart cut)) in
        Val (mkCut (Some (mkInterval (istart base) d))
                   (Some (mkInterval (istart cut) (iend base))) None)
    | LeftContainsRight =>
        let? d := unwrap (down (istart cut)) in
        Val (mkCut (Some (mkInterval (istart base) d))
                   (Some (mkInterval (istart cut) (iend cut)))
                   (match up (iend cut) with
                    | Some upped_end => Some (mkInterval upped_end (iend base))
                    | None => None
                    end))
    | RightFirstNonOverlapping =>
        Val (mkCut None None (Some (mkInterval (istart base) (iend base))))
    | RightFirstPartialOverlap =>
        let? u := unwrap (up (iend cut)) in
        Val (mkCut None (Some (mkInterval (istart base) (iend cut)))
                   (Some (mkInterval u (iend base))))
    | RightContainsLeft =>
        Val (mkCut None (Some (mkInterval (istart base) (iend base))) None)
    end.

  (** [cut_interval]  (/repo/src/utils.rs:94-172). *)
  Definition cut_interval {A B} `{InclusiveInterval I A} `{InclusiveInterval I B}
    (base : A) (cut : B) : outcome CutResult :=
    let? r := cut_interval_raw base cut in
    Val (mkCut (filter_valid (before_cut r)) (filter_valid (inside_cut r))
               (filter_valid (after_cut r))).
End Utils.
Arguments SortedConfig : clear implicits.
Arguments CutResult : clear implicits.
