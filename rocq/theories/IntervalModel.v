(** * IntervalModel: model of /repo/src/interval.rs.  No proofs in this file. *)
From Coq Require Import List Bool.
From Verif Require Import Base UtilsModel.
Import ListNotations.

Section Constructors.
  Context {I : Type} `{Ord I} `{DiscreteFinite I}.

  (** [invalid_interval_panic(interval); interval] — the common tail of all the
      constructors.
      (/repo/src/interval.rs:209-211 and the other constructors) *)
  Definition checked (i : Interval I) : outcome (Interval I) :=
    let? _ := invalid_interval_panic i in Val i.

  (** /repo/src/interval.rs:145-157 *)
  Definition uu : outcome (Interval I) := checked (mkInterval MIN MAX).
  (** /repo/src/interval.rs:174-183 *)
  Definition ui (end_ : I) : outcome (Interval I) := checked (mkInterval MIN end_).
  (** /repo/src/interval.rs:200-212 *)
  Definition ue (end_ : I) : outcome (Interval I) :=
    let? d := unwrap (down end_) in checked (mkInterval MIN d).
  (** /repo/src/interval.rs:229-238 *)
  Definition iu (start : I) : outcome (Interval I) := checked (mkInterval start MAX).
  (** /repo/src/interval.rs:255-267 *)
  Definition eu (start : I) : outcome (Interval I) :=
    let? u := unwrap (up start) in checked (mkInterval u MAX).
  (** /repo/src/interval.rs:284-293 *)
  Definition ii (start end_ : I) : outcome (Interval I) := checked (mkInterval start end_).
  (** /repo/src/interval.rs:310-322 *)
  Definition ie (start end_ : I) : outcome (Interval I) :=
    let? d := unwrap (down end_) in checked (mkInterval start d).
  (** /repo/src/interval.rs:339-351 *)
  Definition ei (start end_ : I) : outcome (Interval I) :=
    let? u := unwrap (up start) in checked (mkInterval u end_).
  (** /repo/src/interval.rs:368-380 *)
  Definition ee (start end_ : I) : outcome (Interval I) :=
    let? u := unwrap (up start) in
    let? d := unwrap (down end_) in checked (mkInterval u d).

  (** [core::ops::Bound], [core::ops::RangeInclusive], [core::ops::Range] as
      plain data.
      (used by the conversions of /repo/src/interval.rs:74-128) *)
  Inductive Bound := Included (x : I) | Excluded (x : I) | Unbounded.
  Record RangeInclusive := mkRangeInclusive { ri_start : I; ri_end : I }.
  Record Range := mkRange { r_start : I; r_end : I }.

  (** [impl RangeBounds for Interval]  (/repo/src/interval.rs:74-85) *)
  Definition start_bound (i : Interval I) : Bound := Included (ivl_start i).
  Definition end_bound (i : Interval I) : Bound := Included (ivl_end i).

  (** [From<Interval> for RangeInclusive]  (/repo/src/interval.rs:98-102) *)
  Definition range_inclusive_from (i : Interval I) : RangeInclusive :=
    mkRangeInclusive (ivl_start i) (ivl_end i).
  (** [From<RangeInclusive> for Interval]  (/repo/src/interval.rs:103-110) *)
  Definition interval_from_range_inclusive (r : RangeInclusive) : outcome (Interval I) :=
    ii (ri_start r) (ri_end r).
  (** [From<Interval> for Range]  (/repo/src/interval.rs:111-118) *)
  Definition range_from (i : Interval I) : outcome Range :=
    let? u := unwrap (up (ivl_end i)) in Val (mkRange (ivl_start i) u).
  (** [From<Range> for Interval]  (/repo/src/interval.rs:119-126) *)
  Definition interval_from_range (r : Range) : outcome (Interval I) := ie (r_start r) (r_end r).

  (** [#[derive(serde::Deserialize)]] on [Interval]  (/repo/src/interval.rs:40-41):
      both fields are read as they are; nothing compares them. *)
  Definition interval_deserialize (start end_ : I) : Interval I := mkInterval start end_.
End Constructors.
Arguments Bound : clear implicits.
Arguments RangeInclusive : clear implicits.
Arguments Range : clear implicits.

Section Methods.
  Context {I : Type} `{Ord I} `{DiscreteFinite I}.
  Context {K Q : Type} `{InclusiveInterval I K} `{InclusiveInterval I Q}.

  (** [contains_point]  (/repo/src/interval.rs:421-426) *)
  Definition contains_point (k : K) (point : I) : bool :=
    geb point (istart k) && leb point (iend k).

  (** [contains_interval]  (/repo/src/interval.rs:442-448) *)
  Definition contains_interval (k : K) (q : Q) : bool :=
    leb (istart k) (istart q) && geb (iend k) (iend q).

  (** [is_singular]  (/repo/src/interval.rs:481-486) *)
  Definition is_singular (k : K) : bool := eqb (istart k) (iend k).

  (** [intersection]  (/repo/src/interval.rs:498-514) *)
  Definition intersection (k : K) (other : Q) : option K :=
    let intersect_start := omax (istart k) (istart other) in
    let intersect_end := omin (iend k) (iend other) in
    if leb intersect_start intersect_end
    then Some (ifrom (mkInterval intersect_start intersect_end))
    else None.

  (** [core::ops::Add] and [Sub] on the point type.  They may panic (overflow
      in a debug build). *)
  Context (add sub : I -> I -> outcome I).

  (** [translate]  (/repo/src/interval.rs:547-557) *)
  Definition translate (k : K) (delta : I) : outcome K :=
    let? s := add (istart k) delta in
    let? e := add (iend k) delta in
    Val (ifrom (mkInterval s e)).

  (** [width]  (/repo/src/interval.rs:571-577) *)
  Definition width (k : K) : outcome I := sub (iend k) (istart k).
End Methods.
