(** * Base: panics, orders, points and intervals

    Model of /repo/src/discrete_finite.rs and of the data declarations of
    /repo/src/interval.rs.  No proofs in this file. *)
From Coq Require Import List ZArith Bool.
Import ListNotations.

(** ** Panics

    A Rust function that may panic returns an [outcome]: [Val a] is a normal
    return, [Panic] is an unwinding panic ([panic!], [unreachable!],
    [unwrap()] on [None]).  A function taking [&mut self] returns the pair of
    the value left behind in [*self] and its [outcome], so the state a caller
    would observe after [catch_unwind] is explicit. *)
Inductive outcome (A : Type) : Type :=
| Val (a : A)
| Panic.
Arguments Val {A} a.
Arguments Panic {A}.

Definition obind {A B} (o : outcome A) (f : A -> outcome B) : outcome B :=
  match o with
  | Val a => f a
  | Panic => Panic
  end.

Definition omap {A B} (f : A -> B) (o : outcome A) : outcome B :=
  match o with
  | Val a => Val (f a)
  | Panic => Panic
  end.

Notation "'let?' x ':=' o 'in' f" := (obind o (fun x => f))
  (at level 200, x pattern, o at level 100, f at level 200).

(** [Option::unwrap].
    (used at /repo/src/interval.rs:116, 206 and often) *)
Definition unwrap {A} (o : option A) : outcome A :=
  match o with
  | Some a => Val a
  | None => Panic
  end.

Definition is_some {A} (o : option A) : bool :=
  match o with Some _ => true | None => false end.

(** Rust's [Result]. *)
Inductive result (A E : Type) : Type :=
| Ok (a : A)
| Err (e : E).
Arguments Ok {A E} a.
Arguments Err {A E} e.

(** ** [Ord]

    The Rust trait [core::cmp::Ord].  Rust derives [<], [<=], [==] and friends
    of [PartialOrd]/[PartialEq] separately; like every user of [Ord] the model
    takes them to agree with [cmp] (that is the documented contract of [Ord]). *)
Class Ord (A : Type) := { cmp : A -> A -> comparison }.

Section OrdOps.
  Context {A : Type} `{Ord A}.
  Definition ltb (x y : A) : bool := match cmp x y with Lt => true | _ => false end.
  Definition leb (x y : A) : bool := match cmp x y with Gt => false | _ => true end.
  Definition gtb (x y : A) : bool := match cmp x y with Gt => true | _ => false end.
  Definition geb (x y : A) : bool := match cmp x y with Lt => false | _ => true end.
  Definition eqb (x y : A) : bool := match cmp x y with Eq => true | _ => false end.
  (** [Ord::max] and [Ord::min] ([core::cmp]): on ties [max] returns its second
      argument and [min] its first.
      (used at /repo/src/interval.rs:504-505) *)
  Definition omax (x y : A) : A := match cmp x y with Gt => x | _ => y end.
  Definition omin (x y : A) : A := match cmp x y with Gt => y | _ => x end.
End OrdOps.

(** The contract of [Ord] (a total order).  [cmp_eq] identifies points that
    compare [Equal]: the model does not distinguish [==]-equal points. *)
Class OrdLaws (A : Type) `{Ord A} := {
  cmp_eq : forall x y : A, cmp x y = Eq <-> x = y;
  cmp_opp : forall x y : A, cmp y x = CompOpp (cmp x y);
  cmp_trans : forall x y z : A, cmp x y = Lt -> cmp y z = Lt -> cmp x z = Lt
}.

(** The same without [cmp_eq]: points that compare [Equal] may be different
    values, like -0.0 and 0.0. *)
Class TotalPreorder (A : Type) `{Ord A} := {
  cmp_same : forall x : A, cmp x x = Eq;
  cmp_flip : forall x y : A, cmp y x = CompOpp (cmp x y);
  cmp_le_trans : forall x y z : A, cmp x y <> Gt -> cmp y z <> Gt -> cmp x z <> Gt
}.

(** ** [DiscreteFinite]   (/repo/src/discrete_finite.rs:7-21) *)
Class DiscreteFinite (I : Type) := {
  MIN : I;
  MAX : I;
  up : I -> option I;
  down : I -> option I
}.

(** The documented contract of [DiscreteFinite], and of [PointType]
    (/repo/src/nodit/map.rs:74), written out:
    - the order is total; values that compare [Equal] need not be identical;
    - [MIN]/[MAX] are the minimum/maximum value (discrete_finite.rs:8-11);
    - [up] is "the smallest value greater than self if one exists"
      (discrete_finite.rs:13), [down] the mirror image (line 17);
    - the type is finite (README "Finite-ness"): [points] lists every value, up
      to [Equal]. *)
Class PointLaws (I : Type) `{Ord I} `{DiscreteFinite I} := {
  point_ord : TotalPreorder I;
  min_least : forall x : I, leb MIN x = true;
  max_greatest : forall x : I, leb x MAX = true;
  up_some : forall x y : I, up x = Some y ->
      ltb x y = true /\ (forall z, ltb x z = true -> leb y z = true);
  up_none : forall x : I, up x = None -> forall z, ltb x z = false;
  down_some : forall x y : I, down x = Some y ->
      ltb y x = true /\ (forall z, ltb z x = true -> leb z y = true);
  down_none : forall x : I, down x = None -> forall z, ltb z x = false;
  points : list I;
  points_all : forall x : I, exists y, In y points /\ cmp x y = Eq
}.
#[export] Existing Instance point_ord.

(** ** [Interval]   (/repo/src/interval.rs:42-47)

    A plain pair of public-in-crate fields: nothing in the type forces
    [start <= end]. *)
Record Interval (I : Type) := mkInterval { ivl_start : I; ivl_end : I }.
Arguments mkInterval {I} ivl_start ivl_end.
Arguments ivl_start {I} i.
Arguments ivl_end {I} i.

(** ** [InclusiveInterval]   (/repo/src/interval.rs:383-407)

    The required part of the trait: [start], [end] and the supertrait
    [From<Interval<I>>].  The provided methods (lines 409-577) are modelled as
    functions in [IntervalModel]; a type that overrides them is not modelled.
    [IntervalType<I>] (/repo/src/nodit/map.rs:79-85) is a blanket alias. *)
Class InclusiveInterval (I K : Type) := {
  istart : K -> I;
  iend : K -> I;
  ifrom : Interval I -> K
}.

(** [impl InclusiveInterval<I> for Interval<I>]  (/repo/src/interval.rs:86-97);
    [From<Interval<I>> for Interval<I>] is the reflexive [From] of core. *)
#[export] Instance Interval_InclusiveInterval (I : Type) : InclusiveInterval I (Interval I) := {
  istart := ivl_start;
  iend := ivl_end;
  ifrom := fun i => i
}.

(** What the crate relies on about a user's interval type: converting a valid
    [Interval] preserves its end-points (up to [Equal]). *)
Class IntervalLaws (I K : Type) `{Ord I} `{InclusiveInterval I K} := {
  from_valid : forall i : Interval I, leb (ivl_start i) (ivl_end i) = true ->
      cmp (istart (ifrom i : K)) (ivl_start i) = Eq /\ cmp (iend (ifrom i : K)) (ivl_end i) = Eq
}.

(** What the gap queries rely on besides: converting an invalid [Interval] does
    not make it valid (they convert first and filter afterwards:
    /repo/src/nodit/map.rs:535-543, 635-643). *)
Class FromInvalid (I K : Type) `{Ord I} `{InclusiveInterval I K} := {
  from_invalid : forall i : Interval I, leb (ivl_start i) (ivl_end i) = false ->
      leb (istart (ifrom i : K)) (iend (ifrom i : K)) = false
}.
