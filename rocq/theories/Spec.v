(** * Spec: the vocabulary of the property statements.

    Everything here is about points: an interval is the set of points it covers,
    a map is the set of its entries.  Nothing refers to the model's helpers.
    The only parts of the model mentioned are the trait methods [cmp] (of
    [Ord]) and [istart]/[iend] (of [InclusiveInterval]). *)
From Coq Require Import List Sorting.Sorted.
From Verif Require Import Base.
Import ListNotations.

(** The subsequence of [l] of the elements satisfying [P]: [sub P l l'] says
    that [l'] consists of exactly the elements of [l] that satisfy [P], in the
    same order and with the same multiplicity. *)
Inductive sub {A} (P : A -> Prop) : list A -> list A -> Prop :=
| sub_nil : sub P [] []
| sub_keep x l l' : P x -> sub P l l' -> sub P (x :: l) (x :: l')
| sub_drop x l l' : ~ P x -> sub P l l' -> sub P (x :: l) l'.

Section Spec.
  Context {I : Type} `{Ord I}.

  (** [x <= y] and [x < y] on points. *)
  Definition ple (x y : I) : Prop := cmp x y <> Gt.
  Definition plt (x y : I) : Prop := cmp x y = Lt.

  (** The point [p] lies in the interval [k]. *)
  Definition covers {K} `{InclusiveInterval I K} (k : K) (p : I) : Prop :=
    ple (istart k) p /\ ple p (iend k).

  (** README, "Invalid Intervals": "a interval is only valid if it contains at
      least one value of the underlying domain". *)
  Definition valid {K} `{InclusiveInterval I K} (k : K) : Prop := exists p, covers k p.

  (** README, "Overlap": "there exists a point that is contained within both
      intervals". *)
  Definition overlap {A B} `{InclusiveInterval I A} `{InclusiveInterval I B} (a : A) (b : B) : Prop :=
    exists p, covers a p /\ covers b p.

  (** [a] lies entirely to the left of [b]. *)
  Definition before {A B} `{InclusiveInterval I A} `{InclusiveInterval I B} (a : A) (b : B) : Prop :=
    forall x y, covers a x -> covers b y -> plt x y.

  (** The point [p] lies after all of [a] and before all of [b]. *)
  Definition between {A B} `{InclusiveInterval I A} `{InclusiveInterval I B}
    (a : A) (b : B) (p : I) : Prop :=
    (forall x, covers a x -> plt x p) /\ (forall y, covers b y -> plt p y).

  (** README, "Touching": "they do not overlap and there exists no value between
      them". *)
  Definition touch {A B} `{InclusiveInterval I A} `{InclusiveInterval I B} (a : A) (b : B) : Prop :=
    ~ overlap a b /\ forall p, ~ between a b p /\ ~ between b a p.

  (** Two intervals with the same points. *)
  Definition same_points {A B} `{InclusiveInterval I A} `{InclusiveInterval I B} (a : A) (b : B) : Prop :=
    forall p, covers a p <-> covers b p.

  (** Intervals listed from left to right, no two sharing a point. *)
  Definition ascending {K} `{InclusiveInterval I K} (l : list K) : Prop :=
    StronglySorted before l.

  (** [g] is a maximal interval all of whose points satisfy [P]: every such
      interval sharing a point with [g] lies inside [g]. *)
  Definition max_run {K} `{InclusiveInterval I K} (P : I -> Prop) (g : K) : Prop :=
    valid g /\
    (forall p, covers g p -> P p) /\
    (forall j : Interval I, (forall p, covers j p -> P p) -> overlap g j ->
       forall p, covers j p -> covers g p).

  (** [l] lists, from left to right, exactly the maximal intervals of [P]-points
      that satisfy [sel]. *)
  Definition lists_max_runs {K} `{InclusiveInterval I K} (P : I -> Prop)
    (sel : Interval I -> Prop) (l : list K) : Prop :=
    ascending l /\
    (forall g, In g l -> max_run P g /\ sel (mkInterval (istart g) (iend g))) /\
    (forall j : Interval I, max_run P j -> sel j -> exists g, In g l /\ same_points g j).

  Section Maps.
    Context {K V : Type} `{InclusiveInterval I K}.

    (** [p] lies in a stored interval / is mapped to [v]. *)
    Definition covered (m : list (K * V)) (p : I) : Prop :=
      exists k v, In (k, v) m /\ covers k p.
    Definition maps_to (m : list (K * V)) (p : I) (v : V) : Prop :=
      exists k, In (k, v) m /\ covers k p.
    (** Two maps with the same value at every point. *)
    Definition same_map (m m' : list (K * V)) : Prop :=
      forall p v, maps_to m p v <-> maps_to m' p v.

    (** What a merging insertion of [(k, v)] does when it absorbs the entries
        satisfying [P] into the interval [r]: [r] has the points of [k] and of
        the absorbed entries and no others, the new map is the old one without
        them and with [(r, v)], and [r] is [k] itself if nothing is absorbed. *)
    Definition absorbs (P : K * V -> Prop) (k : K) (v : V) (m m' : list (K * V)) (r : K) : Prop :=
      (forall p, covers r p <-> covers k p \/ exists e, In e m /\ P e /\ covers (fst e) p) /\
      (exists l1 l2, sub (fun e => ~ P e) m (l1 ++ l2) /\ m' = l1 ++ (r, v) :: l2) /\
      ((forall e, In e m -> ~ P e) -> r = k).
  End Maps.

  (** Valid intervals, no two of which share a point. *)
  Definition disjoint_intervals {K} `{InclusiveInterval I K} (l : list K) : Prop :=
    Forall valid l /\ ForallOrdPairs (fun a b => ~ overlap a b) l.

  (** A constructor of intervals meant to build the interval with the points
      [P]: it does so if there is such a point, and panics if there is none. *)
  Definition builds {K} `{InclusiveInterval I K} (o : outcome K) (P : I -> Prop) : Prop :=
    ((exists p, P p) -> exists k, o = Val k /\ forall p, covers k p <-> P p) /\
    (~ (exists p, P p) -> o = Panic).

  (** The contract of [DiscreteFinite] (/repo/src/discrete_finite.rs:7-21). *)
  Definition discrete_finite_contract `{DiscreteFinite I} : Prop :=
    (forall x, ple MIN x) /\ (forall x, ple x MAX) /\
    (forall x y, up x = Some y <-> plt x y /\ forall z, plt x z -> ple y z) /\
    (forall x, up x = None <-> x = MAX) /\
    (forall x y, down x = Some y <-> plt y x /\ forall z, plt z x -> ple z y) /\
    (forall x, down x = None <-> x = MIN).

  (** /repo/src/zosdit/mod.rs "Zero-Overlap": the intersection has zero width (at
      most one point, counting points that compare Equal as one), and a singular interval is not strictly inside another
      one, i.e. it does not have points of the other on both sides. *)
  Definition singular {K} `{InclusiveInterval I K} (k : K) : Prop :=
    valid k /\ forall x y, covers k x -> covers k y -> cmp x y = Eq.
  Definition strictly_inside {A B} `{InclusiveInterval I A} `{InclusiveInterval I B}
    (a : A) (b : B) : Prop :=
    exists x y, covers b x /\ covers b y /\ forall p, covers a p -> plt x p /\ plt p y.
  Definition zero_overlap {A B} `{InclusiveInterval I A} `{InclusiveInterval I B}
    (a : A) (b : B) : Prop :=
    (forall x y, covers a x -> covers b x -> covers a y -> covers b y -> cmp x y = Eq) /\
    ~ (singular a /\ strictly_inside a b) /\ ~ (singular b /\ strictly_inside b a).
End Spec.
