(** * UtilsOps: what the crate-internal helpers on pairs of intervals are named after
      (/repo/src/utils.rs:14-172; vocabulary of C135).  No proofs in this file. *)
From Coq Require Import List.
From Verif Require Import Base UtilsModel Spec.

Section Utils.
  Context {I : Type} `{Ord I}.
  Context {A B : Type} `{InclusiveInterval I A} `{InclusiveInterval I B}.

  (** All points of [b] are points of [a]. *)
  Definition within {X Y} `{InclusiveInterval I X} `{InclusiveInterval I Y} (b : Y) (a : X) : Prop :=
    forall p, covers b p -> covers a p.
  (** What the names of the variants of [Config] say; the left one is first if it starts first. *)
  Definition config_says (a : A) (b : B) (c : Config) : Prop :=
    match c with
    | LeftFirstNonOverlapping => plt (istart a) (istart b) /\ ~ overlap a b
    | LeftFirstPartialOverlap => plt (istart a) (istart b) /\ overlap a b /\ ~ within b a
    | LeftContainsRight => plt (istart a) (istart b) /\ within b a
    | RightFirstNonOverlapping => ple (istart b) (istart a) /\ ~ overlap a b
    | RightFirstPartialOverlap => ple (istart b) (istart a) /\ overlap a b /\ ~ within a b
    | RightContainsLeft => ple (istart b) (istart a) /\ within a b
    end.
  (** [x] and [y] are [a] and [b], the one that starts first first. *)
  Definition sorted (a : A) (b : B) (x y : Interval I) : Prop :=
    let a' := mkInterval (istart a) (iend a) in let b' := mkInterval (istart b) (iend b) in
    (plt (istart a) (istart b) /\ x = a' /\ y = b') \/ (ple (istart b) (istart a) /\ x = b' /\ y = a').
  (** What the names of the variants of [SortedConfig] say. *)
  Definition sorted_config_says (a : A) (b : B) (c : SortedConfig I) : Prop :=
    match c with
    | NonOverlapping x y => sorted a b x y /\ ~ overlap a b
    | PartialOverlap x y => sorted a b x y /\ overlap a b /\ ~ within y x
    | Swallowed x y => sorted a b x y /\ within y x
    end.
  (** [o] is the interval of the points satisfying [P], or [None] if there are none. *)
  Definition part (o : option (Interval I)) (P : I -> Prop) : Prop :=
    match o with
    | Some i => valid i /\ forall p, covers i p <-> P p
    | None => forall p, ~ P p
    end.
  (** What the names of the fields of [CutResult] say. *)
  Definition cut_says (base : A) (cut : B) (r : CutResult I) : Prop :=
    part (before_cut r) (fun p => covers base p /\ plt p (istart cut)) /\
    part (inside_cut r) (fun p => covers base p /\ covers cut p) /\
    part (after_cut r) (fun p => covers base p /\ plt (iend cut) p).
End Utils.
