(** * GqditTransportOps: the same calls on a Gqdit with other points, intervals
      and identifiers.  No proofs in this file; part of the specification of C99. *)
From Coq Require Import List.
From Verif Require Import Base BTree UtilsModel IntervalModel NoditModel GqditModel GqditOps Spec.
Import ListNotations.

(** [f] keeps every comparison. *)
Definition keeps_order {A B} `{Ord A} `{Ord B} (f : A -> B) : Prop := forall x y, cmp (f x) (f y) = cmp x y.
(** Every element of [B] is one of the image or compares Equal to one. *)
Definition reaches_all {A B} `{Ord B} (f : A -> B) : Prop := forall y, exists x, cmp y (f x) = Eq.

Section Transport.
  Context {I J : Type} {OI : Ord I} {DI : DiscreteFinite I} {OJ : Ord J} {DJ : DiscreteFinite J} (f : I -> J).

  (** The end-points of [r] compare Equal to the images of those of [q]. *)
  Definition ends_sent {Q R} `{InclusiveInterval I Q} `{InclusiveInterval J R} (q : Q) (r : R) : Prop :=
    cmp (istart r) (f (istart q)) = Eq /\ cmp (iend r) (f (iend q)) = Eq.

  Context {K L : Type} {IK : InclusiveInterval I K} {IL : InclusiveInterval J L}.
  Context {D E : Type} {OD : Ord D} {OE : Ord E} (e : D -> E).

  (** [o'] is the call [o] with its points and identifiers converted. *)
  Inductive gop_sent : gop I K D -> gop J L E -> Prop :=
  | gs_insert ids k l : ends_sent k l -> gop_sent (GInsert ids k) (GInsert (map e ids) l)
  | gs_cut_with ids Q (IQ : InclusiveInterval I Q) R (IR : InclusiveInterval J R) (q : Q) (r : R) :
      ends_sent q r -> gop_sent (GCutWith ids q) (GCutWith (map e ids) r)
  | gs_cut_all Q (IQ : InclusiveInterval I Q) R (IR : InclusiveInterval J R) (q : Q) (r : R) :
      ends_sent q r -> gop_sent (GCutAll q) (GCutAll r)
  | gs_append os os' : Forall2 gop_sent os os' -> gop_sent (GAppend os) (GAppend os').
End Transport.
