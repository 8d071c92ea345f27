(** * GqditIdsOps: histories of Gqdit calls whose identifiers may compare Equal
      without being the same value.  No proofs in this file; part of the
      specification of C112. *)
From Coq Require Import List.
From Verif Require Import Base BTree UtilsModel IntervalModel NoditModel GqditModel GqditOps Spec.
Import ListNotations.

Section Ops.
  Context {I : Type} {OI : Ord I} {DI : DiscreteFinite I}.
  Context {K : Type} {IK : InclusiveInterval I K}.
  Context {D : Type} {OD : Ord D}.

  (** Some element of [l] compares Equal to [d]. *)
  Definition in_like (d : D) (l : list D) : Prop := exists d', In d' l /\ cmp d d' = Eq.
  (** [removes], [adds] and [added] of GqditOps, up to comparing Equal. *)
  Definition removes_like (o : gop I K D) (d : D) (p : I) : Prop :=
    match o with
    | GCutWith ids q => in_like d ids /\ covers q p
    | GCutAll q => covers q p
    | _ => False
    end.
  Inductive adds_like : gop I K D -> D -> I -> Prop :=
  | al_insert ids k d p : in_like d ids -> covers k p -> adds_like (GInsert ids k) d p
  | al_append os d p : added_like os d p -> adds_like (GAppend os) d p
  with added_like : list (gop I K D) -> D -> I -> Prop :=
  | al_by os1 o os2 d p : adds_like o d p -> Forall (fun o' => ~ removes_like o' d p) os2 ->
      added_like (os1 ++ o :: os2) d p.
  (** The very value [d] is given to an insert of the history. *)
  Inductive given : list (gop I K D) -> D -> Prop :=
  | given_insert os ids k d : In (GInsert ids k) os -> In d ids -> given os d
  | given_append os os' d : In (GAppend os') os -> given os' d -> given os d.
  (** Nobody at [p] but what compares Equal to [d]. *)
  Definition free_but_like (d : D) (g : Gqdit K D) (p : I) : Prop := forall d', has_id g p d' -> cmp d' d = Eq.
End Ops.

(** The same call with every identifier converted by [e]. *)
Section Relabel.
  Context {I : Type} {OI : Ord I} {DI : DiscreteFinite I}.
  Context {K : Type} {IK : InclusiveInterval I K}.
  Context {D E : Type} (e : D -> E).
  Fixpoint relabel (o : gop I K D) : gop I K E :=
    match o with
    | GInsert ids k => GInsert (map e ids) k
    | GCutWith ids q => GCutWith (map e ids) q
    | GCutAll q => GCutAll q
    | GAppend os => GAppend (map relabel os)
    end.
End Relabel.
