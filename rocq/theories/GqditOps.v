(** * GqditOps: histories of Gqdit calls and what they mean for points and
      identifiers.  No proofs in this file; part of the specification (C43-C52). *)
From Coq Require Import List Sorting.Sorted.
From Verif Require Import Base BTree UtilsModel IntervalModel NoditModel GqditModel Spec.
Import ListNotations.

Section Ops.
  Context {I : Type} `{Ord I} `{DiscreteFinite I}.
  Context {K : Type} `{InclusiveInterval I K}.
  Context {D : Type} `{Ord D}.

  (** A value of [BTreeSet]: strictly ascending. *)
  Definition is_set (s : BTreeSet D) : Prop := StronglySorted (fun a b => cmp a b = Lt) s.
  (** The set with the listed elements. *)
  Definition collect (l : list D) : BTreeSet D := bset_extend bset_empty l.

  (** One constructor per method of /repo/src/gqdit/mod.rs that changes [self].
      The identifiers are any list, collected into a set.  The argument of
      [append] is any other history. *)
  Inductive gop : Type :=
  | GInsert (ids : list D) (k : K)
  | GCutWith (ids : list D) {Q : Type} `{InclusiveInterval I Q} (q : Q)
  | GCutAll {Q : Type} `{InclusiveInterval I Q} (q : Q)
  | GAppend (other : list gop).

  Definition gnew : Gqdit K D := match gqdit_new with Val g => g | Panic => [] end.
  (** A panic is caught and the state left behind is used. *)
  Fixpoint gstep (o : gop) (g : Gqdit K D) : Gqdit K D :=
    match o with
    | GInsert ids k => fst (gqdit_insert (collect ids) k g)
    | GCutWith ids q => fst (cut_with_identifiers (collect ids) q g)
    | GCutAll q => fst (cut_all_identifiers q g)
    | GAppend os => fst (fst (append g (fold_left (fun g o => gstep o g) os gnew)))
    end.
  Definition gsteps (os : list gop) (g : Gqdit K D) : Gqdit K D := fold_left (fun g o => gstep o g) os g.
  Definition grun (os : list gop) : Gqdit K D := gsteps os gnew.
  (** Built by any history, and not (yet) passed to [append] as [other]. *)
  Definition greachable (g : Gqdit K D) : Prop := exists os, g = grun os.
  (** Passed to [append] as [other] at some time, and used further. *)
  Definition gdrained (g : Gqdit K D) : Prop :=
    exists os1 os2 os3, g = gsteps os3 (snd (fst (append (grun os1) (grun os2)))).

  (** The identifier [d] is in [identifiers_at_point(p)]. *)
  Definition has_id (g : Gqdit K D) (p : I) (d : D) : Prop :=
    exists s, identifiers_at_point g p = Val s /\ In d s.

  (** The call removes [d] at [p]. *)
  Definition removes (o : gop) (d : D) (p : I) : Prop :=
    match o with
    | GCutWith ids q => In d ids /\ covers q p
    | GCutAll q => covers q p
    | _ => False
    end.
  (** The call adds [d] at [p]; the history has added [d] at [p] and not removed
      it since. *)
  Inductive adds : gop -> D -> I -> Prop :=
  | adds_insert ids k d p : In d ids -> covers k p -> adds (GInsert ids k) d p
  | adds_append os d p : added os d p -> adds (GAppend os) d p
  with added : list gop -> D -> I -> Prop :=
  | added_by os1 o os2 d p : adds o d p -> Forall (fun o' => ~ removes o' d p) os2 ->
      added (os1 ++ o :: os2) d p.

  (** Nobody, or nobody but [d], is at [p]. *)
  Definition free (g : Gqdit K D) (p : I) : Prop := forall d, ~ has_id g p d.
  Definition free_but (d : D) (g : Gqdit K D) (p : I) : Prop := forall d', has_id g p d' -> d' = d.

  (** What serialized data must be like to describe a Gqdit: the intervals cover
      every point, neighbouring ones carry different sets, and every interval is
      one the interval type's [From<Interval>] makes of a valid [Interval]. *)
  Definition describes_gqdit (l : list (K * BTreeSet D)) : Prop :=
    disjoint_intervals (map fst l) /\ (forall p, covered l p) /\
    (forall k s k' s', In (k, s) l -> In (k', s') l -> touch k k' -> s <> s') /\
    (forall k s, In (k, s) l -> is_set s /\ exists i : Interval I, valid i /\ k = ifrom i).
End Ops.
Arguments gop : clear implicits.
