(** * EffectTraceOps: vocabulary of C164.  No proofs in this file. *)
From Coq Require Import List.
From Verif Require Import Base BTree UtilsModel IntervalModel NoditModel NoditOps TreeShape GqditModel GqditOps TraceModel EffectModel EffectOps EffectGqditModel EffectGqditOps EffectCrashOps.
Import ListNotations.

(** The outcome [o] or a panic. *)
Definition may {W A} (x : user W A) (o : outcome A) : Prop := forall w, fst (x w) = o \/ fst (x w) = Panic.
Section May.
  Context {W I : Type} `{Ord I} `{DiscreteFinite I}.
  (** Methods of points and intervals that give the right answer or panic. *)
  Definition points_or_panic (P : point_code W I) : Prop :=
    (forall x y, right_or_panic (e_cmp P x y) (cmp x y) /\ right_or_panic (e_lt P x y) (ltb x y) /\
       right_or_panic (e_gt P x y) (gtb x y) /\ right_or_panic (e_le P x y) (leb x y) /\ right_or_panic (e_ge P x y) (geb x y) /\ right_or_panic (e_eq P x y) (eqb x y)) /\
    (forall x, right_or_panic (e_up P x) (up x) /\ right_or_panic (e_down P x) (down x)).
  Definition intervals_or_panic {X} `{InclusiveInterval I X} (ix : interval_code W I X) : Prop := forall x,
    right_or_panic (e_start ix x) (istart x) /\ right_or_panic (e_end ix x) (iend x) /\ right_or_panic (e_valid ix x) (is_valid x).
  Definition overlaps_or_panic {A B} `{InclusiveInterval I A} `{InclusiveInterval I B} (f : A -> B -> user W bool) : Prop :=
    forall a b, may (f a b) (overlaps a b).
End May.
(** What a call left and returned is [r], or it panicked and left one of [states]. *)
Definition lands {S A} (left_by : S * outcome A) (r : S * outcome A) (states : list S) : Prop :=
  left_by = r \/ snd left_by = Panic /\ In (fst left_by) states.
Definition contains_or_panic {W I K} `{Ord I} `{InclusiveInterval I K} (kc : K -> I -> user W bool) : Prop := forall k p, right_or_panic (kc k p) (contains_point k p).

(** Identifiers whose comparison, equality and clone give the right answer or panic. *)
Definition all_ids_or_panic {W D} `{Ord D} (J : id_code W D) : Prop := forall d d',
  right_or_panic (i_cmp J d d') (cmp d d') /\ right_or_panic (i_eq J d d') (eqb d d') /\ right_or_panic (i_clone J d) d.
(** The states in which a call, or a history of calls, can leave a [Gqdit]: any state it
    passes through.  The [Gqdit] given to [append] may have been left by a history with
    panics; if its [new] panics, [append] is not reached. *)
Section Calls.
  Context {I K D : Type} `{Ord I} `{DiscreteFinite I} `{InclusiveInterval I K} `{Ord D}.
  Inductive gstop : gcall K D -> Gqdit K D -> Gqdit K D -> Prop :=
  | stop_insert ids k g g' : In g' (gqdit_insert_t ids k g) -> gstop (CallInsert ids k) g g'
  | stop_cut ids q g g' : In g' (cut_with_identifiers_t ids q g) -> gstop (CallCutWith ids q) g g'
  | stop_all q g g' : In g' (cut_all_identifiers_t q g) -> gstop (CallCutAll q) g g'
  | stop_append cs g other g' : gstops cs gnew other -> In g' (append_t g other) -> gstop (CallAppend cs) g g'
  | stop_no_other cs g : gstop (CallAppend cs) g g
  with gstops : list (gcall K D) -> Gqdit K D -> Gqdit K D -> Prop :=
  | stops_nil g : gstops [] g g
  | stops_cons c cs g g1 g2 : gstop c g g1 -> gstops cs g1 g2 -> gstops (c :: cs) g g2.
End Calls.
