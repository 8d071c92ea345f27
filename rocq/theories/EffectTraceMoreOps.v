(** * EffectTraceMoreOps: vocabulary of C165.  No proofs in this file. *)
From Coq Require Import List.
From Verif Require Import Base BTree UtilsModel IntervalModel NoditModel NoditOps EffectModel EffectMoreModel EffectMoreOps.
Import ListNotations.

(** A caller's edit that makes each value [g] of it, or panics having left any value. *)
Definition edit_or_panic {W K V} (f : edit (W := W)) (g : K -> V -> V) : Prop :=
  forall k v w, fst (f k v w) = (g k v, Val tt) \/ snd (fst (f k v w)) = Panic.
(** [m'] is [m] with a panic at some entry of [l], a run of entries in it: those of [l]
    before it are [g] of what they were, its own value is any, the rest is as before. *)
Definition edits_stopped {K V} (g : K -> V -> V) (l m m' : list (K * V)) : Prop := exists a done k v v' todo b,
  l = done ++ (k, v) :: todo /\ m = a ++ l ++ b /\ m' = a ++ map (fun e => (fst e, g (fst e) (snd e))) done ++ (k, v') :: todo ++ b.
(** A set's call as the call of the map in it. *)
Definition as_map_op {I K} `{Ord I} `{DiscreteFinite I} `{InclusiveInterval I K} (c : scall K) : op I K unit :=
  match c with
  | CStrict k => OpInsertStrict k tt
  | CTouching k => OpInsertMergeTouching k tt
  | COverlapping k => OpInsertMergeOverlapping k tt
  | CBoth k => OpInsertMergeTouchingOrOverlapping k tt
  | COverwrite k => OpInsertOverwrite k tt
  | CRemove q => OpRemoveOverlapping q
  | CCut q => OpCut q
  end.
