(** * EffectMoreOps: vocabulary of C161.  No proofs in this file. *)
From Coq Require Import List.
From Verif Require Import Base BTree UtilsModel IntervalModel NoditModel NoditSetModel NoditOps NoditSetOps TreeShape EffectModel EffectOps EffectMoreModel.
Import ListNotations.

(** [k] is what [K::from] gave at some time. *)
Definition made_by {W I K} (from : Interval I -> user W K) (k : K) : Prop := exists i w w', from i w = (Val k, w').
(** [e'] is [e], with the same interval, after the caller's [f] was let at its value at some time
    and ended with [o]. *)
Definition edited_by {W K V} (f : edit) (o : outcome unit) (e e' : K * V) : Prop :=
  fst e' = fst e /\ exists w w' : W, f (fst e) (snd e) w = ((snd e', o), w').
(** The run [l] of [m] was gone through from left to right, and each of its entries edited: all
    of them if the call returned; if it panicked, all up to some place, where the edit may have
    panicked. *)
Definition edits_run {W K V} (f : edit (W := W)) (l m m' : list (K * V)) (o : outcome unit) : Prop := exists a done done' last last' todo b,
  m = a ++ l ++ b /\ l = done ++ last ++ todo /\ m' = a ++ done' ++ last' ++ todo ++ b /\
  Forall2 (edited_by f (Val tt)) done done' /\ Forall2 (edited_by f Panic) last last' /\ length last <= 1 /\
  match o with Val _ => last ++ todo = [] | Panic => True end.
(** The caller's code has side effects, but changes the value as [g] does. *)
Definition right_edit {W K V} (f : edit (W := W)) (g : K -> V -> V) : Prop := forall k v w, fst (f k v w) = (g k v, Val tt).

(** ** Histories of a set *)
Inductive scall (K : Type) : Type :=
| CStrict (k : K)
| CTouching (k : K)
| COverlapping (k : K)
| CBoth (k : K)
| COverwrite (k : K)
| CRemove (q : K)
| CCut (q : K).
Arguments CStrict {K}. Arguments CTouching {K}. Arguments COverlapping {K}. Arguments CBoth {K}. Arguments COverwrite {K}. Arguments CRemove {K}. Arguments CCut {K}.
Definition stored_by {K} (c : scall K) : list K :=
  match c with CStrict k | CTouching k | COverlapping k | CBoth k | COverwrite k => [k] | CRemove _ | CCut _ => [] end.
(** The interval a map's call inserts. *)
Definition key_given {K V} (c : ecall K V) : list K :=
  match c with
  | EStrict k _ | ETouching k _ | EEqual k _ | EOverlapping k _ | EBoth k _ | EOverwrite k _ => [k]
  | ERemove _ | ECut _ => []
  end.

Section Calls.
  Context {W I K : Type} (P : point_code W I) `{DiscreteFinite I} (ik : interval_code W I K) (from : Interval I -> user W K) (overlaps_k : K -> K -> user W bool).
  Definition handing_back {A} (f : A -> list K) (x : (NoditSet K * outcome A) * W) : NoditSet K * list K * W :=
    match x with ((s, Val a), w) => (s, f a, w) | ((s, Panic), w) => (s, [], w) end.
  (** The set, the intervals handed to the caller, and the world after a call. *)
  Definition scall_do (T : nat -> BTreeMap K unit -> tree K unit) (c : scall K) (s : NoditSet K) (w : W) : NoditSet K * list K * W :=
    match c with
    | CStrict k => handing_back (fun _ => []) (set_insert_strict_e P ik T k s w)
    | CTouching k => handing_back (fun r => match r with Ok k => [k] | Err _ => [] end) (set_insert_merge_touching_e P ik from overlaps_k T k s w)
    | COverlapping k => handing_back (fun k => [k]) (set_insert_merge_overlapping_e P ik from overlaps_k T k s w)
    | CBoth k => handing_back (fun k => [k]) (set_insert_merge_touching_or_overlapping_e P ik from overlaps_k T k s w)
    | COverwrite k => handing_back (fun l => l) (set_insert_overwrite_e P ik from overlaps_k T k s w)
    | CRemove q => handing_back (fun l => l) (set_remove_overlapping_e P ik ik overlaps_k q (T 0 s) w)
    | CCut q => handing_back (fun l => l) (set_cut_e P ik from ik overlaps_k q (T 0 s) w)
    end.
  Fixpoint shistory (T : nat -> nat -> BTreeMap K unit -> tree K unit) (cs : list (scall K)) (s : NoditSet K) (w : W) : NoditSet K * list K * W :=
    match cs with
    | [] => (s, [], w)
    | c :: cs =>
        let '(s, h, w) := scall_do (T (length cs)) c s w in
        let '(s, h', w) := shistory T cs s w in (s, h ++ h', w)
    end.
End Calls.
(** The call of [NoditSetOps] that a call is. *)
Definition as_set_op {I K} `{Ord I} `{DiscreteFinite I} `{InclusiveInterval I K} (c : scall K) : set_op I K :=
  match c with
  | CStrict k => SInsertStrict k
  | CTouching k => SInsertMergeTouching k
  | COverlapping k => SInsertMergeOverlapping k
  | CBoth k => SInsertMergeTouchingOrOverlapping k
  | COverwrite k => SInsertOverwrite k
  | CRemove q => SRemoveOverlapping q
  | CCut q => SCut q
  end.
