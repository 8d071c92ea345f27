(** * CloneOps: the vocabulary of C115 and C116.  No proofs in this file; part
      of the specification. *)
From Coq Require Import List.
From Verif Require Import Base BTree UtilsModel IntervalModel NoditModel NoditOps ZosditModel ZosditOps NoditSetOps Spec CloneModel.
Import ListNotations.

Section Ops.
  Context {I : Type} `{Ord I} `{DiscreteFinite I}.
  Context {K : Type} `{InclusiveInterval I K}.

  (** [k] has points in [q] and points before all of [q] / after all of [q]. *)
  Definition sticks_out_before {Q} `{InclusiveInterval I Q} (q : Q) (k : K) : Prop :=
    overlap k q /\ exists x, covers k x /\ forall y, covers q y -> plt x y.
  Definition sticks_out_after {Q} `{InclusiveInterval I Q} (q : Q) (k : K) : Prop :=
    overlap k q /\ exists x, covers k x /\ forall y, covers q y -> plt y x.

  (** The ZosditMap call [o'] is [o] with every value replaced by its image. *)
  Inductive zop_image {V W : Type} (g : V -> W) : zop I K V -> zop I K W -> Prop :=
  | zi_new : zop_image g ZNew ZNew
  | zi_insert k v : zop_image g (ZInsertStrictBack k v) (ZInsertStrictBack k (g v))
  | zi_remove p : zop_image g (ZRemoveLast p) (ZRemoveLast p)
  | zi_cut Q (IQ : InclusiveInterval I Q) (q : Q) : zop_image g (ZCut q) (ZCut q)
  | zi_from_iter l : zop_image g (ZFromIter l) (ZFromIter (map (image g) l))
  | zi_deserialize l : zop_image g (ZDeserialize l) (ZDeserialize (map (option_map (image g)) l)).

  (** 1 for the calls that cut the map, 0 for all others. *)
  Definition calls_cut {V} (o : op I K V) : nat :=
    match o with OpCut _ => 1 | OpInsertOverwrite _ _ => 1 | _ => 0 end.
  Definition zcalls_cut {V} (o : zop I K V) : nat :=
    match o with ZCut _ => 1 | _ => 0 end.
End Ops.

(** [clone], also counting its calls. *)
Definition counted {V W : Type} (clone : W -> V -> V * W) (s : W * nat) (v : V) : V * (W * nat) :=
  let (v', w) := clone (fst s) v in (v', (w, S (snd s))).
