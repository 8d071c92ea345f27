(** * CostOps: vocabulary of C120, counting the changes of the B-tree.  No proofs in
      this file; part of the specification. *)
From Coq Require Import List Arith.
From Verif Require Import Base BTree IntervalModel NoditModel NoditOps ZosditModel ZosditOps GqditModel GqditOps TraceModel Spec.
Import ListNotations.

(** Of the states a call passes through (C92: from each to the next at most one entry
    comes or goes), how many have one entry more, or less, than the one before. *)
Fixpoint tree_adds {T} (t : list (list T)) : nat :=
  match t with
  | s :: ((s' :: _) as r) => (if length s <? length s' then 1 else 0) + tree_adds r
  | _ => 0
  end.
Fixpoint tree_removes {T} (t : list (list T)) : nat :=
  match t with
  | s :: ((s' :: _) as r) => (if length s' <? length s then 1 else 0) + tree_removes r
  | _ => 0
  end.

Section Cost.
  Context {I : Type} `{Ord I} `{DiscreteFinite I}.
  Context {K : Type} `{InclusiveInterval I K}.
  Context {V : Type}.
  (** The entries a series of calls adds to and removes from the tree. *)
  Fixpoint work (m : NoditMap K V) (os : list (op I K V)) : nat :=
    match os with
    | [] => 0
    | o :: os => tree_adds (trace m o) + tree_removes (trace m o) + work (step m o) os
    end.
  (** How many entries a call adds at most. *)
  Definition at_most_added (o : op I K V) : nat :=
    match o with
    | OpInsertOverwrite _ _ => 3
    | OpCut _ => 2
    | OpRemoveOverlapping _ => 0
    | _ => 1
    end.

  (** The same for a ZosditMap, whose tree holds the values with the same interval
      together in one entry. *)
  Definition ztree (t : list (ZosditMap K V)) : list (list (K * list V)) := map z_inner t.
  Fixpoint zwork (z : ZosditMap K V) (os : list (zop I K V)) : nat :=
    match os with
    | [] => 0
    | o :: os => tree_adds (ztree (ztrace z o)) + tree_removes (ztree (ztrace z o)) + zwork (zstep z o) os
    end.
  Definition by_values (o : zop I K V) : Prop :=
    match o with ZInsertStrictBack _ _ | ZRemoveLast _ | ZCut _ => True | _ => False end.
  Definition at_most_added_z (o : zop I K V) : nat :=
    match o with ZCut _ => 2 | ZInsertStrictBack _ _ => 1 | _ => 0 end.

  (** And for a Gqdit.  [meeting g o n]: [n] of the entries of its map overlap the
      interval of the call [o]. *)
  Context {D : Type} `{Ord D}.
  Definition meeting (g : Gqdit K D) (o : gop I K D) (n : nat) : Prop :=
    match o with
    | GInsert _ k => exists l, sub (fun e => overlap (fst e) k) (iter g) l /\ length l = n
    | GCutWith _ q => exists l, sub (fun e => overlap (fst e) q) (iter g) l /\ length l = n
    | GCutAll q => exists l, sub (fun e => overlap (fst e) q) (iter g) l /\ length l = n
    | GAppend _ => False
    end.
  (** [gwork g os w n]: the calls [os] on [g] change the tree [w] times and meet [n]
      entries. *)
  Inductive gwork : Gqdit K D -> list (gop I K D) -> nat -> nat -> Prop :=
  | gwork_nil g : gwork g [] 0 0
  | gwork_cons g o os n w n' : meeting g o n -> gwork (gstep o g) os w n' ->
      gwork g (o :: os) (tree_adds (gtrace g o) + tree_removes (gtrace g o) + w) (n + n').
End Cost.
