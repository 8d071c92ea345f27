(** * ZosditAbs: what histories of ZosditMap calls mean, without the map.
      No proofs in this file; part of the specification (C109).

      The state is the sequence of entries. *)
From Coq Require Import List.
From Verif Require Import Base ZosditModel ZosditOps Spec.
Import ListNotations.

Section Abs.
  Context {I : Type} {OI : Ord I} {DI : DiscreteFinite I}.
  Context {K : Type} {IK : InclusiveInterval I K}.
  Context {V : Type}.
  Implicit Types L : list (K * V).

  (** The new entry is put behind everything that ends where [k] starts or
      before; it may be stored under an equal interval. *)
  Definition places (k : K) (v : V) L L' : Prop :=
    exists l1 k' l2, L = l1 ++ l2 /\ L' = l1 ++ (k', v) :: l2 /\ same_points k' k /\
      (forall e, In e l1 -> up_to (fst e) k) /\ (forall e, In e l2 -> ~ up_to (fst e) k).
  Inductive places_all : list (K * V) -> list (K * V) -> list (K * V) -> Prop :=
  | places_none L : places_all [] L L
  | places_next k v l L L1 L2 : places k v L L1 -> places_all l L1 L2 -> places_all ((k, v) :: l) L L2.

  Definition inserts (k : K) (v : V) L L' : Prop :=
    (valid k /\ (forall e, In e L -> zero_overlap (fst e) k) -> places k v L L') /\
    (~ (valid k /\ forall e, In e L -> zero_overlap (fst e) k) -> L' = L).
  (** The last entry containing [p] goes, unless the search misses it (C38). *)
  Definition drops_last (p : I) L L' : Prop :=
    (forall l1 e l2, L = l1 ++ e :: l2 -> point_reached L p -> covers (fst e) p -> no_value l2 p -> L' = l1 ++ l2) /\
    (~ point_reached L p \/ no_value L p -> L' = L).
  (** Every entry is replaced by its pieces outside [q], unless the search
      misses them (C37). *)
  Definition cuts_all {Q} `{InclusiveInterval I Q} (q : Q) L L' : Prop :=
    (valid q /\ cut_reaches q L -> exists ls, Forall2 (leaves q) L ls /\ L' = concat ls) /\
    (~ (valid q /\ cut_reaches q L) -> L' = L).
  Definition fills (l : list (option (K * V))) L L' : Prop :=
    (forall es, l = map Some es -> zero_overlapping (map fst es) -> places_all es [] L') /\
    (~ (exists es, l = map Some es /\ zero_overlapping (map fst es)) -> L' = L).

  Definition zastep (o : zop I K V) L L' : Prop :=
    match o with
    | ZNew => L' = []
    | ZInsertStrictBack k v => inserts k v L L'
    | ZRemoveLast p => drops_last p L L'
    | ZCut q => cuts_all q L L'
    | ZFromIter l => fills (map Some l) L L'
    | ZDeserialize l => fills l L L'
    end.

  (** [L] is the sequence of entries a history describes. *)
  Inductive zarun : list (zop I K V) -> list (K * V) -> Prop :=
  | zarun_nil : zarun [] []
  | zarun_snoc os o L L' : zarun os L -> zastep o L L' -> zarun (os ++ [o]) L'.
End Abs.
