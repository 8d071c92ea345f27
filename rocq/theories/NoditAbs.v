(** * NoditAbs: what histories of NoditMap calls mean, without the map.
      No proofs in this file; part of the specification (C17, C57). *)
From Coq Require Import List.
From Verif Require Import Base NoditModel NoditOps Spec.
Import ListNotations.

Section Points.
  Context {I : Type} `{Ord I}.
  Context {K : Type} `{InclusiveInterval I K}.
  Context {V : Type}.

  (** ** Histories as functions on points

      The calls whose effect on the points can be told from the points alone
      (it does not depend on where one entry ends and the next begins). *)
  Inductive pop : Type :=
  | PNew
  | PInsertStrict (k : K) (v : V)
  | PInsertMergeTouchingIfValuesEqual (veq : V -> V -> bool)
      (veq_spec : forall x y, veq x y = true <-> x = y) (k : K) (v : V)
  | PInsertOverwrite (k : K) (v : V)
  | PCut {Q : Type} `{InclusiveInterval I Q} (q : Q)
  | PMapValues (g : V -> V).

  (** The method each one stands for. *)
  Definition op_of_pop (o : pop) : op I K V :=
    match o with
    | PNew => OpNew
    | PInsertStrict k v => OpInsertStrict k v
    | PInsertMergeTouchingIfValuesEqual veq _ k v => OpInsertMergeTouchingIfValuesEqual veq k v
    | PInsertOverwrite k v => OpInsertOverwrite k v
    | PCut q => OpCut q
    | PMapValues g => OpIterMut (fun _ => g)
    end.

  (** [f'] is [f] with every point of [q] sent to [x]. *)
  Definition sets {Q} `{InclusiveInterval I Q} (q : Q) (x : option V) (f f' : I -> option V) : Prop :=
    forall p, (covers q p -> f' p = x) /\ (~ covers q p -> f' p = f p).

  (** Insertion that is refused if a point of [k] is taken. *)
  Definition sets_if_free (k : K) (v : V) (f f' : I -> option V) : Prop :=
    ((forall p, covers k p -> f p = None) -> sets k (Some v) f f') /\
    (~ (forall p, covers k p -> f p = None) -> forall p, f' p = f p).

  Definition pstep (o : pop) (f f' : I -> option V) : Prop :=
    match o with
    | PNew => forall p, f' p = None
    | PInsertStrict k v => sets_if_free k v f f'
    | PInsertMergeTouchingIfValuesEqual _ _ k v => sets_if_free k v f f'
    | PInsertOverwrite k v => sets k (Some v) f f'
    | PCut q => sets q None f f'
    | PMapValues g => forall p, f' p = option_map g (f p)
    end.

  (** [f] is the function a history describes; the last call is the head of
      the list's reversal, i.e. calls are listed in the order they are made. *)
  Inductive prun : list pop -> (I -> option V) -> Prop :=
  | prun_nil f : (forall p, f p = None) -> prun [] f
  | prun_snoc os o f f' : prun os f -> pstep o f f' -> prun (os ++ [o]) f'.

  (** ** Histories as sets of entries

      All calls.  [E] is a set of entries; a call relates the set before to the
      set after.  [i] "built" means obtained from an [Interval] by the interval
      type's own [From]: cutting an entry builds new intervals. *)
  Definition eset := (K * V)%type -> Prop.
  Definition from_interval (k : K) : Prop := exists i : Interval I, valid i /\ k = ifrom i.

  Definition same (E E' : eset) : Prop := forall e, E' e <-> E e.
  Definition adds (k : K) (v : V) (E E' : eset) : Prop := forall e, E' e <-> e = (k, v) \/ E e.
  Definition meets_none {Q} `{InclusiveInterval I Q} (q : Q) (E : eset) : Prop :=
    forall e, E e -> ~ overlap (fst e) q.

  (** Every entry of [E] is replaced by its maximal pieces outside [q]. *)
  Definition cuts {Q} `{InclusiveInterval I Q} (q : Q) (E E' : eset) : Prop :=
    forall k' v, E' (k', v) <->
      exists k, E (k, v) /\ max_run (fun p => covers k p /\ ~ covers q p) k' /\
        (k' = k /\ ~ overlap k q \/ from_interval k' /\ overlap k q).

  (** The entries satisfying [P] are replaced by one entry with their points and
      those of [k]. *)
  Definition merges (P : K * V -> Prop) (k : K) (v : V) (E E' : eset) : Prop :=
    exists r, (forall p, covers r p <-> covers k p \/ exists e, E e /\ P e /\ covers (fst e) p) /\
      ((forall e, E e -> ~ P e) -> r = k) /\
      forall e, E' e <-> e = (r, v) \/ (E e /\ ~ P e).

  Definition revalues (P : K -> Prop) (f : K -> V -> V) (E E' : eset) : Prop :=
    forall k v', E' (k, v') <-> exists v, E (k, v) /\ (P k -> v' = f k v) /\ (~ P k -> v' = v).

  (** A call with an invalid interval, a refused insertion and a rejected bulk
      load leave the set alone. *)
  Definition refused_or {Q} `{InclusiveInterval I Q} (q : Q) (E E' : eset) (R : Prop) : Prop :=
    (~ valid q -> same E E') /\ (valid q -> R).
  Definition strict (k : K) (E E' : eset) (R : Prop) : Prop :=
    (~ meets_none k E -> same E E') /\ (meets_none k E -> R).

  Definition loads (l : list (option (K * V))) (E E' : eset) : Prop :=
    (forall es, l = map Some es -> disjoint_intervals (map fst es) -> forall e, E' e <-> In e es) /\
    (~ (exists es, l = map Some es /\ disjoint_intervals (map fst es)) -> same E E').

  Definition astep (o : op I K V) (E E' : eset) : Prop :=
    match o with
    | OpNew => forall e, ~ E' e
    | OpInsertStrict k v => refused_or k E E' (strict k E E' (adds k v E E'))
    | OpInsertMergeTouching k v =>
        refused_or k E E' (strict k E E' (merges (fun e => touch (fst e) k) k v E E'))
    | OpInsertMergeTouchingIfValuesEqual veq k v =>
        refused_or k E E' (strict k E E' (merges (fun e => touch (fst e) k /\ veq (snd e) v = true) k v E E'))
    | OpInsertMergeOverlapping k v => refused_or k E E' (merges (fun e => overlap (fst e) k) k v E E')
    | OpInsertMergeTouchingOrOverlapping k v =>
        refused_or k E E' (merges (fun e => touch (fst e) k \/ overlap (fst e) k) k v E E')
    | OpInsertOverwrite k v =>
        refused_or k E E' (exists E1, cuts k E E1 /\ adds k v E1 E')
    | OpRemoveOverlapping q => refused_or q E E' (forall e, E' e <-> E e /\ ~ overlap (fst e) q)
    | OpCut q => refused_or q E E' (cuts q E E')
    | OpOverlappingMut f q => refused_or q E E' (revalues (fun k => overlap k q) f E E')
    | OpGetAtPointMut f p => revalues (fun k => covers k p) (fun _ => f) E E'
    | OpIterMut f => revalues (fun _ => True) f E E'
    | OpFromIterStrict l => loads (map Some l) E E'
    | OpDeserialize l => loads l E E'
    end.

  Inductive arun : list (op I K V) -> eset -> Prop :=
  | arun_nil E : (forall e, ~ E e) -> arun [] E
  | arun_snoc os o E E' : arun os E -> astep o E E' -> arun (os ++ [o]) E'.
End Points.
Arguments pop : clear implicits.
