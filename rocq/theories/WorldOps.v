(** * WorldOps: programs that use any number of NoditMaps and NoditSets, building, copying and
      comparing them (vocabulary of C140).  No proofs in this file. *)
From Coq Require Import List Permutation Arith.
From Verif Require Import Base BTree UtilsModel IntervalModel NoditModel NoditSetModel EqModel Spec CompleteOps ClientOps ClientSetOps.
Import ListNotations.

Section World.
  Context {I : Type} `{Ord I} `{DiscreteFinite I}.
  Context {K : Type} `{InclusiveInterval I K}.
  Context {V : Type}.

  (** [set_from_iter_strict]: the intervals are inserted one after the other up to the first
      that cannot be. *)
  Definition doc_set_from_iter_strict (l : list K) (o : outcome (result (list K) unit)) : Prop :=
    match o with
    | Val (Ok s) => disjoint_intervals l /\ Permutation l s /\ ascending s
    | Val (Err _) => exists l1 k l2, l = l1 ++ k :: l2 /\ disjoint_intervals l1 /\ valid k /\ hits k l1
    | Panic => exists l1 k l2, l = l1 ++ k :: l2 /\ disjoint_intervals l1 /\ ~ valid k
    end.

  (** A program has variables 0, 1, 2, ... for maps and as many for sets, all of them new in the
      beginning.  A call that builds a container assigns it to a variable if it succeeds. *)
  Inductive program (R : Type) : Type :=
  | PStop (r : R)
  | PMap (x : nat) (c : call I K V) (next : answer c -> program R)
  | PSet (x : nat) (c : scall I K) (next : sanswer c -> program R)
  | PNewMap (x : nat) (next : program R)
  | PNewSet (x : nat) (next : program R)
  | PBuildMap (x : nat) (l : list (K * V)) (next : outcome (result unit V) -> program R)
  | PBuildSet (x : nat) (l : list K) (next : outcome (result unit unit) -> program R)
  | PCopyMap (x y : nat) (next : program R)
  | PCopySet (x y : nat) (next : program R)
  | PSameMap (x y : nat) (next : bool -> program R)
  | PSameSet (x y : nat) (next : bool -> program R).

  (** Implementations of the whole of NoditMap and NoditSet: the methods, building from a list
      ([from_iter_strict], [from_slice_strict]), [clone] and [==]. *)
  Record maps : Type := {
    m_methods : implementation (I := I) (K := K) (V := V);
    m_build : list (K * V) -> outcome (result (state m_methods) V);
    m_copy : state m_methods -> state m_methods;
    m_same : state m_methods -> state m_methods -> bool
  }.
  Record sets : Type := {
    s_methods : set_implementation (I := I) (K := K);
    s_build : list K -> outcome (result (set_state s_methods) unit);
    s_copy : set_state s_methods -> set_state s_methods;
    s_same : set_state s_methods -> set_state s_methods -> bool
  }.
  (** What a building call answers: whether it succeeded. *)
  Definition success {A E} (o : outcome (result A E)) : outcome (result unit E) :=
    match o with Val (Ok _) => Val (Ok tt) | Val (Err e) => Val (Err e) | Panic => Panic end.
  Definition assign {A} (f : nat -> A) (x : nat) (a : A) : nat -> A := fun y => if Nat.eqb x y then a else f y.
  Definition assign_built {A E} (f : nat -> A) (x : nat) (o : outcome (result A E)) : nat -> A :=
    match o with Val (Ok a) => assign f x a | _ => f end.
  Fixpoint run_program {R} (ms : maps) (ss : sets) (f : nat -> state (m_methods ms)) (g : nat -> set_state (s_methods ss)) (p : program R) : R :=
    match p with
    | PStop _ r => r
    | PMap _ x c next => let (s, a) := does (m_methods ms) c (f x) in run_program ms ss (assign f x s) g (next a)
    | PSet _ x c next => let (s, a) := set_does (s_methods ss) c (g x) in run_program ms ss f (assign g x s) (next a)
    | PNewMap _ x next => run_program ms ss (assign f x (start (m_methods ms))) g next
    | PNewSet _ x next => run_program ms ss f (assign g x (set_start (s_methods ss))) next
    | PBuildMap _ x l next => run_program ms ss (assign_built f x (m_build ms l)) g (next (success (m_build ms l)))
    | PBuildSet _ x l next => run_program ms ss f (assign_built g x (s_build ss l)) (next (success (s_build ss l)))
    | PCopyMap _ x y next => run_program ms ss (assign f x (m_copy ms (f y))) g next
    | PCopySet _ x y next => run_program ms ss f (assign g x (s_copy ss (g y))) next
    | PSameMap _ x y next => run_program ms ss f g (next (m_same ms (f x) (f y)))
    | PSameSet _ x y next => run_program ms ss f g (next (s_same ss (g x) (g y)))
    end.
  Definition result_of {R} (ms : maps) (ss : sets) (p : program R) : R :=
    run_program ms ss (fun _ => start (m_methods ms)) (fun _ => set_start (s_methods ss)) p.

  (** The states that can come about. *)
  Inductive m_occurs (ms : maps) : state (m_methods ms) -> Prop :=
  | m_occurs_start : m_occurs ms (start (m_methods ms))
  | m_occurs_after s c : m_occurs ms s -> m_occurs ms (fst (does (m_methods ms) c s))
  | m_occurs_built l s : m_build ms l = Val (Ok s) -> m_occurs ms s
  | m_occurs_copy s : m_occurs ms s -> m_occurs ms (m_copy ms s).
  Inductive s_occurs (ss : sets) : set_state (s_methods ss) -> Prop :=
  | s_occurs_start : s_occurs ss (set_start (s_methods ss))
  | s_occurs_after s c : s_occurs ss s -> s_occurs ss (fst (set_does (s_methods ss) c s))
  | s_occurs_built l s : s_build ss l = Val (Ok s) -> s_occurs ss s
  | s_occurs_copy s : s_occurs ss s -> s_occurs ss (s_copy ss s).
  Definition read {A B E} (h : A -> B) (o : outcome (result A E)) : outcome (result B E) :=
    match o with Val (Ok a) => Val (Ok (h a)) | Val (Err e) => Val (Err e) | Panic => Panic end.
  (** They do what is documented. *)
  Definition maps_as_documented (ms : maps) (entries : state (m_methods ms) -> list (K * V)) : Prop :=
    entries (start (m_methods ms)) = [] /\
    (forall s c, m_occurs ms s ->
       documented c (entries s) (entries (fst (does (m_methods ms) c s))) (snd (does (m_methods ms) c s))) /\
    (forall l, doc_from_iter_strict l (read entries (m_build ms l))) /\
    (forall s, m_occurs ms s -> entries (m_copy ms s) = entries s) /\
    (forall s s', m_occurs ms s -> m_occurs ms s' -> (m_same ms s s' = true <-> entries s = entries s')).
  Definition sets_as_documented (ss : sets) (intervals : set_state (s_methods ss) -> list K) : Prop :=
    intervals (set_start (s_methods ss)) = [] /\
    (forall s c, s_occurs ss s ->
       set_documented c (intervals s) (intervals (fst (set_does (s_methods ss) c s))) (snd (set_does (s_methods ss) c s))) /\
    (forall l, doc_set_from_iter_strict l (read intervals (s_build ss l))) /\
    (forall s, s_occurs ss s -> intervals (s_copy ss s) = intervals s) /\
    (forall s s', s_occurs ss s -> s_occurs ss s' -> (s_same ss s s' = true <-> intervals s = intervals s')).

  (** The modelled NoditMap and NoditSet, for value types whose [clone] copies. *)
  Definition nodit_maps (keq : K -> K -> bool) (veq : V -> V -> bool) : maps :=
    {| m_methods := nodit; m_build := from_iter_strict; m_copy := fun m => m; m_same := nodit_eqb keq veq |}.
  Definition nodit_sets (keq : K -> K -> bool) : sets :=
    {| s_methods := noditset; s_build := set_from_iter_strict; s_copy := fun s => s; s_same := set_eqb keq |}.
End World.
