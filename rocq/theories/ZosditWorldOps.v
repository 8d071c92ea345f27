(** * ZosditWorldOps: programs with any number of ZosditMaps that build, clone, compare and
      call them (vocabulary of C156).  No proofs in this file. *)
From Coq Require Import List.
From Verif Require Import Base BTree UtilsModel IntervalModel ZosditModel ZosditOps Spec CompleteOps CompleteZosditOps ZosditOnce ClientZosditOps EqModel.
Import ListNotations.

Section World.
  Context {I : Type} `{Ord I} `{DiscreteFinite I}.
  Context {K : Type} `{InclusiveInterval I K} {V : Type}.

  (** Each map is held in a variable (a number).  A program stops with a result, assigns
      [ZosditMap::new()] to a variable, assigns what [from_iter_strict_back] or
      [from_slice_strict_back] makes of [l] if that succeeds (zosdit/map.rs:571-611), calls a
      method, assigns to [x] a clone of [y]'s map, or asks whether two are equal (both derived,
      zosdit/map.rs:61); what it does next may depend on the answer. *)
  Inductive zprogram (R : Type) : Type :=
  | WStop (r : R)
  | WNew (x : nat) (next : zprogram R)
  | WBuild (x : nat) (l : list (K * V)) (next : outcome (result unit V) -> zprogram R)
  | WCall (x : nat) (c : zcall I K V) (next : zanswer c -> zprogram R)
  | WCopy (x y : nat) (next : zprogram R)
  | WSame (x y : nat) (next : bool -> zprogram R).

  (** An implementation. *)
  Record zosdits : Type := {
    w_methods : zimplementation (I := I) (K := K) (V := V);
    w_build : list (K * V) -> outcome (result (zstate w_methods) V);
    w_copy : zstate w_methods -> zstate w_methods;
    w_same : zstate w_methods -> zstate w_methods -> bool
  }.
  Definition w_state (i : zosdits) : Type := zstate (w_methods i).
  Definition w_start (i : zosdits) : w_state i := zstart (w_methods i).
  Definition w_does (i : zosdits) (c : zcall I K V) (s : w_state i) : w_state i * zanswer c := zdoes (w_methods i) c s.

  Definition zassign {A} (f : nat -> A) (x : nat) (a : A) : nat -> A := fun y => if Nat.eqb x y then a else f y.
  Definition zassign_built {A B} (f : nat -> A) (x : nat) (o : outcome (result B V)) (val : B -> A) : nat -> A :=
    match o with Val (Ok a) => zassign f x (val a) | _ => f end.
  Definition worked {A} (o : outcome (result A V)) : outcome (result unit V) :=
    match o with Val (Ok _) => Val (Ok tt) | Val (Err v) => Val (Err v) | Panic => Panic end.
  Definition reading {A B} (r : A -> B) (o : outcome (result A V)) : outcome (result B V) :=
    match o with Val (Ok a) => Val (Ok (r a)) | Val (Err v) => Val (Err v) | Panic => Panic end.

  Fixpoint wexecute {R} (i : zosdits) (f : nat -> w_state i) (p : zprogram R) : R :=
    match p with
    | WStop _ r => r
    | WNew _ x next => wexecute i (zassign f x (w_start i)) next
    | WBuild _ x l next => wexecute i (zassign_built f x (w_build i l) (fun s => s)) (next (worked (w_build i l)))
    | WCall _ x c next => let (s, a) := w_does i c (f x) in wexecute i (zassign f x s) (next a)
    | WCopy _ x y next => wexecute i (zassign f x (w_copy i (f y))) next
    | WSame _ x y next => wexecute i f (next (w_same i (f x) (f y)))
    end.
  Definition wrun {R} (i : zosdits) (p : zprogram R) : R := wexecute i (fun _ => w_start i) p.

  Section Described.
    Context (i : zosdits) (entries : w_state i -> list (K * V)) (removed : w_state i -> nat).
    (** The states it can get into; the flag says that no single point is stored twice. *)
    Inductive woccurs : bool -> w_state i -> Prop :=
    | woccurs_start : woccurs true (w_start i)
    | woccurs_built l s : w_build i l = Val (Ok s) -> woccurs true s
    | woccurs_after once once' s c : woccurs once s -> settled once c ->
        (once' = true -> once = true /\ ~ makes_twin (w_methods i) entries c s) -> woccurs once' (fst (w_does i c s))
    | woccurs_copy once s : woccurs once s -> woccurs once (w_copy i s).
    (** The methods and constructors do what C129 and C132 say; a clone has the same entries
        and the same count; maps that are equal have the same entries and the same count, and
        the converse holds if neither holds a single point twice. *)
    Definition zosdits_as_described : Prop :=
      (entries (w_start i) = [] /\ removed (w_start i) = 0) /\
      (forall l, doc_from_iter_strict_back l (reading entries (w_build i l)) /\
         forall s, w_build i l = Val (Ok s) -> removed s = 0) /\
      (forall once s c, woccurs once s -> settled once c ->
         zdocumented c (entries s) (removed s) (entries (fst (w_does i c s))) (removed (fst (w_does i c s))) (snd (w_does i c s))) /\
      (forall once s, woccurs once s -> entries (w_copy i s) = entries s /\ removed (w_copy i s) = removed s) /\
      (forall once once' s t, woccurs once s -> woccurs once' t ->
         (w_same i s t = true -> entries s = entries t /\ removed s = removed t) /\
         (once = true -> once' = true -> entries s = entries t -> removed s = removed t -> w_same i s t = true)).

    (** The program only makes calls whose effect is described: it inserts no single point into
        a map that may hold one twice, and does not ask whether two maps are equal of which one
        may, unless they differ.  [once] says which variables' maps do not. *)
    Fixpoint wcareful {R} (once : nat -> bool) (f : nat -> w_state i) (p : zprogram R) : Prop :=
      match p with
      | WStop _ _ => True
      | WNew _ x next => wcareful (zassign once x true) (zassign f x (w_start i)) next
      | WBuild _ x l next =>
          wcareful (zassign_built once x (w_build i l) (fun _ => true)) (zassign_built f x (w_build i l) (fun s => s)) (next (worked (w_build i l)))
      | WCall _ x c next => settled (once x) c /\
          exists o, (o = true -> once x = true /\ ~ makes_twin (w_methods i) entries c (f x)) /\
            wcareful (zassign once x o) (zassign f x (fst (w_does i c (f x)))) (next (snd (w_does i c (f x))))
      | WCopy _ x y next => wcareful (zassign once x (once y)) (zassign f x (w_copy i (f y))) next
      | WSame _ x y next =>
          ((once x = true /\ once y = true) \/ ~ (entries (f x) = entries (f y) /\ removed (f x) = removed (f y))) /\
          wcareful once f (next (w_same i (f x) (f y)))
      end.
  End Described.

  (** The program never cuts. *)
  Fixpoint never_cuts {R} (p : zprogram R) : Prop :=
    match p with
    | WStop _ _ => True
    | WNew _ _ next | WCopy _ _ _ next => never_cuts next
    | WBuild _ _ _ next => forall a, never_cuts (next a)
    | WCall _ _ c next => match c with ZCallCut _ => False | _ => True end /\ forall a, never_cuts (next a)
    | WSame _ _ _ next => forall a, never_cuts (next a)
    end.

  (** The modelled ZosditMaps, [keq] and [veq] being the intervals' and the values' [==]. *)
  Definition model_zosdits (keq : K -> K -> bool) (veq : V -> V -> bool) : zosdits :=
    {| w_methods := zosdit; w_build := from_iter_strict_back; w_copy := fun z => z; w_same := zosdit_eqb keq veq |}.
  (** What can be asked: the entries, and by how much [len] exceeds their number. *)
  Definition asked_entries (i : zosdits) (s : w_state i) : list (K * V) := snd (w_does i ZCallIter s).
  Definition asked_removed (i : zosdits) (s : w_state i) : nat := snd (w_does i ZCallLen s) - length (asked_entries i s).
End World.
