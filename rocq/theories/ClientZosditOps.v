(** * ClientZosditOps: programs that use a ZosditMap through its methods, choosing each call
      from the answers to the earlier ones (vocabulary of C132).  No proofs in this file.

    The effects are the documented ones but for the searches that miss entries (C37, C38, see
    CompleteZosditOps) and for [len] and [is_empty], which count removed values as present
    (C63): a state is read as the sequence of entries and the number of values removed. *)
From Coq Require Import List.
From Verif Require Import Base BTree UtilsModel IntervalModel ZosditModel ZosditOps Spec CompleteOps CompleteZosditOps ZosditOnce.
Import ListNotations.

Section Client.
  Context {I : Type} `{Ord I} `{DiscreteFinite I}.
  Context {K : Type} `{InclusiveInterval I K}.
  Context {V : Type}.

  (** One constructor per method taking [&self] or [&mut self]
      (/repo/src/zosdit/map.rs:96-541). *)
  Inductive zcall : Type :=
  | ZCallLen
  | ZCallIsEmpty
  | ZCallIter
  | ZCallFirstKeyValue
  | ZCallLastKeyValue
  | ZCallGetLastValueAtPoint (p : I)
  | ZCallRemoveLastValueAtPoint (p : I)
  | ZCallInsertStrictBack (k : K) (v : V)
  | ZCallIsZeroOverlap {Q : Type} `{InclusiveInterval I Q} (q : Q)
  | ZCallOverlapping {Q : Type} `{InclusiveInterval I Q} (q : Q)
  | ZCallCut {Q : Type} `{InclusiveInterval I Q} (q : Q).

  Definition zanswer (c : zcall) : Type :=
    match c with
    | ZCallLen => nat
    | ZCallIsEmpty => bool
    | ZCallIter => list (K * V)
    | ZCallFirstKeyValue | ZCallLastKeyValue => option (K * V)
    | ZCallGetLastValueAtPoint _ => option V
    | ZCallRemoveLastValueAtPoint _ => outcome (option V)
    | ZCallInsertStrictBack _ _ => outcome (result unit V)
    | ZCallIsZeroOverlap _ => outcome bool
    | ZCallOverlapping _ | ZCallCut _ => outcome (list (K * V))
    end.

  (** The effect of a call: [L] and [L'] are the entries in the order of [iter], [n] and [n']
      the numbers of values removed, before and after it. *)
  Definition zdocumented (c : zcall) (L : list (K * V)) (n : nat) (L' : list (K * V)) (n' : nat) : zanswer c -> Prop :=
    match c return zanswer c -> Prop with
    | ZCallLen => fun a => L' = L /\ n' = n /\ a = length L + n
    | ZCallIsEmpty => fun a => L' = L /\ n' = n /\ (a = true <-> length L + n = 0)
    | ZCallIter => fun a => L' = L /\ n' = n /\ a = L
    | ZCallFirstKeyValue => fun a => L' = L /\ n' = n /\ forall e, a = Some e <-> exists l, L = e :: l
    | ZCallLastKeyValue => fun a => L' = L /\ n' = n /\ forall e, a = Some e <-> exists l, L = l ++ [e]
    | ZCallGetLastValueAtPoint p => fun a => L' = L /\ n' = n /\ doc_get_last_value_at_point p L a
    | ZCallRemoveLastValueAtPoint p => fun a =>
        doc_remove_last_value_at_point p L (L', a) /\ length L' + n' = length L + n
    | ZCallInsertStrictBack k v => fun a => doc_insert_strict_back k v L (L', a) /\ n' = n
    | ZCallIsZeroOverlap q => fun a => L' = L /\ n' = n /\ doc_is_zero_overlap q L a
    | ZCallOverlapping q => fun a => L' = L /\ n' = n /\ doc_zosdit_overlapping q L a
    | ZCallCut q => fun a => doc_zosdit_cut q L (L', a) /\ n' = n
    end.

  (** The model's methods. *)
  Definition zperform (c : zcall) (z : ZosditMap K V) : ZosditMap K V * zanswer c :=
    match c return ZosditMap K V * zanswer c with
    | ZCallLen => (z, zosdit_len z)
    | ZCallIsEmpty => (z, zosdit_is_empty z)
    | ZCallIter => (z, zosdit_iter z)
    | ZCallFirstKeyValue => (z, zosdit_first_key_value z)
    | ZCallLastKeyValue => (z, zosdit_last_key_value z)
    | ZCallGetLastValueAtPoint p => (z, get_last_value_at_point z p)
    | ZCallRemoveLastValueAtPoint p => remove_last_value_at_point p z
    | ZCallInsertStrictBack k v => insert_strict_back k v z
    | ZCallIsZeroOverlap q => (z, is_zero_overlap z q)
    | ZCallOverlapping q => (z, zosdit_overlapping z q)
    | ZCallCut q => zosdit_cut q z
    end.

  (** A program: it stops with a result or makes a call and goes on as the answer tells it. *)
  Inductive zclient (R : Type) : Type :=
  | ZStop (r : R)
  | ZMake (c : zcall) (next : zanswer c -> zclient R).

  Record zimplementation : Type := {
    zstate : Type;
    zstart : zstate;
    zdoes : forall c, zstate -> zstate * zanswer c
  }.
  Fixpoint zexecute {R} (i : zimplementation) (s : zstate i) (p : zclient R) : R :=
    match p with
    | ZStop _ r => r
    | ZMake _ c next => let (s', a) := zdoes i c s in zexecute i s' (next a)
    end.

  Context (i : zimplementation) (entries : zstate i -> list (K * V)) (removed : zstate i -> nat).
  (** A call that leaves the same single point stored twice (C65, C68): from then on it is
      open where an insertion of a single point goes. *)
  Definition makes_twin (c : zcall) (s : zstate i) : Prop :=
    match c with ZCallCut q => valid q /\ cut_reaches q (entries s) /\ leaves_twin q (entries s) | _ => False end.
  (** Whether the effect of a call is described, [once] saying that no call made a twin. *)
  Definition settled (once : bool) (c : zcall) : Prop :=
    match c with ZCallInsertStrictBack k _ => once = true \/ ~ singular k | _ => True end.
  (** The states an implementation can get into by such calls. *)
  Inductive zoccurs : bool -> zstate i -> Prop :=
  | zoccurs_start : zoccurs true (zstart i)
  | zoccurs_after once once' s c : zoccurs once s -> settled once c ->
      (once' = true -> once = true /\ ~ makes_twin c s) -> zoccurs once' (fst (zdoes i c s)).
  Definition zosdit_as_documented : Prop :=
    entries (zstart i) = [] /\ removed (zstart i) = 0 /\
    forall once s c, zoccurs once s -> settled once c ->
      zdocumented c (entries s) (removed s) (entries (fst (zdoes i c s))) (removed (fst (zdoes i c s))) (snd (zdoes i c s)).
  (** The program makes such calls only: no single point is inserted after a call that made a
      twin. *)
  Fixpoint careful {R} (once : bool) (s : zstate i) (p : zclient R) : Prop :=
    match p with
    | ZStop _ _ => True
    | ZMake _ c next => settled once c /\
        exists once', (once' = true -> once = true /\ ~ makes_twin c s) /\
          careful once' (fst (zdoes i c s)) (next (snd (zdoes i c s)))
    end.
End Client.
Arguments zcall : clear implicits.
Definition zosdit {I} `{Ord I} `{DiscreteFinite I} {K} `{InclusiveInterval I K} {V} : zimplementation (I := I) (K := K) (V := V) :=
  {| zstate := ZosditMap K V; zstart := z_new; zdoes := zperform |}.
