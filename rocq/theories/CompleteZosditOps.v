(** * CompleteZosditOps: what each ZosditMap method does, as a relation between the
      sequence of entries before the call, the arguments, the sequence after it and the
      result (vocabulary of C129).  No proofs in this file.

    The effects are the documented ones, but for the states described by [cut_reaches] and
    [point_reached] in which the search misses entries (C37, C38). *)
From Coq Require Import List.
From Verif Require Import Base Spec ZosditOps ZosditAbs CompleteOps.
Import ListNotations.

Section Documented.
  Context {I : Type} `{Ord I}.
  Context {K : Type} `{InclusiveInterval I K} {V : Type}.
  Implicit Types (L : list (K * V)) (k : K) (v : V) (p : I).

  Definition doc_get_last_value_at_point p L (o : option V) : Prop :=
    (point_reached L p -> forall v, o = Some v <-> last_value L p v) /\ (~ point_reached L p -> o = None).
  (** The entry whose value is returned is taken out. *)
  Definition doc_remove_last_value_at_point p L (o : list (K * V) * outcome (option V)) : Prop :=
    exists L' a, o = (L', Val a) /\ doc_get_last_value_at_point p L a /\
      match a with
      | None => L' = L
      | Some v => exists l1 k l2, L = l1 ++ (k, v) :: l2 /\ covers k p /\ no_value l2 p /\ L' = l1 ++ l2
      end.
  Definition doc_insert_strict_back k v L (o : list (K * V) * outcome (result unit V)) : Prop :=
    (valid k -> exists L' a, o = (L', Val a) /\
       ((~ (forall e, In e L -> zero_overlap (fst e) k) /\ a = Err v /\ L' = L) \/
        ((forall e, In e L -> zero_overlap (fst e) k) /\ a = Ok tt /\ places k v L L'))) /\
    (~ valid k -> o = (L, Panic)).
  Definition doc_from_iter_strict_back (l : list (K * V)) (o : outcome (result (list (K * V)) V)) : Prop :=
    match o with
    | Val (Ok L) => zero_overlapping (map fst l) /\ places_all l [] L
    | Val (Err v) => exists l1 k l2, l = l1 ++ (k, v) :: l2 /\ zero_overlapping (map fst l1) /\ valid k /\
        exists k', In k' (map fst l1) /\ ~ zero_overlap k' k
    | Panic => exists l1 k v l2, l = l1 ++ (k, v) :: l2 /\ zero_overlapping (map fst l1) /\ ~ valid k
    end.

  Section Query.
    Context {Q : Type} `{InclusiveInterval I Q}.
    Implicit Types q : Q.
    Definition doc_zosdit_overlapping q L (o : outcome (list (K * V))) : Prop :=
      answers q o (fun l => sub (fun e => overlap (fst e) q) L l).
    Definition doc_is_zero_overlap q L (o : outcome bool) : Prop :=
      answers q o (fun b => b = true <-> forall e, In e L -> zero_overlap (fst e) q).
    Definition doc_zosdit_cut q L (o : list (K * V) * outcome (list (K * V))) : Prop :=
      (valid q -> cut_reaches q L -> exists ls out, o = (concat ls, Val out) /\ Forall2 (leaves q) L ls /\ cut_out q L out) /\
      (valid q -> ~ cut_reaches q L -> o = (L, Val [])) /\
      (~ valid q -> o = (L, Panic)).
  End Query.
End Documented.

(** What a caller sees of a call: the entries of the map it leaves, and its result. *)
From Verif Require Import BTree ZosditModel.
Definition seen {K V A : Type} (o : ZosditMap K V * A) : list (K * V) * A := (zosdit_iter (fst o), snd o).
Definition seen_built {K V E : Type} (o : outcome (result (ZosditMap K V) E)) : outcome (result (list (K * V)) E) :=
  match o with
  | Val (Ok z) => Val (Ok (zosdit_iter z))
  | Val (Err v) => Val (Err v)
  | Panic => Panic
  end.
