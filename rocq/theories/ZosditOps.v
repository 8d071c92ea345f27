(** * ZosditOps: histories of ZosditMap calls and the vocabulary of their
      properties.  No proofs in this file; part of the specification. *)
From Coq Require Import List.
From Verif Require Import Base BTree UtilsModel IntervalModel NoditModel ZosditModel Spec.
Import ListNotations.

Section Ops.
  Context {I : Type} `{Ord I} `{DiscreteFinite I}.
  Context {K : Type} `{InclusiveInterval I K}.
  Context {V : Type}.

  (** One constructor per public method of /repo/src/zosdit/map.rs that changes
      the map; the conventions are those of [NoditOps]. *)
  Inductive zop : Type :=
  | ZNew
  | ZInsertStrictBack (k : K) (v : V)
  | ZRemoveLast (p : I)
  | ZCut {Q : Type} `{InclusiveInterval I Q} (q : Q)
  | ZFromIter (l : list (K * V))
  | ZDeserialize (l : list (option (K * V))).

  Definition zstep (z : ZosditMap K V) (o : zop) : ZosditMap K V :=
    match o with
    | ZNew => z_new
    | ZInsertStrictBack k v => fst (insert_strict_back k v z)
    | ZRemoveLast p => fst (remove_last_value_at_point p z)
    | ZCut q => fst (zosdit_cut q z)
    | ZFromIter l => match from_iter_strict_back l with Val (Ok z') => z' | _ => z end
    | ZDeserialize l => match zosdit_deserialize l with Val (Ok z') => z' | _ => z end
    end.
  Definition zrun (os : list zop) : ZosditMap K V := fold_left zstep os z_new.
  Definition zreachable (z : ZosditMap K V) : Prop := exists os, z = zrun os.

  (** Calls other than [cut] / other than [remove_last_value_at_point]. *)
  Definition not_cut (o : zop) : Prop := match o with ZCut _ => False | _ => True end.
  Definition not_remove (o : zop) : Prop := match o with ZRemoveLast _ => False | _ => True end.

  (** Every point of [a] is at most every point of [b]. *)
  Definition up_to {A B} `{InclusiveInterval I A} `{InclusiveInterval I B} (a : A) (b : B) : Prop :=
    forall x y, covers a x -> covers b y -> ple x y.

  (** [v] is the value of the last entry of [l] whose interval contains [p]. *)
  Definition last_value (l : list (K * V)) (p : I) (v : V) : Prop :=
    exists l1 k l2, l = l1 ++ (k, v) :: l2 /\ covers k p /\ forall e, In e l2 -> ~ covers (fst e) p.
  Definition no_value (l : list (K * V)) (p : I) : Prop := forall e, In e l -> ~ covers (fst e) p.

  (** What [cut q] leaves of an entry: the maximal pieces of its interval
      outside [q], each with its value; the entry itself if it does not meet [q]. *)
  Definition leaves {Q} `{InclusiveInterval I Q} (q : Q) (e : K * V) (l : list (K * V)) : Prop :=
    lists_max_runs (fun p => covers (fst e) p /\ ~ covers q p) (fun _ => True) (map fst l) /\
    (forall e', In e' l -> snd e' = snd e) /\
    (~ overlap (fst e) q -> l = [e]).
  (** What [cut q] yields of an entry: its part inside [q]. *)
  Definition yields {Q} `{InclusiveInterval I Q} (q : Q) (e o : K * V) : Prop :=
    snd o = snd e /\ forall p, covers (fst o) p <-> covers (fst e) p /\ covers q p.

  (** The number of values a history has removed with
      [remove_last_value_at_point] since the map was last created
      ([n] so far, in state [z]). *)
  Fixpoint removals (z : ZosditMap K V) (n : nat) (os : list zop) : nat :=
    match os with
    | [] => n
    | o :: os' =>
        removals (zstep z o)
          match o with
          | ZNew => 0
          | ZFromIter l => match from_iter_strict_back l with Val (Ok _) => 0 | _ => n end
          | ZDeserialize l => match zosdit_deserialize l with Val (Ok _) => 0 | _ => n end
          | ZRemoveLast p => match snd (remove_last_value_at_point p z) with Val (Some _) => S n | _ => n end
          | _ => n
          end os'
    end.
  Definition removed (os : list zop) : nat := removals z_new 0 os.

  (** The same entries, but for the representation of their intervals. *)
  Definition same_entry (a b : K * V) : Prop := same_points (fst a) (fst b) /\ snd a = snd b.

  (** Where [cut] works: some stored interval meeting [q] starts before [q], or
      no stored interval lies before [q]. *)
  Definition cut_reaches {Q} `{InclusiveInterval I Q} (q : Q) (l : list (K * V)) : Prop :=
    (exists e x, In e l /\ overlap (fst e) q /\ covers (fst e) x /\ forall y, covers q y -> plt x y) \/
    (forall e, In e l -> ~ before (fst e) q).
  (** Where [get_last_value_at_point] works: some stored interval contains [p]
      and a later point, or no stored interval contains a later point. *)
  Definition point_reached (l : list (K * V)) (p : I) : Prop :=
    (exists e x, In e l /\ covers (fst e) p /\ covers (fst e) x /\ plt p x) \/
    (forall e x, In e l -> covers (fst e) x -> ple x p).

  (** No two keys of the underlying tree have the same points. *)
  Definition stored_once (z : ZosditMap K V) : Prop :=
    ForallOrdPairs (fun a b => ~ same_points (fst a) (fst b)) (z_inner z).

  (** Pairwise zero-overlapping valid intervals (bulk construction). *)
  Definition zero_overlapping {A} `{InclusiveInterval I A} (l : list A) : Prop :=
    Forall valid l /\ ForallOrdPairs zero_overlap l.
End Ops.
Arguments zop : clear implicits.
