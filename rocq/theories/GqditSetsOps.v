(** * GqditSetsOps: the NoditSets, one for each identifier, that a Gqdit stands for
      (see the comment at /repo/src/gqdit/mod.rs:19-31).  No proofs in this file;
      part of the specification of C100 and C101. *)
From Coq Require Import List.
From Verif Require Import Base BTree UtilsModel IntervalModel NoditModel NoditSetModel NoditSetOps GqditModel GqditOps Spec.
Import ListNotations.

Section Sets.
  Context {I : Type} {OI : Ord I} {DI : DiscreteFinite I}.
  Context {K : Type} {IK : InclusiveInterval I K} {D : Type} {OD : Ord D}.
  Implicit Types (d : D) (ids : list D) (o : gop I K D) (os : list (gop I K D)).

  Definition is_id d d' : bool := match cmp d d' with Eq => true | _ => false end.
  Definition inserts (ks : list K) : list (set_op I K) := map (fun k => SInsertMergeTouchingOrOverlapping k) ks.

  (** What a Gqdit call does to the set of the identifier [d].  [append] inserts
      all intervals of the other Gqdit's set for [d]. *)
  Fixpoint set_calls d o : list (set_op I K) :=
    match o with
    | GInsert ids k => if existsb (is_id d) ids then inserts [k] else []
    | GCutWith ids q => if existsb (is_id d) ids then [SCut q] else []
    | GCutAll q => [SCut q]
    | GAppend os => inserts (set_iter (set_run (flat_map (set_calls d) os)))
    end.
  (** The set of the identifier [d] after a history. *)
  Definition set_of os d : NoditSet K := set_run (flat_map (set_calls d) os).

  (** The identifiers a history mentions as inserted. *)
  Fixpoint ids_in o : list D :=
    match o with
    | GInsert ids _ => ids
    | GAppend os => flat_map ids_in os
    | _ => []
    end.
  (** All intervals of the sets of the identifiers [ids], merged into one set. *)
  Definition union_of os ids : NoditSet K := set_run (flat_map (fun d => inserts (set_iter (set_of os d))) ids).
  (** The sets of all identifiers; those of all identifiers but [d]. *)
  Definition all_of os : NoditSet K := union_of os (flat_map ids_in os).
  Definition all_but os d : NoditSet K := union_of os (filter (fun d' => negb (is_id d d')) (flat_map ids_in os)).
End Sets.
