(** * CompleteOps: what each NoditMap method is documented to do, as a relation
      between the entries before the call, the arguments, the entries after the
      call and the result (vocabulary of C127).  No proofs in this file.

    Nothing here mentions a method of the model: [m] and [m'] are lists of
    entries, and the vocabulary is that of [Spec].  *)
From Coq Require Import List Permutation.
From Verif Require Import Base Spec.
Import ListNotations.

(** Interval types in which an interval is determined by its points. *)
Definition determined_by_points (I K : Type) `{Ord I} `{InclusiveInterval I K} : Prop :=
  forall a b : K, valid a -> same_points a b -> a = b.

Section Documented.
  Context {I : Type} `{Ord I}.
  Context {K : Type} `{InclusiveInterval I K} {V : Type}.
  Implicit Types (m : list (K * V)) (k r : K) (v : V) (p : I).

  (** /repo/src/nodit/map.rs "Panics if the given interval is an invalid interval": a query. *)
  Definition answers {Q A} `{InclusiveInterval I Q} (q : Q) (o : outcome A) (right : A -> Prop) : Prop :=
    (valid q -> exists a, o = Val a /\ right a) /\ (~ valid q -> o = Panic).
  (** The same for a method that changes the map, which keeps its entries valid and in
      ascending order, and leaves them alone if it panics. *)
  Definition changes {Q A} `{InclusiveInterval I Q} (q : Q) m (o : list (K * V) * outcome A)
    (right : list (K * V) -> A -> Prop) : Prop :=
    (valid q -> exists m' a, o = (m', Val a) /\ Forall valid (map fst m') /\ ascending (map fst m') /\ right m' a) /\
    (~ valid q -> o = (m, Panic)).

  (** An entry of [m] meets [k]. *)
  Definition clash {Q} `{InclusiveInterval I Q} (q : Q) m : Prop := exists e, In e m /\ overlap (fst e) q.

  Definition doc_get_at_point p m (o : outcome (option V)) : Prop :=
    exists a, o = Val a /\ forall v, a = Some v <-> maps_to m p v.
  Definition doc_contains_point p m (o : outcome bool) : Prop :=
    exists a, o = Val a /\ (a = true <-> covered m p).
  Definition doc_get_key_value_at_point p m (o : outcome (result (K * V) K)) : Prop :=
    exists a, o = Val a /\
      match a with
      | Ok e => In e m /\ covers (fst e) p
      | Err g => covers g p /\ max_run (fun x => ~ covered m x) g
      end.

  Section Query.
    Context {Q : Type} `{InclusiveInterval I Q}.
    Implicit Types q : Q.
    Definition doc_overlapping q m (o : outcome (list (K * V))) : Prop :=
      answers q o (fun l => sub (fun e => overlap (fst e) q) m l).
    Definition doc_overlaps q m (o : outcome bool) : Prop :=
      answers q o (fun b => b = true <-> clash q m).
    Definition doc_contains_interval q m (o : outcome bool) : Prop :=
      answers q o (fun b => b = true <-> forall p, covers q p -> covered m p).
    Definition doc_gaps_untrimmed q m (o : outcome (list K)) : Prop :=
      answers q o (fun l => lists_max_runs (fun p => ~ covered m p) (fun g => overlap g q) l).
    Definition doc_gaps_trimmed q m (o : outcome (list K)) : Prop :=
      answers q o (fun l => lists_max_runs (fun p => ~ covered m p /\ covers q p) (fun _ => True) l).

    Definition doc_remove_overlapping q m (o : list (K * V) * outcome (list (K * V))) : Prop :=
      changes q m o (fun m' out =>
        sub (fun e => overlap (fst e) q) m out /\ (forall e, In e m' <-> In e m /\ ~ overlap (fst e) q)).

    (** [e] is what is left, on one side of [q], of an entry of [m]. *)
    Definition left_over q m (e : K * V) : Prop :=
      exists k, In (k, snd e) m /\ max_run (fun p => covers k p /\ ~ covers q p) (fst e).
    (** [out] lists the parts of the entries of [m] inside [q], from left to right. *)
    Definition cut_out q m (out : list (K * V)) : Prop :=
      exists l, sub (fun e => overlap (fst e) q) m l /\
        Forall2 (fun e i => snd i = snd e /\ forall p, covers (fst i) p <-> covers (fst e) p /\ covers q p) l out.
    Definition doc_cut q m (o : list (K * V) * outcome (list (K * V))) : Prop :=
      changes q m o (fun m' out => cut_out q m out /\ forall e, In e m' <-> left_over q m e).
  End Query.

  Definition doc_insert_overwrite k v m (o : list (K * V) * outcome (list (K * V))) : Prop :=
    changes k m o (fun m' out => cut_out k m out /\ forall e, In e m' <-> e = (k, v) \/ left_over k m e).
  Definition doc_insert_strict k v m (o : list (K * V) * outcome (result unit V)) : Prop :=
    changes k m o (fun m' a =>
      (clash k m /\ a = Err v /\ m' = m) \/
      (~ clash k m /\ a = Ok tt /\ forall e, In e m' <-> e = (k, v) \/ In e m)).

  (** [m'] is [m] with [(k, v)] and the entries satisfying [P] replaced by one entry [(r, v)],
      which covers what they covered. *)
  Definition merged (P : K * V -> Prop) k v m m' r : Prop :=
    (forall p, covers r p <-> covers k p \/ exists e, In e m /\ P e /\ covers (fst e) p) /\
    (forall e, In e m' <-> e = (r, v) \/ (In e m /\ ~ P e)).
  Definition doc_insert_merge_touching k v m (o : list (K * V) * outcome (result K V)) : Prop :=
    changes k m o (fun m' a =>
      (clash k m /\ a = Err v /\ m' = m) \/
      (~ clash k m /\ exists r, a = Ok r /\ merged (fun e => touch (fst e) k) k v m m' r)).
  Definition doc_insert_merge_touching_if_values_equal (veq : V -> V -> bool) k v m (o : list (K * V) * outcome (result K V)) : Prop :=
    changes k m o (fun m' a =>
      (clash k m /\ a = Err v /\ m' = m) \/
      (~ clash k m /\ exists r, a = Ok r /\ merged (fun e => touch (fst e) k /\ veq (snd e) v = true) k v m m' r)).
  Definition doc_insert_merge_overlapping k v m (o : list (K * V) * outcome K) : Prop :=
    changes k m o (fun m' r => merged (fun e => overlap (fst e) k) k v m m' r).
  Definition doc_insert_merge_touching_or_overlapping k v m (o : list (K * V) * outcome K) : Prop :=
    changes k m o (fun m' r => merged (fun e => touch (fst e) k \/ overlap (fst e) k) k v m m' r).

  (** The entries are inserted one after the other up to the first that cannot be. *)
  Definition doc_from_iter_strict (l : list (K * V)) (o : outcome (result (list (K * V)) V)) : Prop :=
    match o with
    | Val (Ok m) => disjoint_intervals (map fst l) /\ Permutation l m /\ ascending (map fst m)
    | Val (Err v) => exists l1 k l2, l = l1 ++ (k, v) :: l2 /\ disjoint_intervals (map fst l1) /\ valid k /\ clash k l1
    | Panic => exists l1 k v l2, l = l1 ++ (k, v) :: l2 /\ disjoint_intervals (map fst l1) /\ ~ valid k
    end.
End Documented.

(** ** Gqdit *)
From Verif Require Import BTree GqditModel GqditOps.
Section DocumentedGqdit.
  Context {I : Type} `{Ord I}.
  Context {K : Type} `{InclusiveInterval I K} {D : Type} `{Ord D}.
  Implicit Types (g : list (K * BTreeSet D)) (k : K) (p : I) (d : D) (ids : list D).

  (** The entries of a Gqdit, from left to right. *)
  Definition proper g : Prop := describes_gqdit g /\ ascending (map fst g).
  (** [d] is among the identifiers at [p]. *)
  Definition sits g p d : Prop := exists s, maps_to g p s /\ In d s.
  Definition changes_ids {Q A} `{InclusiveInterval I Q} (q : Q) g (a : A) (o : list (K * BTreeSet D) * outcome A)
    (after : I -> D -> Prop) : Prop :=
    (valid q -> exists g', o = (g', Val a) /\ proper g' /\ forall p d, sits g' p d <-> after p d) /\
    (~ valid q -> o = (g, Panic)).

  Definition doc_identifiers_at_point p g (o : outcome (list D)) : Prop :=
    exists s, o = Val s /\ is_set s /\ forall d, In d s <-> sits g p d.
  Definition doc_gqdit_insert ids k g o : Prop :=
    changes_ids k g tt o (fun p d => sits g p d \/ (covers k p /\ In d ids)).
  Section Query.
    Context {Q : Type} `{InclusiveInterval I Q}.
    Implicit Types q : Q.
    Definition doc_gaps_no_identifier q g (o : outcome (list K)) : Prop :=
      answers q o (fun l => lists_max_runs (fun p => forall d, ~ sits g p d) (fun j => overlap j q) l).
    Definition doc_gaps_with_identifier d q g (o : outcome (list K)) : Prop :=
      answers q o (fun l => lists_max_runs (fun p => forall d', sits g p d' -> d' = d) (fun j => overlap j q) l).
    Definition doc_cut_with_identifiers ids q g o : Prop :=
      changes_ids q g tt o (fun p d => sits g p d /\ ~ (covers q p /\ In d ids)).
    Definition doc_cut_all_identifiers q g o : Prop :=
      changes_ids q g tt o (fun p d => sits g p d /\ ~ covers q p).
  End Query.
  (** The other Gqdit is left without entries (C67). *)
  Definition doc_append g1 g2 (o : list (K * BTreeSet D) * list (K * BTreeSet D) * outcome unit) : Prop :=
    exists g', o = (g', [], Val tt) /\ proper g' /\ forall p d, sits g' p d <-> sits g1 p d \/ sits g2 p d.
End DocumentedGqdit.
