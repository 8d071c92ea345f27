(** * MergeAllOps: what many merging insertions one after the other amount to
      (the vocabulary of C148).  No proofs in this file; part of the
      specification. *)
From Coq Require Import List.
From Verif Require Import Base NoditModel Spec.
Import ListNotations.

Section MergeAll.
  Context {I : Type} `{Ord I} `{DiscreteFinite I}.
  Context {K : Type} `{InclusiveInterval I K}.
  Context {V : Type}.

  (** Every point of [a] is a point of [b]. *)
  Definition inside (a b : K) : Prop := forall p, covers a p -> covers b p.

  (** One comes from [a] to [b] by steps between intervals of the list that are
      [R]-related, "overlapping" for instance. *)
  Inductive joined (R : K -> K -> Prop) (ks : list K) : K -> K -> Prop :=
  | joined_refl a : In a ks -> joined R ks a a
  | joined_step a b c : joined R ks a b -> In c ks -> R b c -> joined R ks a c.

  (** The entries of [m] are what the intervals of [l] (listed in the order in
      which they came) grow together to when [R]-related intervals are united.
      - [m] has exactly the points of [l];
      - two intervals of [l] are in the same entry iff they are joined;
      - an entry has the value that came last. *)
  Definition components (R : K -> K -> Prop) (l m : list (K * V)) : Prop :=
    (forall p, (exists e, In e m /\ covers (fst e) p) <-> (exists e, In e l /\ covers (fst e) p)) /\
    (forall a b, In a (map fst l) -> In b (map fst l) ->
      ((exists e, In e m /\ inside a (fst e) /\ inside b (fst e)) <-> joined R (map fst l) a b)) /\
    (forall e, In e m -> exists l1 x l2, l = l1 ++ x :: l2 /\
      inside (fst x) (fst e) /\ snd x = snd e /\ Forall (fun y => ~ inside (fst y) (fst e)) l2).

  (** Which of the entries [l] are accepted when those that overlap an accepted
      one are refused. *)
  Inductive accepted : list (K * V) -> list (K * V) -> Prop :=
  | accepted_nil : accepted [] []
  | accepted_yes l acc e : accepted l acc -> (forall a, In a acc -> ~ overlap (fst a) (fst e)) -> accepted (l ++ [e]) (acc ++ [e])
  | accepted_no l acc e a : accepted l acc -> In a acc -> overlap (fst a) (fst e) -> accepted (l ++ [e]) acc.

  (** The calls, one after the other. *)
  Definition merge_all_overlapping (m : NoditMap K V) (l : list (K * V)) : NoditMap K V :=
    fold_left (fun m e => fst (insert_merge_overlapping (fst e) (snd e) m)) l m.
  Definition merge_all_touching_or_overlapping (m : NoditMap K V) (l : list (K * V)) : NoditMap K V :=
    fold_left (fun m e => fst (insert_merge_touching_or_overlapping (fst e) (snd e) m)) l m.
  Definition merge_all_touching (m : NoditMap K V) (l : list (K * V)) : NoditMap K V :=
    fold_left (fun m e => fst (insert_merge_touching (fst e) (snd e) m)) l m.
End MergeAll.
