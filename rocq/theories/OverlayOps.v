(** * OverlayOps: maps laid over each other (the vocabulary of C149).  No proofs
      in this file; part of the specification.

    [nodit] has no call that takes two maps: a user writes a loop over the
    entries of one that changes the other.  The loops are the first half of this
    file, what they are meant to do the second. *)
From Coq Require Import List.
From Verif Require Import Base IntervalModel NoditModel Spec.
Import ListNotations.

Section Loops.
  Context {I : Type} `{Ord I} `{DiscreteFinite I}.
  Context {K : Type} `{InclusiveInterval I K} {V : Type}.

  (** [for q in qs { pieces.extend(a.cut(q)) }] *)
  Fixpoint cut_each {Q} `{InclusiveInterval I Q} (qs : list Q) (a : NoditMap K V) : NoditMap K V * outcome (list (K * V)) :=
    match qs with
    | [] => (a, Val [])
    | q :: qs' => match cut q a with
                  | (a', Panic) => (a', Panic)
                  | (a', Val out) => match cut_each qs' a' with
                                     | (a'', Panic) => (a'', Panic)
                                     | (a'', Val rest) => (a'', Val (out ++ rest))
                                     end
                  end
    end.

  (** [for (k, v) in l { a.insert_overwrite(k, v); }] *)
  Fixpoint overwrite_each (l : list (K * V)) (a : NoditMap K V) : NoditMap K V * outcome unit :=
    match l with
    | [] => (a, Val tt)
    | (k, v) :: l' => match insert_overwrite k v a with
                      | (a', Panic) => (a', Panic)
                      | (a', Val _) => overwrite_each l' a'
                      end
    end.

  (** [for (k, _) in b.iter() { pieces.extend(a.cut(k)) }] *)
  Definition minus {K'} `{InclusiveInterval I K'} {V'} (a : NoditMap K V) (b : NoditMap K' V') : NoditMap K V * outcome (list (K * V)) :=
    cut_each (map fst (iter b)) a.

  (** [for g in b.gaps_trimmed(uu()) { a.cut(g); }] *)
  Definition only {K'} `{InclusiveInterval I K'} {V'} (a : NoditMap K V) (b : NoditMap K' V') : NoditMap K V * outcome (list (K * V)) :=
    match (let? u := uu in gaps_trimmed b u) with
    | Panic => (a, Panic)
    | Val gs => cut_each gs a
    end.

  (** [for (k, v) in b { a.insert_overwrite(k, v); }] *)
  Definition overlay (a b : NoditMap K V) : NoditMap K V * outcome unit := overwrite_each (into_iter b) a.
End Loops.

Section Meaning.
  Context {I : Type} `{Ord I}.
  Context {K : Type} `{InclusiveInterval I K} {V : Type}.

  (** [l] lists, in ascending order, the parts of the entries of [a] that
      consist of points with the property [P], each as long as possible. *)
  Definition parts (P : I -> Prop) (a l : list (K * V)) : Prop :=
    ascending (map fst l) /\
    (forall k' v, In (k', v) l -> exists k, In (k, v) a /\ max_run (fun p => covers k p /\ P p) k') /\
    (forall k v (j : Interval I), In (k, v) a -> max_run (fun p => covers k p /\ P p) j -> exists k', In (k', v) l /\ same_points k' j).

  (** [l] lists, in ascending order, what an entry of [a] and an entry of [b]
      have in common, with the value from [a]. *)
  Definition common {K'} `{InclusiveInterval I K'} {V'} (a : list (K * V)) (b : list (K' * V')) (l : list (K * V)) : Prop :=
    ascending (map fst l) /\
    (forall c v, In (c, v) l -> exists k k' v', In (k, v) a /\ In (k', v') b /\ overlap k k' /\ forall p, covers c p <-> covers k p /\ covers k' p) /\
    (forall k v k' v', In (k, v) a -> In (k', v') b -> overlap k k' -> exists c, In (c, v) l /\ forall p, covers c p <-> covers k p /\ covers k' p).

  (** [m] has the entries of [b] and, between them, what they leave of those of
      [a]. *)
  Definition overlaid (a b m : list (K * V)) : Prop :=
    ascending (map fst m) /\
    (forall e, In e b -> In e m) /\
    (forall k' v, In (k', v) m -> In (k', v) b \/ exists k, In (k, v) a /\ max_run (fun p => covers k p /\ ~ covered b p) k') /\
    (forall k v (j : Interval I), In (k, v) a -> max_run (fun p => covers k p /\ ~ covered b p) j -> exists k', In (k', v) m /\ same_points k' j).
End Meaning.
