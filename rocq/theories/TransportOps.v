(** * TransportOps: the same calls with other points, intervals and values.  No
      proofs in this file; part of the specification of C83-C85. *)
From Coq Require Import List.
From Verif Require Import Base BTree UtilsModel IntervalModel NoditModel NoditOps ZosditModel ZosditOps Spec.
Import ListNotations.

Section Transport.
  Context {I J : Type} {OI : Ord I} {DI : DiscreteFinite I} {OJ : Ord J} {DJ : DiscreteFinite J}.
  Context (f : I -> J).

  (** [f] keeps the order of points (and which ones are Equal) and skips no
      points: its image is an interval of [J]. *)
  Definition embeds : Prop :=
    (forall x y, plt x y -> plt (f x) (f y)) /\ (forall x y, cmp x y = Eq -> cmp (f x) (f y) = Eq) /\
    (forall x y z, plt (f x) z -> plt z (f y) -> exists w, z = f w).
  (** The image is all of [J]. *)
  Definition onto_ends : Prop := f MIN = MIN /\ f MAX = MAX.

  (** The interval [r] has the image points of [q] as end-points. *)
  Definition carried {Q R} `{InclusiveInterval I Q} `{InclusiveInterval J R} (q : Q) (r : R) : Prop :=
    istart r = f (istart q) /\ iend r = f (iend q).
  (** [h] converts the interval type [K] over [I] to [L] over [J]. *)
  Definition converts {K L} `{InclusiveInterval I K} `{InclusiveInterval J L} (h : K -> L) : Prop :=
    (forall k, carried k (h k)) /\
    (forall i, h (ifrom i) = ifrom (mkInterval (f (ivl_start i)) (f (ivl_end i)))).

  Context {K L : Type} {IK : InclusiveInterval I K} {IL : InclusiveInterval J L} (h : K -> L).
  Context {V W : Type} (g : V -> W).

  Definition send (e : K * V) : L * W := (h (fst e), g (snd e)).
  Definition send_error {A B} (a : A -> B) (r : result A V) : result B W :=
    match r with Ok x => Ok (a x) | Err v => Err (g v) end.

  (** [o'] is the call [o] with its points, intervals and values converted. *)
  Inductive op_sent : op I K V -> op J L W -> Prop :=
  | os_new : op_sent OpNew OpNew
  | os_strict k v : op_sent (OpInsertStrict k v) (OpInsertStrict (h k) (g v))
  | os_touching k v : op_sent (OpInsertMergeTouching k v) (OpInsertMergeTouching (h k) (g v))
  | os_touching_eq veq veq' k v : (forall x y, veq' (g x) (g y) = veq x y) ->
      op_sent (OpInsertMergeTouchingIfValuesEqual veq k v) (OpInsertMergeTouchingIfValuesEqual veq' (h k) (g v))
  | os_overlapping k v : op_sent (OpInsertMergeOverlapping k v) (OpInsertMergeOverlapping (h k) (g v))
  | os_tor k v : op_sent (OpInsertMergeTouchingOrOverlapping k v) (OpInsertMergeTouchingOrOverlapping (h k) (g v))
  | os_overwrite k v : op_sent (OpInsertOverwrite k v) (OpInsertOverwrite (h k) (g v))
  | os_remove Q (IQ : InclusiveInterval I Q) R (IR : InclusiveInterval J R) (q : Q) (r : R) :
      carried q r -> op_sent (OpRemoveOverlapping q) (OpRemoveOverlapping r)
  | os_cut Q (IQ : InclusiveInterval I Q) R (IR : InclusiveInterval J R) (q : Q) (r : R) :
      carried q r -> op_sent (OpCut q) (OpCut r)
  | os_overlapping_mut Q (IQ : InclusiveInterval I Q) R (IR : InclusiveInterval J R) (q : Q) (r : R) u u' :
      carried q r -> (forall k v, u' (h k) (g v) = g (u k v)) -> op_sent (OpOverlappingMut u q) (OpOverlappingMut u' r)
  | os_get_mut u u' p : (forall v, u' (g v) = g (u v)) -> op_sent (OpGetAtPointMut u p) (OpGetAtPointMut u' (f p))
  | os_iter_mut u u' : (forall k v, u' (h k) (g v) = g (u k v)) -> op_sent (OpIterMut u) (OpIterMut u')
  | os_from_iter l : op_sent (OpFromIterStrict l) (OpFromIterStrict (map send l))
  | os_deserialize l : op_sent (OpDeserialize l) (OpDeserialize (map (option_map send) l)).

  Inductive zop_sent : zop I K V -> zop J L W -> Prop :=
  | zs_new : zop_sent ZNew ZNew
  | zs_insert k v : zop_sent (ZInsertStrictBack k v) (ZInsertStrictBack (h k) (g v))
  | zs_remove p : zop_sent (ZRemoveLast p) (ZRemoveLast (f p))
  | zs_cut Q (IQ : InclusiveInterval I Q) R (IR : InclusiveInterval J R) (q : Q) (r : R) :
      carried q r -> zop_sent (ZCut q) (ZCut r)
  | zs_from_iter l : zop_sent (ZFromIter l) (ZFromIter (map send l))
  | zs_deserialize l : zop_sent (ZDeserialize l) (ZDeserialize (map (option_map send) l)).
End Transport.
