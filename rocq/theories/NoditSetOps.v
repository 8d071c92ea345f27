(** * NoditSetOps: histories of NoditSet calls and what they mean for points.
      No proofs in this file; part of the specification (C28-C30, C62). *)
From Coq Require Import List.
From Verif Require Import Base BTree UtilsModel IntervalModel NoditModel NoditSetModel NoditOps Spec.
Import ListNotations.

Section Ops.
  Context {I : Type} `{Ord I} `{DiscreteFinite I}.
  Context {K : Type} `{InclusiveInterval I K}.

  (** One constructor per public method of /repo/src/nodit/set.rs that changes
      the set; the conventions are those of [NoditOps]. *)
  Inductive set_op : Type :=
  | SNew
  | SInsertStrict (k : K)
  | SInsertMergeTouching (k : K)
  | SInsertMergeOverlapping (k : K)
  | SInsertMergeTouchingOrOverlapping (k : K)
  | SInsertOverwrite (k : K)
  | SRemoveOverlapping {Q : Type} `{InclusiveInterval I Q} (q : Q)
  | SCut {Q : Type} `{InclusiveInterval I Q} (q : Q)
  | SFromIterStrict (l : list K)
  | SDeserialize (l : list (option K)).

  Definition set_step (s : NoditSet K) (o : set_op) : NoditSet K :=
    match o with
    | SNew => set_new
    | SInsertStrict k => fst (set_insert_strict k s)
    | SInsertMergeTouching k => fst (set_insert_merge_touching k s)
    | SInsertMergeOverlapping k => fst (set_insert_merge_overlapping k s)
    | SInsertMergeTouchingOrOverlapping k => fst (set_insert_merge_touching_or_overlapping k s)
    | SInsertOverwrite k => fst (set_insert_overwrite k s)
    | SRemoveOverlapping q => fst (set_remove_overlapping q s)
    | SCut q => fst (set_cut q s)
    | SFromIterStrict l => match set_from_iter_strict l with Val (Ok s') => s' | _ => s end
    | SDeserialize l => match set_deserialize l with Val (Ok s') => s' | _ => s end
    end.

  Definition set_run (ops : list set_op) : NoditSet K := fold_left set_step ops set_new.
  Definition set_reachable (s : NoditSet K) : Prop := exists ops, s = set_run ops.

  (** The point [p] lies in an interval the set yields. *)
  Definition in_set (s : NoditSet K) (p : I) : Prop := exists k, In k (set_iter s) /\ covers k p.

  (** ** The set of points a history describes (C29)

      [P] is the set of points before a call, [P'] the one after.  A call with
      an invalid interval changes nothing.  [remove_overlapping] is left out: its
      effect depends on where one interval ends and the next begins. *)
  Definition unions {Q} `{InclusiveInterval I Q} (q : Q) (P P' : I -> Prop) : Prop :=
    forall p, P' p <-> P p \/ covers q p.
  Definition unions_if_free (k : K) (P P' : I -> Prop) : Prop :=
    ((forall p, covers k p -> ~ P p) -> unions k P P') /\
    (~ (forall p, covers k p -> ~ P p) -> forall p, P' p <-> P p).
  Definition loads_points (l : list (option K)) (P P' : I -> Prop) : Prop :=
    (forall ks, l = map Some ks -> disjoint_intervals ks ->
       forall p, P' p <-> exists k, In k ks /\ covers k p) /\
    (~ (exists ks, l = map Some ks /\ disjoint_intervals ks) -> forall p, P' p <-> P p).

  Inductive set_means : set_op -> (I -> Prop) -> (I -> Prop) -> Prop :=
  | sm_new P P' : (forall p, ~ P' p) -> set_means SNew P P'
  | sm_strict k P P' : unions_if_free k P P' -> set_means (SInsertStrict k) P P'
  | sm_touching k P P' : unions_if_free k P P' -> set_means (SInsertMergeTouching k) P P'
  | sm_overlapping k P P' : unions k P P' -> set_means (SInsertMergeOverlapping k) P P'
  | sm_tor k P P' : unions k P P' -> set_means (SInsertMergeTouchingOrOverlapping k) P P'
  | sm_overwrite k P P' : unions k P P' -> set_means (SInsertOverwrite k) P P'
  | sm_cut Q (IQ : InclusiveInterval I Q) (q : Q) P P' :
      (forall p, P' p <-> P p /\ ~ covers q p) -> set_means (SCut q) P P'
  | sm_from_iter l P P' : loads_points (map Some l) P P' -> set_means (SFromIterStrict l) P P'
  | sm_deserialize l P P' : loads_points l P P' -> set_means (SDeserialize l) P P'.

  Inductive set_history : list set_op -> (I -> Prop) -> Prop :=
  | sh_nil P : (forall p, ~ P p) -> set_history [] P
  | sh_snoc os o P P' : set_history os P -> set_means o P P' -> set_history (os ++ [o]) P'.

  (** ** The calls that never leave two touching intervals apart (C28) *)
  Definition merging (o : set_op) : Prop :=
    match o with
    | SNew | SInsertMergeTouching _ | SInsertMergeTouchingOrOverlapping _
    | SRemoveOverlapping _ | SCut _ => True
    | _ => False
    end.

  (** ** Forgetting values (C30) *)
  Section Values.
    Context {V : Type}.
    Definition forget (m : NoditMap K V) : NoditSet K := map (fun e => (fst e, tt)) m.

    Definition drop_error {A} (r : result A V) : result A unit :=
      match r with Ok a => Ok a | Err _ => Err tt end.

    (** [lifts o o']: the map call [o'] is the set call [o] with some value(s). *)
    Inductive lifts : set_op -> op I K V -> Prop :=
    | lifts_new : lifts SNew OpNew
    | lifts_strict k v : lifts (SInsertStrict k) (OpInsertStrict k v)
    | lifts_touching k v : lifts (SInsertMergeTouching k) (OpInsertMergeTouching k v)
    | lifts_overlapping k v : lifts (SInsertMergeOverlapping k) (OpInsertMergeOverlapping k v)
    | lifts_tor k v : lifts (SInsertMergeTouchingOrOverlapping k) (OpInsertMergeTouchingOrOverlapping k v)
    | lifts_overwrite k v : lifts (SInsertOverwrite k) (OpInsertOverwrite k v)
    | lifts_remove Q (IQ : InclusiveInterval I Q) (q : Q) : lifts (SRemoveOverlapping q) (OpRemoveOverlapping q)
    | lifts_cut Q (IQ : InclusiveInterval I Q) (q : Q) : lifts (SCut q) (OpCut q)
    | lifts_from_iter l : lifts (SFromIterStrict (map fst l)) (OpFromIterStrict l)
    | lifts_deserialize l : lifts (SDeserialize (map (option_map fst) l)) (OpDeserialize l).
  End Values.

  (** ** Replacing values (C62)

      [op_image g o o']: the call [o'] is [o] with every value replaced by its
      image under [g].  A caller's [PartialEq] and the changes made through
      [&mut V] must correspond. *)
  Section Images.
    Context {V W : Type} (g : V -> W).
    Definition image (e : K * V) : K * W := (fst e, g (snd e)).
    Definition image_error {A} (r : result A V) : result A W :=
      match r with Ok a => Ok a | Err v => Err (g v) end.
    Inductive op_image : op I K V -> op I K W -> Prop :=
    | oi_new : op_image OpNew OpNew
    | oi_strict k v : op_image (OpInsertStrict k v) (OpInsertStrict k (g v))
    | oi_touching k v : op_image (OpInsertMergeTouching k v) (OpInsertMergeTouching k (g v))
    | oi_touching_eq veq veq' k v : (forall x y, veq' (g x) (g y) = veq x y) ->
        op_image (OpInsertMergeTouchingIfValuesEqual veq k v) (OpInsertMergeTouchingIfValuesEqual veq' k (g v))
    | oi_overlapping k v : op_image (OpInsertMergeOverlapping k v) (OpInsertMergeOverlapping k (g v))
    | oi_tor k v : op_image (OpInsertMergeTouchingOrOverlapping k v) (OpInsertMergeTouchingOrOverlapping k (g v))
    | oi_overwrite k v : op_image (OpInsertOverwrite k v) (OpInsertOverwrite k (g v))
    | oi_remove Q (IQ : InclusiveInterval I Q) (q : Q) : op_image (OpRemoveOverlapping q) (OpRemoveOverlapping q)
    | oi_cut Q (IQ : InclusiveInterval I Q) (q : Q) : op_image (OpCut q) (OpCut q)
    | oi_overlapping_mut Q (IQ : InclusiveInterval I Q) f f' (q : Q) : (forall k v, g (f k v) = f' k (g v)) ->
        op_image (OpOverlappingMut f q) (OpOverlappingMut f' q)
    | oi_get_mut f f' p : (forall v, g (f v) = f' (g v)) -> op_image (OpGetAtPointMut f p) (OpGetAtPointMut f' p)
    | oi_iter_mut f f' : (forall k v, g (f k v) = f' k (g v)) -> op_image (OpIterMut f) (OpIterMut f')
    | oi_from_iter l : op_image (OpFromIterStrict l) (OpFromIterStrict (map image l))
    | oi_deserialize l : op_image (OpDeserialize l) (OpDeserialize (map (option_map image) l)).
  End Images.
End Ops.
Arguments set_op : clear implicits.
