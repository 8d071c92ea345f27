(** * PropsDerive: clones of whole containers (C117). *)
From Coq Require Import List ZArith Bool.
From Verif Require Import Base BTree UtilsModel IntervalModel InstancesModel NoditModel NoditOps NoditSetModel NoditSetOps ZosditModel ZosditOps GqditModel EqModel
  CloneModel CloneOps DeriveModel Spec Instances NoditNatural CloneZosdit DeriveProofs.
Import ListNotations.

Section Props.
  Context {I : Type} {OI : Ord I} {DI : DiscreteFinite I}.
  Context {K : Type} {IK : InclusiveInterval I K}.
  Context {V D W : Type} (kclone : W -> K -> K * W) (vclone : W -> V -> V * W) (dclone : W -> D -> D * W).

  (** The crate requires [Copy] of intervals and identifiers; [Copy] types
      document that [clone] just copies. *)
  Definition copies {T} (clone : W -> T -> T * W) : Prop := forall w t, clone w t = (t, w).

  (** The clone has the same intervals, and each value cloned once, in order. *)
  Theorem C117_map_clone : copies kclone -> forall w (m : NoditMap K V),
    map fst (iter (fst (nodit_clone kclone vclone w m))) = map fst (iter m) /\
    (map snd (iter (fst (nodit_clone kclone vclone w m))), snd (nodit_clone kclone vclone w m)) = clone_all vclone w (map snd (iter m)).
  Proof. intros C w m. split; [exact (bt_clone_keys kclone C vclone m w)|exact (bt_clone_values kclone C vclone m w)]. Qed.
  Theorem C117_zosdit_clone : copies kclone -> forall w (z : ZosditMap K V),
    map fst (zosdit_iter (fst (zosdit_clone kclone vclone w z))) = map fst (zosdit_iter z) /\
    (map snd (zosdit_iter (fst (zosdit_clone kclone vclone w z))), snd (zosdit_clone kclone vclone w z)) = clone_all vclone w (map snd (zosdit_iter z)) /\
    zosdit_len (fst (zosdit_clone kclone vclone w z)) = zosdit_len z.
  Proof. intros C w z. exact (zclone_iter kclone vclone C z w). Qed.

  (** If values clone to equal values, the clone is the original. *)
  Theorem C117_faithful : copies kclone -> (forall w v, fst (vclone w v) = v) -> forall w,
    (forall m, fst (nodit_clone kclone vclone w m) = m) /\ (forall z, fst (zosdit_clone kclone vclone w z) = z).
  Proof. intros C F w. exact (clone_faithful kclone vclone C F w). Qed.
  Theorem C117_set_and_gqdit : copies kclone -> copies dclone -> forall w,
    (forall s, set_clone kclone w s = (s, w)) /\ (forall g, gqdit_clone kclone dclone w g = (g, w)).
  Proof. intros C F w. exact (clone_set_gqdit kclone dclone C F w). Qed.

  (** If values only clone to something indistinguishable by [g], then so is the
      clone from the original, also after further calls made on both. *)
  Theorem C117_calls_on_the_clone : forall {X} (g : V -> X), copies kclone -> (forall w v, g (fst (vclone w v)) = g v) ->
    forall w (m : NoditMap K V) os os', Forall2 (op_image g) os os' ->
    map (image g) (iter (fold_left step os (fst (nodit_clone kclone vclone w m)))) = map (image g) (iter (fold_left step os m)).
  Proof. intros X g C F w m os os' HF. exact (fold_image g os os' HF _ _ (bt_clone_obs kclone C vclone g m F w)). Qed.
  Theorem C117_zosdit_calls_on_the_clone : forall {X} (g : V -> X), copies kclone -> (forall w v, g (fst (vclone w v)) = g v) ->
    forall w (z : ZosditMap K V) os os', Forall2 (zop_image g) os os' ->
    let z1 := fold_left zstep os (fst (zosdit_clone kclone vclone w z)) in let z2 := fold_left zstep os z in
    map (image g) (zosdit_iter z1) = map (image g) (zosdit_iter z2) /\ zosdit_len z1 = zosdit_len z2.
  Proof. intros X g C F w z os os' HF. exact (zclone_calls kclone vclone C g w z os os' F HF). Qed.

  (** If every value [==] its clone then every map [==] its clone. *)
  Theorem C117_equal : forall keq veq, copies kclone -> (forall k, keq k k = true) -> (forall w v, veq (fst (vclone w v)) v = true) -> forall w,
    (forall m, nodit_eqb keq veq (fst (nodit_clone kclone vclone w m)) m = true) /\
    (forall z, zosdit_eqb keq veq (fst (zosdit_clone kclone vclone w z)) z = true).
  Proof. intros keq veq C Hk Hv w. exact (clone_equal kclone vclone C keq veq Hk Hv w). Qed.
End Props.

(** Values (label, serial number); a clone gets a new serial number. *)
Definition renumber (w : Z) (v : Z * Z) : (Z * Z) * Z := ((fst v, w), (w + 1)%Z).
Definition copy_key (w : Z) (k : Interval u8) : Interval u8 * Z := (k, w).
Definition copy_id (w : Z) (d : u8) : u8 * Z := (d, w).
Example C117_example :
  copies copy_key /\ copies copy_id /\ (forall w v, fst (fst (renumber w v)) = fst v) /\
  nodit_clone copy_key renumber 5%Z [(1 --> 4, (7, 0)); (6 --> 9, (8, 0))]%Z = ([(1 --> 4, (7, 5)); (6 --> 9, (8, 6))], 7)%Z /\
  zosdit_clone copy_key renumber 5%Z (mkZosdit 3 [(1 --> 4, [(7, 0)]); (4 --> 4, [(8, 0); (9, 0)])]%Z) =
    (mkZosdit 3 [(1 --> 4, [(7, 5)]); (4 --> 4, [(8, 6); (9, 7)])], 8)%Z /\
  set_clone copy_key 5%Z [(1 --> 4, tt); (6 --> 9, tt)] = ([(1 --> 4, tt); (6 --> 9, tt)], 5%Z) /\
  gqdit_clone copy_key copy_id 5%Z [(1 --> 4, ['3; '4]); (6 --> 9, [])] = ([(1 --> 4, ['3; '4]); (6 --> 9, [])], 5%Z) /\
  map (image fst) (iter (fold_left step [OpCut (3 --> 7 : Interval u8)] (fst (nodit_clone copy_key renumber 5%Z [(1 --> 4, (7, 0)); (6 --> 9, (8, 0))]%Z)))) =
    [(1 --> 2, 7); (8 --> 9, 8)]%Z /\
  nodit_eqb (fun _ _ => true) (fun a b => Z.eqb (fst a) (fst b)) (fst (nodit_clone copy_key renumber 5%Z [(1 --> 4, (7, 0)); (6 --> 9, (8, 0))]%Z))
    [(1 --> 4, (7, 0)); (6 --> 9, (8, 0))]%Z = true.
Proof. unfold copies. repeat split; vm_compute; reflexivity. Qed.
(** [Copy] is needed: with a [clone] of the intervals that does not copy, the
    clone of a map need not be a map. *)
Example C117_not_copying :
  iter (fst (nodit_clone (fun w _ => (1 --> 4 : Interval u8, w)) (fun w v => (v, w)) tt [(1 --> 4, 7); (6 --> 9, 8)]%Z)) = [(1 --> 4, 7); (1 --> 4, 8)]%Z.
Proof. vm_compute. reflexivity. Qed.

Print Assumptions C117_map_clone.
Print Assumptions C117_zosdit_clone.
Print Assumptions C117_faithful.
Print Assumptions C117_set_and_gqdit.
Print Assumptions C117_calls_on_the_clone.
Print Assumptions C117_zosdit_calls_on_the_clone.
Print Assumptions C117_equal.
