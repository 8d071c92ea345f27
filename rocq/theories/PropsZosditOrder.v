(** * PropsZosditOrder: the order of insertions into a ZosditMap (C108). *)
From Coq Require Import List ZArith Bool Lia Permutation.
From Verif Require Import EqFacts Base IntervalModel NoditModel ZosditModel ZosditOps Spec InstancesModel Instances
  PointFacts IntervalFacts ZosditFacts ZosditMut ZosditProofs ZosditOrder.
Import ListNotations.
Open Scope nat_scope.

(** Two lists of pairs hold, at every interval, the same values in the same order. *)
Definition same_order {I : Type} {OI : Ord I} {K : Type} {IK : InclusiveInterval I K} {V : Type} (l l' : list (K * V)) : Prop :=
  forall k s s', valid k -> sub (fun e => same_points (fst e) k) l s -> sub (fun e => same_points (fst e) k) l' s' ->
    map snd s = map snd s'.

Section Props.
  Context {I : Type} `{PL : PointLaws I}.
  Context {K : Type} {IK : InclusiveInterval I K} {IL : IntervalLaws I K}.
  Context {V : Type}.
  Implicit Types (z : ZosditMap K V) (k : K) (v : V) (l : list (K * V)).

  (** ** C108 *)
  Theorem C108_from_iter_any_order : forall l l' z, Permutation l l' -> same_order l l' ->
    from_iter_strict_back l = Val (Ok z) ->
    exists z', from_iter_strict_back l' = Val (Ok z') /\
      Forall2 same_entry (zosdit_iter z) (zosdit_iter z') /\ zosdit_len z = zosdit_len z'.
  Proof. exact from_iter_reordered. Qed.
  Theorem C108_inserts_commute : forall z k v k' v', zreachable z ->
    (valid k -> valid k' -> zero_overlap k k' /\ ~ same_points k k') ->
    let first := insert_strict_back k v z in let second := insert_strict_back k' v' z in
    fst (insert_strict_back k' v' (fst first)) = fst (insert_strict_back k v (fst second)) /\
    snd (insert_strict_back k' v' (fst first)) = snd second /\
    snd (insert_strict_back k v (fst second)) = snd first.
  Proof. intros z k v k' v' R. apply insert_commute, zreachable_ZWF, R. Qed.
  (** Otherwise the first insertion wins. *)
  Theorem C108_overlapping_inserts_exclude : forall z k v k' v', zreachable z -> valid k -> valid k' -> ~ zero_overlap k k' ->
    snd (insert_strict_back k v z) = Val (Ok tt) ->
    insert_strict_back k' v' (fst (insert_strict_back k v z)) = (fst (insert_strict_back k v z), Val (Err v')).
  Proof. intros z k v k' v' R. apply insert_blocks, zreachable_ZWF, R. Qed.
End Props.

(** With [Interval] keys and points whose equality is identity, the very same map. *)
Theorem C108_from_iter_any_order_same_map : forall {I V : Type} `{PL : PointLaws I} {OL : OrdLaws I} (l l' : list (Interval I * V)) z,
  Permutation l l' -> same_order l l' -> from_iter_strict_back l = Val (Ok z) -> from_iter_strict_back l' = Val (Ok z).
Proof.
  intros I V OI DI PL OL l l' z P S E. destruct (from_iter_reordered l l' z P S E) as (z' & E' & F & N). rewrite E'. do 2 f_equal.
  assert (D : forall x (y : ZosditMap (Interval I) V), from_iter_strict_back x = Val (Ok y) -> ZWF y /\ ZD (z_inner y)).
  { intros x y X. split; [exact (proj1 (from_iter_grown x y X))|]. apply (deserialized_once (map Some x)).
    apply deserialize_Ok_from_iter. exists x. split; [reflexivity|exact X]. }
  destruct (D l z E) as [W Z]. destruct (D l' z' E') as [W' Z'].
  assert (Eq : zosdit_iter z = zosdit_iter z').
  { pose proof (fun e => iter_okv z e W) as O. pose proof (fun e => iter_okv z' e W') as O'. apply Forall_forall in O, O'. clear - F O O' OL PL.
    induction F as [|[[a b] v] [[c d] w] x y [Sp Ev] F IH]; [reflexivity|]. apply Forall_cons_iff in O, O'.
    destruct O as [O1 O], O' as [O1' O']. f_equal; [|apply IH; assumption]. cbn [fst snd] in *. subst w. f_equal.
    apply same_points_rk in Sp; [|exact O1|exact O1']. destruct Sp as [A B]. f_equal; apply cmp_eq, rk_eq; [exact A|exact B]. }
  pose proof (ZD_inner_unique z' z W' W Z' Z (eq_sym Eq)) as Ei. destruct z as [n i], z' as [n' i']. cbn in *. congruence.
Qed.

Example C108_example :
  let l := [(4 --> 8, 1); (8 --> 8, 2); (4 --> 4, 3); (8 --> 8, 4); (8 --> 12, 5)] : list (Interval u8 * nat) in
  let l' := [(8 --> 12, 5); (8 --> 8, 2); (8 --> 8, 4); (4 --> 4, 3); (4 --> 8, 1)] : list (Interval u8 * nat) in
  exists z, from_iter_strict_back l = Val (Ok z) /\ from_iter_strict_back l' = Val (Ok z) /\ zosdit_len z = 5 /\
    zosdit_iter z = [(4 --> 4, 3); (4 --> 8, 1); (8 --> 8, 2); (8 --> 8, 4); (8 --> 12, 5)].
Proof. eexists. split; [vm_compute; reflexivity|]. vm_compute. auto. Qed.
(** Between equal intervals the order is kept. *)
Example C108_example_same_interval :
  (exists z, from_iter_strict_back [((8 --> 8 : Interval u8), 2); (8 --> 8, 4)] = Val (Ok z) /\ map snd (zosdit_iter z) = [2; 4]) /\
  (exists z, from_iter_strict_back [((8 --> 8 : Interval u8), 4); (8 --> 8, 2)] = Val (Ok z) /\ map snd (zosdit_iter z) = [4; 2]).
Proof. split; eexists; (split; [vm_compute; reflexivity|vm_compute; reflexivity]). Qed.
Example C108_example_commute :
  let z := zrun [ZInsertStrictBack (4 --> 8) 1; ZInsertStrictBack (20 --> 30) 2] : ZosditMap (Interval u8) nat in
  zreachable z /\
  snd (insert_strict_back (8 --> 12) 3 z) = Val (Ok tt) /\ snd (insert_strict_back (12 --> 12) 4 z) = Val (Ok tt) /\
  fst (insert_strict_back (12 --> 12) 4 (fst (insert_strict_back (8 --> 12) 3 z))) =
    fst (insert_strict_back (8 --> 12) 3 (fst (insert_strict_back (12 --> 12) 4 z))) /\
  zosdit_iter (fst (insert_strict_back (12 --> 12) 4 (fst (insert_strict_back (8 --> 12) 3 z)))) =
    [(4 --> 8, 1); (8 --> 12, 3); (12 --> 12, 4); (20 --> 30, 2)] /\
  insert_strict_back (11 --> 13) 5 (fst (insert_strict_back (8 --> 12) 3 z)) = (fst (insert_strict_back (8 --> 12) 3 z), Val (Err 5)).
Proof. split; [eexists; reflexivity|]. vm_compute. auto. Qed.
Print Assumptions C108_from_iter_any_order.
Print Assumptions C108_inserts_commute.
Print Assumptions C108_overlapping_inserts_exclude.
Print Assumptions C108_from_iter_any_order_same_map.
