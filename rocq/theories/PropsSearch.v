(** * PropsSearch: how many stored intervals a search looks at (C151). *)
From Coq Require Import List ZArith Bool Arith Lia.
From Verif Require Import Base BTree UtilsModel IntervalModel NoditModel NoditOps ZosditModel ZosditOps InstancesModel Instances Spec TreeShape SearchOps
  PointFacts IntervalFacts NoditFacts NoditInv NoditQueries ZosditFacts ZosditMut ZosditProofs TreeFacts TreeProofs SearchFacts.
Import ListNotations.
Open Scope nat_scope.

(** ** C151 *)
(** What [asks] lists is what the search depends on: a comparator that gives
    the same answers for these intervals leads to the same place by the same
    way.  All of them are stored. *)
Theorem C151_asked_decide : forall (K V : Type) (comp comp' : K -> comparison) (t : tree K V),
  (forall k, In k (asks comp t) -> comp' k = comp k) -> search comp' t = search comp t /\ asks comp' t = asks comp t.
Proof. intros K V comp comp' t. exact (proj1 (asks_suffice comp comp') t). Qed.
Theorem C151_asked_are_stored : forall (K V : Type) (comp : K -> comparison) (t : tree K V),
  incl (asks comp t) (map fst (entries t)).
Proof. intros K V comp t. exact (proj1 (asks_stored comp) t). Qed.
(** In a B-tree of depth [d]: at most 11 in each node on the way, and [d] is
    logarithmic. *)
Theorem C151_depth : forall (K V : Type) (comp : K -> comparison) d (t : tree K V), btree true d t ->
  length (asks comp t) <= 11 * d /\ (d = 0 \/ 2 * 6 ^ (d - 1) <= S (length (entries t))) /\
  few 1 (length (entries t)) (length (asks comp t)).
Proof.
  intros K V comp d t B. split; [exact (proj1 (asks_depth comp) _ _ _ B)|]. split; [|exact (asks_few comp d t B)].
  exact (proj2 (proj1 tree_size _ _ _ B) eq_refl).
Qed.
(** There is a B-tree for every map. *)
Theorem C151_every_list_fits : forall (K V : Type) (l : BTreeMap K V), exists d t, btree true d t /\ entries t = l.
Proof. intros K V. exact any_list_fits. Qed.

Section Props.
  Context {I : Type} `{PL : PointLaws I}.
  Context {K : Type} {IK : InclusiveInterval I K} {IL : IntervalLaws I K}.
  Context {V : Type}.
  Implicit Types (m : NoditMap K V) (z : ZosditMap K V) (p : I) (k : K) (v : V).

  Theorem C151_get_key_value_at_point : forall m p d t, reachable m -> btree true d t -> entries t = m ->
    fst (c_get_key_value_at_point t p) = get_key_value_at_point m p /\
    few 3 (len m) (length (snd (c_get_key_value_at_point t p))) /\
    (covered (iter m) p -> few 1 (len m) (length (snd (c_get_key_value_at_point t p)))).
  Proof. intros m p d t R. exact (c_get_key_value_same m p d t (reachable_WF m R)). Qed.
  Theorem C151_get_at_point_mut : forall f m p d t, reachable m -> btree true d t -> entries t = m ->
    fst (c_get_at_point_mut f p t) = get_at_point_mut f p m /\ few 1 (len m) (length (snd (c_get_at_point_mut f p t))).
  Proof. intros f m p d t R. exact (c_get_at_point_mut_same f m p d t (reachable_WF m R)). Qed.
  Theorem C151_overlaps : forall (Q : Type) (IQ : InclusiveInterval I Q) m (q : Q) d t, reachable m -> btree true d t -> entries t = m ->
    fst (c_overlaps t q) = map_overlaps m q /\ few 2 (len m) (length (snd (c_overlaps t q))).
  Proof. intros Q IQ m q d t R. exact (c_overlaps_same m q d t (reachable_WF m R)). Qed.
  Theorem C151_insert_strict : forall m k v d t, reachable m -> btree true d t -> entries t = m ->
    fst (c_insert_strict k v t) = insert_strict k v m /\ few 3 (len m) (length (snd (c_insert_strict k v t))).
  Proof. intros m k v d t R. exact (c_insert_strict_same m k v d t (reachable_WF m R)). Qed.
  Theorem C151_get_last_value_at_point : forall z p d t, zreachable z -> btree true d t -> entries t = z_inner z ->
    fst (c_get_last_value_at_point t p) = get_last_value_at_point z p /\
    few 1 (length (zosdit_iter z)) (length (snd (c_get_last_value_at_point t p))).
  Proof. intros z p d t R. exact (c_get_last_same z p d t (zreachable_ZWF z R)). Qed.
  Theorem C151_is_zero_overlap : forall (Q : Type) (IQ : InclusiveInterval I Q) z (q : Q) d t, zreachable z -> btree true d t -> entries t = z_inner z ->
    fst (c_is_zero_overlap t q) = is_zero_overlap z q /\ few 2 (length (zosdit_iter z)) (length (snd (c_is_zero_overlap t q))).
  Proof. intros Q IQ z q d t R. exact (c_is_zero_overlap_same z q d t (zreachable_ZWF z R)). Qed.
End Props.

(** Thirteen entries in a tree of depth 2: a root with one key, two leaves of
    six. *)
Definition ex_ops : list (op u8 (Interval u8) nat) :=
  map (fun i => OpInsertStrict ((5 * Z.of_nat i)%Z --> (5 * Z.of_nat i + 3)%Z) i) (seq 0 13).
Definition ex_many : NoditMap (Interval u8) nat := run ex_ops.
Definition leaf (l : BTreeMap (Interval u8) nat) : tree (Interval u8) nat := Node (fold_right (fun kv n => More Tip kv n) (Last Tip) l).
Definition ex_tree : tree (Interval u8) nat :=
  match nth_error ex_many 6 with
  | Some kv => Node (More (leaf (firstn 6 ex_many)) kv (Last (leaf (skipn 7 ex_many))))
  | None => Tip
  end.
Example C151_example :
  reachable ex_many /\ btree true 2 ex_tree /\ entries ex_tree = ex_many /\ len ex_many = 13 /\
  (** found after two, of at most 22 *)
  c_get_key_value_at_point ex_tree '38 = (Val (Ok (35 --> 38, 7)), [30 --> 33; 35 --> 38]) /\
  (** a miss searches three times *)
  c_get_key_value_at_point ex_tree '4 = (Val (Err (4 --> 4)), [30 --> 33; 0 --> 3; 5 --> 8; 30 --> 33; 0 --> 3; 5 --> 8; 30 --> 33; 0 --> 3; 5 --> 8]) /\
  few 3 13 9 /\ ~ few 3 13 67 /\ few 1 1000 55 /\ ~ few 1 1000 56 /\
  snd (c_overlaps ex_tree (4 --> 4 : Interval u8)) = [30 --> 33; 0 --> 3; 5 --> 8; 30 --> 33; 0 --> 3; 5 --> 8].
Proof.
  split; [exists ex_ops; reflexivity|]. split.
  - vm_compute. repeat (constructor; try lia).
  - split; [vm_compute; reflexivity|]. split; [vm_compute; reflexivity|]. split; [vm_compute; reflexivity|]. split; [vm_compute; reflexivity|].
    unfold few. split; [vm_compute; lia|]. split; [vm_compute; lia|]. repeat split; vm_compute; try reflexivity; lia.
Qed.

Print Assumptions C151_asked_decide.
Print Assumptions C151_asked_are_stored.
Print Assumptions C151_depth.
Print Assumptions C151_every_list_fits.
Print Assumptions C151_get_key_value_at_point.
Print Assumptions C151_get_at_point_mut.
Print Assumptions C151_overlaps.
Print Assumptions C151_insert_strict.
Print Assumptions C151_get_last_value_at_point.
Print Assumptions C151_is_zero_overlap.
