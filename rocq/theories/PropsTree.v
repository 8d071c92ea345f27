(** * PropsTree: no result depends on the shape of the tree (C53, C68). *)
From Coq Require Import List ZArith Bool Lia Sorting.Sorted.
From Verif Require Import Base BTree UtilsModel IntervalModel NoditModel NoditOps ZosditModel ZosditOps GqditModel GqditOps Spec TreeShape
  InstancesModel Instances PointFacts IntervalFacts NoditFacts NoditInv ZosditFacts ZosditMut ZosditProofs GqditFacts GqditProofs TreeFacts TreeProofs.
Import ListNotations.
Open Scope nat_scope.

Section Props.
  Context {I : Type} `{PL : PointLaws I}.
  Context {K : Type} {IK : InclusiveInterval I K} {IL : IntervalLaws I K}.
  Context {V : Type}.
  Context {D : Type} {OD : Ord D} {OL : OrdLaws D}.
  Implicit Types (k : K) (p : I).

  (** ** C53.  The comparators of /repo/src/utils.rs as the crate uses them. *)
  Theorem C53_nodit_searches : forall (m : NoditMap K V) p, reachable m ->
    shape_free (overlapping_comp p) m /\ shape_free (touching_start_comp p) m /\ shape_free (touching_end_comp p) m.
  Proof.
    intros m p R. apply reachable_WF in R. split; [|split]; apply orderly_shape_free.
    - apply orderly_overlapping, R.
    - apply orderly_touching_start, R.
    - apply orderly_touching_end, R.
  Qed.
  Theorem C53_nodit_insert : forall (m : NoditMap K V) k, reachable m -> insert_shape_free k starts_comp m.
  Proof. intros m k R. apply reachable_WF in R. apply orderly_insert_shape_free, orderly_starts, R. Qed.
  Theorem C53_nodit_range : forall (m : NoditMap K V) p p', reachable m ->
    range_shape_free (overlapping_comp p) (overlapping_comp p') m.
  Proof. intros m p p' R. apply reachable_WF in R. apply orderly_range_shape_free; apply orderly_overlapping, R. Qed.

  (** A Gqdit is a NoditMap inside. *)
  Theorem C53_gqdit : forall (g : Gqdit K D) p p' k, greachable g \/ gdrained g ->
    shape_free (overlapping_comp p) g /\ shape_free (touching_start_comp p) g /\ shape_free (touching_end_comp p) g /\
    insert_shape_free k starts_comp g /\ range_shape_free (overlapping_comp p) (overlapping_comp p') g.
  Proof.
    intros g p p' k R. assert (W : WF g) by (destruct R as [R|R]; [apply (greachable_GWF g R)|rewrite (drained_empty g R); apply WF_nil]).
    split; [|split; [|split; [|split]]].
    - apply orderly_shape_free, orderly_overlapping, W.
    - apply orderly_shape_free, orderly_touching_start, W.
    - apply orderly_shape_free, orderly_touching_end, W.
    - apply orderly_insert_shape_free, orderly_starts, W.
    - apply orderly_range_shape_free; apply orderly_overlapping, W.
  Qed.

  Theorem C53_zosdit_searches : forall (z : ZosditMap K V) p, zreachable z ->
    shape_free (exclusive_comp p Gt) (z_inner z) /\ shape_free (exclusive_comp p Lt) (z_inner z).
  Proof.
    intros z p R. pose proof (zreachable_ZWF z R) as (W & _). split; apply orderly_shape_free; [apply orderly_exclusive_Gt, W|apply orderly_exclusive_Lt, W].
  Qed.
  Theorem C53_zosdit_ranges : forall (z : ZosditMap K V) p p', zreachable z ->
    range_shape_free (exclusive_comp p Gt) (exclusive_comp p' Lt) (z_inner z) /\
    range_shape_free (inclusive_comp p Lt) (inclusive_comp p' Gt) (z_inner z).
  Proof.
    intros z p p' R. pose proof (zreachable_ZWF z R) as (W & _). split; apply orderly_range_shape_free.
    - apply orderly_exclusive_Gt, W.
    - apply orderly_exclusive_Lt, W.
    - apply orderly_inclusive_Lt, W.
    - apply orderly_inclusive_Gt, W.
  Qed.

  (** ** C68: the [entry] search of [insert_strict_back]; full claim: without
      [Forall not_cut os]; false, see below. *)
  Theorem C68_entry_partial : forall (os : list (zop I K V)) k v, valid k ->
    (forall e, In e (zosdit_iter (zrun os)) -> zero_overlap (fst e) k) -> Forall not_cut os \/ stored_once (zrun os) -> exists comp,
    (forall e, In e (z_inner (zrun os)) -> entry_comp (fst e) k = Val (comp (fst e))) /\
    forall t, entries t = z_inner (zrun os) -> entry_push k v [] (z_inner (zrun os)) = Val (t_entry_push comp k v t).
  Proof.
    intros os k v Vk HF Hc. apply valid_rk in Vk. pose proof (zrun_ZWF os) as Wf. pose proof (zero_overlap_apart _ _ Wf Vk HF) as A. pose proof Wf as (W & _).
    exists (entry_answer k). split.
    - intros e He. rewrite Forall_forall in A. apply entry_answer_val; [exact Vk|apply (ZS_okv _ _ W He)|apply (A e He)].
    - intros t E. rewrite <- E in *. apply t_entry_push_same; try assumption. rewrite E. destruct Hc as [Hc|Hc]; [apply zrun_ZD, Hc|apply (stored_once_ZD _ Wf), Hc].
  Qed.
  (** After any history and in any tree: no comparison panics, and the value is
      put between entries it may stand between (as in C34). *)
  Theorem C68_entry_any_shape_partial : forall (z : ZosditMap K V) k v, zreachable z -> valid k ->
    (forall e, In e (zosdit_iter z) -> zero_overlap (fst e) k) -> exists comp,
    (forall e, In e (z_inner z) -> entry_comp (fst e) k = Val (comp (fst e))) /\
    forall t, entries t = z_inner z -> exists l1 l2 k',
      zosdit_iter z = l1 ++ l2 /\ zosdit_iter (mkZosdit (S (z_len z)) (t_entry_push comp k v t)) = l1 ++ (k', v) :: l2 /\
      same_points k' k /\ (forall e, In e l1 -> up_to (fst e) k) /\ (forall e, In e l2 -> up_to k (fst e)).
  Proof.
    intros z k v R Vk HF. apply valid_rk in Vk. pose proof (zreachable_ZWF z R) as Wf. pose proof (zero_overlap_apart _ _ Wf Vk HF) as A. pose proof Wf as (W & _).
    exists (entry_answer k). split.
    - intros e He. rewrite Forall_forall in A. apply entry_answer_val; [exact Vk|apply (ZS_okv _ _ W He)|apply (A e He)].
    - intros t E. rewrite <- E in W, A. destruct (t_entry_push_any k v t Vk W A) as (l1 & l2 & k' & E1 & E2 & L1 & L2 & F1 & F2).
      exists l1, l2, k'. unfold zosdit_iter. cbn [z_inner]. rewrite <- E, E2. split; [exact E1|]. split; [reflexivity|].
      assert (Hin : forall e, In e (l1 ++ l2) -> (elo e <= ehi e)%Z).
      { intros e He. apply (iter_okv z e Wf). unfold zosdit_iter. rewrite <- E, E1. exact He. }
      split; [intros p; rewrite !covers_rk, L1, L2; tauto|]. rewrite Forall_forall in F1, F2. split; intros e He.
      + apply up_to_rk; [apply Hin, in_or_app; left; exact He|exact Vk|apply (F1 e He)].
      + apply up_to_rk; [exact Vk|apply Hin, in_or_app; right; exact He|apply (F2 e He)].
  Qed.
End Props.

(** ** The claim that does not hold: after [cut] has left two entries with the
    interval [10..10], where a third one goes depends on the tree. *)
Definition ext_ops : list (zop u8 (Interval u8) nat) :=
  [ZFromIter [(0 --> 0, 1); (1 --> 1, 1); (2 --> 2, 1); (3 --> 3, 1); (4 --> 4, 1); (10 --> 10, 2); (10 --> 14, 3);
              (20 --> 20, 1); (21 --> 21, 1); (22 --> 22, 1); (23 --> 23, 1)]; ZCut (11 --> 13)].
Definition leaf (l : list (Interval u8 * list nat)) : tree (Interval u8) (list nat) :=
  Node (fold_right (fun kv n => More Tip kv n) (Last Tip) l).
Definition ext_left : list (Interval u8 * list nat) := [(0 --> 0, [1]); (1 --> 1, [1]); (2 --> 2, [1]); (3 --> 3, [1]); (4 --> 4, [1])].
Definition ext_right : list (Interval u8 * list nat) := [(14 --> 14, [3]); (20 --> 20, [1]); (21 --> 21, [1]); (22 --> 22, [1]); (23 --> 23, [1])].
Definition ext_t1 : tree (Interval u8) (list nat) :=
  Node (More (leaf ext_left) (10 --> 10, [2]) (Last (leaf ((10 --> 10, [3]) :: ext_right)))).
Definition ext_t2 : tree (Interval u8) (list nat) :=
  Node (More (leaf (ext_left ++ [(10 --> 10, [2])])) (10 --> 10, [3]) (Last (leaf ext_right))).
Lemma leaf_btree l : 5 <= length l <= 11 -> btree false 1 (leaf l).
Proof.
  intros L. unfold leaf. constructor.
  - assert (E : forall l0 : list (Interval u8 * list nat), keys (fold_right (fun kv n => More Tip kv n) (Last Tip) l0) = length l0)
      by (induction l0 as [|kv l0 IH]; cbn; congruence).
    rewrite E. exact L.
  - clear L. induction l as [|kv l IH]; cbn; constructor; try constructor. exact IH.
Qed.
Theorem C68_entry_refuted : exists (os : list (zop u8 (Interval u8) nat)) k v comp t1 t2,
  (forall e, In e (z_inner (zrun os)) -> entry_comp (fst e) k = Val (comp (fst e))) /\
  btree true 2 t1 /\ btree true 2 t2 /\ entries t1 = z_inner (zrun os) /\ entries t2 = z_inner (zrun os) /\
  t_entry_push comp k v t1 <> t_entry_push comp k v t2.
Proof.
  exists ext_ops, (10 --> 10), 7, (entry_answer (10 --> 10)), ext_t1, ext_t2.
  split; [|split; [|split; [|split; [|split]]]].
  - intros e He. assert (E : z_inner (zrun ext_ops) = ext_left ++ (10 --> 10, [2]) :: (10 --> 10, [3]) :: ext_right) by (vm_compute; reflexivity).
    rewrite E in He. cbn in He. repeat (destruct He as [<-|He]; [vm_compute; reflexivity|]). destruct He.
  - constructor; [cbn; lia|]. constructor; [apply leaf_btree; cbn; lia|]. constructor. apply leaf_btree. cbn. lia.
  - constructor; [cbn; lia|]. constructor; [apply leaf_btree; cbn; lia|]. constructor. apply leaf_btree. cbn. lia.
  - vm_compute. reflexivity.
  - vm_compute. reflexivity.
  - vm_compute. discriminate.
Qed.

(** ** Examples *)
Definition ext_map : NoditMap (Interval u8) nat := run [OpInsertStrict (6 --> 7) 2; OpInsertStrict (2 --> 4) 1; OpInsertStrict (9 --> 9) 3].
Definition ext_tree : tree (Interval u8) nat :=
  Node (More (Node (More Tip (2 --> 4, 1) (Last Tip))) (6 --> 7, 2) (Last (Node (More Tip (9 --> 9, 3) (Last Tip))))).
Definition ext_tree' : tree (Interval u8) nat :=
  Node (More Tip (2 --> 4, 1) (More Tip (6 --> 7, 2) (Last (Node (More Tip (9 --> 9, 3) (Last Tip)))))).
Example ext_C53 : reachable ext_map /\ entries ext_tree = ext_map /\ entries ext_tree' = ext_map /\
  t_get_key_value (overlapping_comp '3) ext_tree = Some (2 --> 4, 1) /\
  t_get_key_value (overlapping_comp '3) ext_tree' = Some (2 --> 4, 1) /\
  t_range (overlapping_comp '5) (overlapping_comp '9) ext_tree = [(6 --> 7, 2); (9 --> 9, 3)].
Proof. split; [eexists; reflexivity|]. vm_compute. repeat split; reflexivity. Qed.
(** A comparator that is not monotone along the entries does depend on the shape. *)
Definition odd_comp (k : Interval u8) : comparison := if eqb (istart k) '6 then Lt else if eqb (istart k) '9 then Eq else Gt.
Example ext_not_shape_free : t_get_key_value odd_comp ext_tree = None /\
  ~ shape_free odd_comp [(6 --> 7, 2); (2 --> 4, 1)].
Proof.
  split; [vm_compute; reflexivity|]. intros S.
  destruct (S (Node (More (Node (More Tip (6 --> 7, 2) (Last Tip))) (2 --> 4, 1) (Last Tip))) eq_refl) as (_ & _ & _ & L & _). vm_compute in L. discriminate L.
Qed.
Definition ext_ops2 : list (zop u8 (Interval u8) nat) := [ZInsertStrictBack (3 --> 3) 1; ZInsertStrictBack (3 --> 6) 2].
Example ext_C68 : Forall not_cut ext_ops2 /\ is_zero_overlap (zrun ext_ops2) (3 --> 3) = Val true /\
  entry_push (3 --> 3) 7 [] (z_inner (zrun ext_ops2)) = Val [(3 --> 3, [1; 7]); (3 --> 6, [2])].
Proof. split; [repeat constructor|]. vm_compute. split; reflexivity. Qed.

Print Assumptions C53_nodit_searches.
Print Assumptions C53_nodit_insert.
Print Assumptions C53_nodit_range.
Print Assumptions C53_gqdit.
Print Assumptions C53_zosdit_searches.
Print Assumptions C53_zosdit_ranges.
Print Assumptions C68_entry_partial.
Print Assumptions C68_entry_any_shape_partial.
Print Assumptions C68_entry_refuted.
