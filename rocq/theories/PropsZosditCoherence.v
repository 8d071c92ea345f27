(** * PropsZosditCoherence: what the methods of ZosditMap say about each other (C106). *)
From Coq Require Import List ZArith Bool Lia Arith.
From Verif Require Import Base BTree UtilsModel IntervalModel NoditModel ZosditModel ZosditOps ZosditPops Ledger
  Spec PointFacts IntervalFacts InstancesModel Instances NoditFacts ZosditFacts ZosditMut ZosditProofs AccountFacts ZosditCoherence.
Import ListNotations.
Open Scope nat_scope.

Section Props.
  Context {I : Type} `{PL : PointLaws I}.
  Context {K : Type} {IK : InclusiveInterval I K} {IL : IntervalLaws I K}.
  Context {V : Type}.
  Context {Q : Type} {IQ : InclusiveInterval I Q}.
  Implicit Types (z : ZosditMap K V) (k : K) (v : V) (p : I) (q : Q).

  (** ** C106 *)
  Theorem C106_inserted_iff_is_zero_overlap : forall z k v, zreachable (I := I) z ->
    (snd (insert_strict_back k v z) = Val (Ok tt) <-> is_zero_overlap z k = Val true) /\
    (snd (insert_strict_back k v z) = Val (Err v) <-> is_zero_overlap z k = Val false) /\
    (snd (insert_strict_back k v z) = Panic <-> is_zero_overlap z k = Panic).
  Proof. intros z k v R. apply inserted_iff, zreachable_ZWF, R. Qed.
  Theorem C106_nothing_overlapping_is_zero_overlap : forall z q, zreachable (I := I) z ->
    zosdit_overlapping z q = Val [] -> is_zero_overlap z q = Val true.
  Proof.
    intros z q R E. destruct (valid_dec q) as [Vq|N]; [apply overlapping_nil_zero; [apply zreachable_ZWF, R|exact Vq|exact E]|].
    unfold zosdit_overlapping in E. rewrite iip_invalid in E by exact N. discriminate.
  Qed.
  (** [point_reached] is the condition of C38: without it [get_last_value_at_point]
      may miss the value. *)
  Theorem C106_point_is_one_point_interval : forall z p q, zreachable (I := I) z -> (forall x, covers q x <-> cmp x p = Eq) ->
    (forall v, get_last_value_at_point z p = Some v -> exists l k, zosdit_overlapping z q = Val (l ++ [(k, v)])) /\
    (point_reached (zosdit_iter z) p -> (get_last_value_at_point z p = None <-> zosdit_overlapping z q = Val [])).
  Proof.
    intros z p q R Hq. pose proof (zreachable_ZWF z R) as W. destruct (point_overlapping z p q W Hq) as [A B]. split; [exact A|].
    intros F. apply B, point_reached_spec; assumption.
  Qed.
  (** [cut_reaches] is the condition of C37. *)
  Theorem C106_cut_again_does_nothing : forall z q, zreachable (I := I) z -> valid q ->
    zosdit_cut q (fst (zosdit_cut q z)) = (fst (zosdit_cut q z), Val []) /\
    (cut_reaches q (zosdit_iter z) -> zosdit_overlapping (fst (zosdit_cut q z)) q = Val []).
  Proof.
    intros z q R Vq. pose proof (zreachable_ZWF z R) as W. destruct (cut_clears_zosdit z q W Vq) as [A B]. split; [exact A|].
    intros C. apply B, cut_reaches_spec; assumption.
  Qed.
  Theorem C106_insert_then_remove : forall z z' k v p, zreachable (I := I) z -> insert_strict_back k v z = (z', Val (Ok tt)) ->
    covers k p -> (exists x, covers k x /\ plt p x) ->
    exists z'', remove_last_value_at_point p z' = (z'', Val (Some v)) /\ zosdit_iter z'' = zosdit_iter z /\
      zosdit_len z'' = S (zosdit_len z).
  Proof. intros z z' k v p R. apply insert_remove, zreachable_ZWF, R. Qed.
  Theorem C106_insertions_commute : forall z z1 z12 k1 v1 k2 v2, zreachable (I := I) z ->
    insert_strict_back k1 v1 z = (z1, Val (Ok tt)) -> insert_strict_back k2 v2 z1 = (z12, Val (Ok tt)) -> ~ same_points k1 k2 ->
    exists z2, insert_strict_back k2 v2 z = (z2, Val (Ok tt)) /\ insert_strict_back k1 v1 z2 = (z12, Val (Ok tt)).
  Proof. intros z z1 z12 k1 v1 k2 v2 R. apply inserts_commute, zreachable_ZWF, R. Qed.
  (** Removing at [p] again and again returns the values at [p] from last to
      first, and touches nothing else; all of them if nothing lies beyond [p]. *)
  Theorem C106_removing_repeatedly : forall n z p vs, zreachable (I := I) z -> values_at (zosdit_iter z) p vs ->
    exists l z' rest, pops n p z = (l, z') /\ vs = rest ++ rev l /\ values_at (zosdit_iter z') p rest /\
      (forall o, sub (fun e => ~ covers (fst e) p) (zosdit_iter z) o <-> sub (fun e => ~ covers (fst e) p) (zosdit_iter z') o) /\
      ((forall e x, In e (zosdit_iter z) -> covers (fst e) x -> ple x p) -> length vs <= n -> rest = []).
  Proof. intros n z p vs R. apply pops_values, zreachable_ZWF, R. Qed.
End Props.

Section Examples.
  Definition zc_ops : list (zop u8 (Interval u8) nat) :=
    [ZInsertStrictBack (1 --> 4) 1; ZInsertStrictBack (4 --> 4) 2; ZInsertStrictBack (4 --> 4) 3; ZInsertStrictBack (8 --> 9) 4].
  Example ex_zc : zosdit_iter (zrun zc_ops) = [(1 --> 4, 1); (4 --> 4, 2); (4 --> 4, 3); (8 --> 9, 4)] /\
    is_zero_overlap (zrun zc_ops) (4 --> 8) = Val true /\ is_zero_overlap (zrun zc_ops) (3 --> 4) = Val false /\
    is_zero_overlap (zrun zc_ops) (4 --> 3) = Panic /\ zosdit_overlapping (zrun zc_ops) (5 --> 7) = Val [].
  Proof. vm_compute. repeat split. Qed.
  Example ex_zc_point : covers (4 --> 4) ('4 : u8) /\ point_reached (zosdit_iter (zrun (zc_ops ++ [ZInsertStrictBack (4 --> 8) 5]))) ('4 : u8) /\
    get_last_value_at_point (zrun (zc_ops ++ [ZInsertStrictBack (4 --> 8) 5])) '4 = Some 5.
  Proof.
    split; [split; vm_compute; discriminate|]. split; [|vm_compute; reflexivity]. left. exists (4 --> 8, 5), '8.
    split; [vm_compute; auto 6|]. split; [split; vm_compute; discriminate|]. split; [split; vm_compute; discriminate|]. vm_compute. reflexivity.
  Qed.
  Example ex_zc_cut : cut_reaches (2 --> 4) (zosdit_iter (zrun zc_ops)) /\
    zosdit_iter (fst (zosdit_cut (2 --> 4) (zrun zc_ops))) = [(1 --> 1, 1); (8 --> 9, 4)].
  Proof.
    split; [|vm_compute; reflexivity]. left. exists (1 --> 4, 1), '1.
    split; [vm_compute; auto|]. split; [exists '2; split; split; vm_compute; discriminate|]. split; [split; vm_compute; discriminate|].
    intros y [H _]. assert (L : plt ('1 : u8) '2) by (vm_compute; reflexivity).
    apply plt_rk. apply plt_rk in L. apply ple_rk in H. eapply Z.lt_le_trans; [exact L|exact H].
  Qed.
  (** Two insertions that commute, and two of the same interval that do not. *)
  Example ex_zc_commute :
    insert_strict_back (4 --> 8) 5 (fst (insert_strict_back (0 --> 0) 6 (zrun zc_ops))) =
    insert_strict_back (0 --> 0) 6 (fst (insert_strict_back (4 --> 8) 5 (zrun zc_ops))) /\
    insert_strict_back (4 --> 4) 5 (fst (insert_strict_back (4 --> 4) 6 (zrun zc_ops))) <>
    insert_strict_back (4 --> 4) 6 (fst (insert_strict_back (4 --> 4) 5 (zrun zc_ops))).
  Proof. vm_compute. split; [reflexivity|discriminate]. Qed.
  (** Emptying point 4 stops early while 8..9 lies beyond it (the values 3, 2, 1
      are still there), and removes everything once it is gone. *)
  Example ex_zc_pops :
    fst (pops 9 '4 (zrun (zc_ops ++ [ZInsertStrictBack (4 --> 8) 5]))) = [5] /\
    fst (pops 9 '4 (zrun (zc_ops ++ [ZCut (8 --> 9)]))) = [] /\
    pops 9 '4 (zrun (zc_ops ++ [ZRemoveLast '8])) = ([3; 2; 1], mkZosdit 4 []).
  Proof. vm_compute. repeat split. Qed.
End Examples.

Print Assumptions C106_inserted_iff_is_zero_overlap.
Print Assumptions C106_nothing_overlapping_is_zero_overlap.
Print Assumptions C106_point_is_one_point_interval.
Print Assumptions C106_cut_again_does_nothing.
Print Assumptions C106_insert_then_remove.
Print Assumptions C106_insertions_commute.
Print Assumptions C106_removing_repeatedly.
