(** * PropsOrder: a NoditMap that is never cut or merged, and a ZosditMap that is
      never cut, need nothing of their points but their order (C95, C96). *)
From Coq Require Import List ZArith Bool Lia Sorting.Sorted QArith Qcanon.
From Verif Require Import Base BTree UtilsModel IntervalModel NoditModel NoditOps ZosditModel ZosditOps Spec
  OrderOnly OrderOnlyZosdit.
Import ListNotations.
Open Scope nat_scope.

Section Props.
  (** A total preorder: even points that compare [Equal] may differ.  Nothing is
      assumed of [MIN], [MAX], [up] and [down]: the order may be infinite, dense,
      without ends.  No law about [ifrom] either. *)
  Context {I : Type} {OI : Ord I} {DI : DiscreteFinite I} {OLI : TotalPreorder I}.
  Context {K : Type} {IK : InclusiveInterval I K}.
  Context {Q : Type} {IQ : InclusiveInterval I Q}.
  Context {V : Type}.
  Implicit Types (m : NoditMap K V) (q : Q) (k : K) (v : V) (p : I).

  (** A map that some program holds that never called a method that converts. *)
  Definition plain_history m : Prop := exists ops, Forall converts_nothing ops /\ m = run ops.

  Theorem C95_entries_ascending_disjoint : forall m, plain_history m ->
    ascending (map fst (iter m)) /\ Forall valid (map fst (iter m)).
  Proof. intros m (ops & F & ->). exact (o_ascending ops [] F). Qed.

  Lemma plain_get m p k v : plain_history m ->
    (get_key_value (overlapping_comp p) m = Some (k, v) <-> In (k, v) m /\ covers k p).
  Proof. intros (ops & F & ->). apply (o_get_key_value ops [p] F). left. reflexivity. Qed.
  Lemma plain_miss m p : plain_history m -> (get_key_value (overlapping_comp p) m = None <-> ~ covered m p).
  Proof.
    intros P. destruct (get_key_value (overlapping_comp p) m) as [[k v]|] eqn:E; (split; [intros X|intros X]); try reflexivity; try discriminate.
    - exfalso. apply X. exists k, v. apply (plain_get m p k v P), E.
    - intros (k & v & Y). apply (plain_get m p k v P) in Y. congruence.
  Qed.
  (** A lookup at a covered point finds its entry, and nothing is found at any
      other point. *)
  Theorem C95_point_queries : forall m, plain_history m -> forall p,
    (forall k v, get_key_value_at_point m p = Val (Ok (k, v)) <-> In (k, v) (iter m) /\ covers k p) /\
    (forall v, get_at_point m p = Val (Some v) <-> exists k, In (k, v) (iter m) /\ covers k p) /\
    (map_contains_point m p = Val true <-> covered (iter m) p) /\
    (covered (iter m) p -> get_at_point m p <> Panic) /\
    (forall f v, snd (get_at_point_mut f p m) = Some v <-> exists k, In (k, v) (iter m) /\ covers k p).
  Proof.
    intros m P p. pose proof (plain_get m p) as G. pose proof (plain_miss m p P) as M. unfold iter, covered in *.
    unfold map_contains_point, get_at_point, get_key_value_at_point, get_at_point_mut, get_mut.
    assert (E : get_key_value (overlapping_comp p) m = get_key_value (overlapping_comp p) m) by reflexivity.
    unfold get_key_value in E at 1.
    destruct (get_key_value (overlapping_comp p) m) as [[k v]|]; cbn.
    - pose proof (proj1 (G k v P) eq_refl) as [A B].
      assert (U : forall k' v', In (k', v') m /\ covers k' p -> k' = k /\ v' = v).
      { intros k' v' X. apply (G k' v' P) in X. injection X as -> ->. auto. }
      split; [|split; [|split; [|split]]].
      + intros k' v'. rewrite <- (G k' v' P). split; intros X; injection X as -> ->; reflexivity.
      + intros v'. split; [intros X; injection X as ->; exists k; auto|].
        intros (k' & X). destruct (U k' v' X) as [-> ->]. reflexivity.
      + split; [intros _; exists k, v; auto|reflexivity].
      + discriminate.
      + intros f v'. destruct (seek (overlapping_comp p) m) as [a [|[k1 v1] r]]; [discriminate E|]. cbn in *.
        destruct (overlapping_comp p k1); try discriminate E. injection E as -> ->. cbn.
        split; [intros X; injection X as ->; exists k; auto|].
        intros (k' & X). destruct (U k' v' X) as [-> ->]. reflexivity.
    - pose proof (proj1 M eq_refl) as X. split; [|split; [|split; [|split]]].
      + intros k v. split; [destruct (get_gap_at_raw m p); discriminate|]. intros Y. exfalso. apply X. exists k, v. exact Y.
      + intros v. split; [destruct (get_gap_at_raw m p); discriminate|]. intros (k & Y). exfalso. apply X. exists k, v. exact Y.
      + split; [destruct (get_gap_at_raw m p); discriminate|]. intros Y. contradiction.
      + contradiction.
      + intros f v. split; [|intros (k & Y); exfalso; apply X; exists k, v; exact Y].
        destruct (seek (overlapping_comp p) m) as [a [|[k1 v1] r]]; [discriminate|]. cbn in *.
        destruct (overlapping_comp p k1); discriminate.
  Qed.
  (** If [up] has something above every point but the greatest and [down] below
      every point but the least, a lookup at an uncovered point says so (rather
      than panicking). *)
  Theorem C95_misses : forall m, plain_history m ->
    (forall x y : I, plt x y -> up x <> None /\ down y <> None) -> forall p,
    (get_at_point m p = Val None <-> ~ covered (iter m) p) /\
    (map_contains_point m p = Val false <-> ~ covered (iter m) p) /\
    ((exists gap, get_key_value_at_point m p = Val (Err gap)) <-> ~ covered (iter m) p).
  Proof.
    intros m P S p. pose proof (plain_miss m p P) as M. pose proof (gap_exists m p S) as G. unfold iter in *.
    unfold map_contains_point, get_at_point, get_key_value_at_point.
    destruct (get_key_value (overlapping_comp p) m) as [[k v]|]; cbn.
    - split; [|split]; (split; [try discriminate|intros X; apply M in X; discriminate]). intros (g & X). discriminate.
    - destruct (G eq_refl) as [g ->]. cbn. split; [|split]; (split; [intros _; apply M; reflexivity|]); intros _; [| |exists (ifrom g)]; reflexivity.
  Qed.
  Theorem C95_overlap_queries : forall m q, plain_history m -> valid q ->
    (exists l, overlapping m q = Val l /\ sub (fun e => overlap (fst e) q) (iter m) l) /\
    (exists b, map_overlaps m q = Val b /\ (b = true <-> exists e, In e (iter m) /\ overlap (fst e) q)).
  Proof.
    intros m q (ops & F & ->) Vq. split;
      [exact (o_overlapping ops (ends q) F q (incl_refl _) Vq)|exact (o_map_overlaps ops (ends q) F q (incl_refl _) Vq)].
  Qed.
  Theorem C95_insert_strict : forall m k v, plain_history m -> valid k ->
    ((exists e, In e (iter m) /\ overlap (fst e) k) -> insert_strict k v m = (m, Val (Err v))) /\
    (~ (exists e, In e (iter m) /\ overlap (fst e) k) ->
     exists m' l1 l2, insert_strict k v m = (m', Val (Ok tt)) /\ plain_history m' /\
       iter m = l1 ++ l2 /\ iter m' = l1 ++ (k, v) :: l2).
  Proof.
    intros m k v (ops & F & ->) Vk. destruct (o_insert_strict ops F k v Vk) as [A B]. split; [exact A|].
    intros N. destruct (B N) as (l1 & l2 & E1 & E2). exists (l1 ++ (k, v) :: l2), l1, l2. split; [exact E2|]. split; [|auto].
    exists (ops ++ [OpInsertStrict k v]). split; [apply Forall_app; split; [exact F|repeat constructor]|].
    unfold run in *. rewrite fold_left_app. cbn. rewrite E2. reflexivity.
  Qed.
  Theorem C95_remove_overlapping : forall m q, plain_history m -> valid q ->
    exists m' removed, remove_overlapping q m = (m', Val removed) /\
      sub (fun e => overlap (fst e) q) (iter m) removed /\ sub (fun e => ~ overlap (fst e) q) (iter m) (iter m').
  Proof.
    intros m q (ops & F & ->) Vq. exact (o_remove_overlapping ops (ends q) F q (incl_refl _) Vq).
  Qed.
End Props.

(** ** C96 *)
Section Zosdit.
  (** A total order up to Equal and nothing else. *)
  Context {I : Type} {OI : Ord I} {DI : DiscreteFinite I} {OLI : TotalPreorder I}.
  Context {K : Type} {IK : InclusiveInterval I K}.
  Context {Q : Type} {IQ : InclusiveInterval I Q}.
  Context {V : Type}.
  Implicit Types (z : ZosditMap K V) (q : Q) (k : K) (v : V) (p : I).

  (** A map that some program holds that never called [cut]. *)
  Definition uncut z : Prop := exists os, Forall not_cut os /\ z = zrun os.

  Theorem C96_entries_ascending_zero_overlap : forall z, uncut z -> let l := map fst (zosdit_iter z) in
    Forall valid l /\ StronglySorted up_to l /\ ForallOrdPairs zero_overlap l.
  Proof. intros z (os & F & ->). exact (zo_sorted os [] F). Qed.
  Theorem C96_is_zero_overlap : forall z q, uncut z -> valid q ->
    exists b, is_zero_overlap z q = Val b /\ (b = true <-> forall e, In e (zosdit_iter z) -> zero_overlap (fst e) q).
  Proof. intros z q (os & F & ->) Vq. exact (zo_is_zero_overlap os (ends q) F q (incl_refl _) Vq). Qed.
  Theorem C96_overlapping : forall z q, uncut z -> valid q ->
    exists l, zosdit_overlapping z q = Val l /\ sub (fun e => overlap (fst e) q) (zosdit_iter z) l.
  Proof. intros z q (os & F & ->) Vq. exact (zo_overlapping os (ends q) F q (incl_refl _) Vq). Qed.
  Theorem C96_first_last_key_value : forall z, uncut z ->
    zosdit_first_key_value z = hd_error (zosdit_iter z) /\ zosdit_last_key_value z = hd_error (rev (zosdit_iter z)).
  Proof. intros z (os & F & ->). exact (zo_first_last os [] F). Qed.
  Theorem C96_insert_strict_back : forall z k v, uncut z -> valid k ->
    (~ (forall e, In e (zosdit_iter z) -> zero_overlap (fst e) k) -> insert_strict_back k v z = (z, Val (Err v))) /\
    ((forall e, In e (zosdit_iter z) -> zero_overlap (fst e) k) -> exists z' l1 k' l2,
       insert_strict_back k v z = (z', Val (Ok tt)) /\ zosdit_len z' = S (zosdit_len z) /\
       zosdit_iter z = l1 ++ l2 /\ zosdit_iter z' = l1 ++ (k', v) :: l2 /\
       same_points k' k /\ (k' = k \/ exists v', In (k', v') l1) /\
       (forall e, In e l1 -> up_to (fst e) k) /\ (forall e, In e l2 -> up_to k (fst e))).
  Proof. intros z k v (os & F & ->) Vk. exact (zo_insert os (ends k) F k v (incl_refl _) Vk). Qed.
  (** A returned value is the last one at its point; one is returned exactly
      where C38 says. *)
  Theorem C96_get_last_value_at_point : forall z p, uncut z ->
    (forall v, get_last_value_at_point z p = Some v -> last_value (zosdit_iter z) p v) /\
    (point_reached (zosdit_iter z) p ->
      (forall v, get_last_value_at_point z p = Some v <-> last_value (zosdit_iter z) p v) /\
      (get_last_value_at_point z p = None <-> no_value (zosdit_iter z) p)) /\
    (~ point_reached (zosdit_iter z) p -> get_last_value_at_point z p = None).
  Proof.
    intros z p (os & F & ->). assert (X : In p [p]) by (left; reflexivity). split; [|split].
    - intros v. exact (zo_get_last_sound os [p] F p X v).
    - exact (zo_get_last_char os [p] F p X).
    - exact (zo_get_last_none os [p] F p X).
  Qed.
  Theorem C96_remove_last_value_at_point : forall z p, uncut z ->
    exists z', remove_last_value_at_point p z = (z', Val (get_last_value_at_point z p)) /\
      (get_last_value_at_point z p = None -> z' = z) /\
      (forall v, get_last_value_at_point z p = Some v -> exists l1 k l2,
         zosdit_iter z = l1 ++ (k, v) :: l2 /\ covers k p /\ no_value l2 p /\ zosdit_iter z' = l1 ++ l2).
  Proof. intros z p (os & F & ->). exact (zo_remove_last os [p] F p (or_introl eq_refl)). Qed.
End Zosdit.

(** ** Examples: the rationals, which are dense and infinite. *)
#[local] Instance Ord_Qc : Ord Qc := { cmp := Qccompare }.
#[local] Instance OrdLaws_Qc : OrdLaws Qc.
Proof.
  constructor; unfold cmp, Ord_Qc.
  - intros x y. split; [apply Qceq_alt|]. intros ->. apply Qceq_alt. reflexivity.
  - intros x y. unfold Qccompare. symmetry. apply Qcompare_antisym.
  - intros x y z A B. apply Qclt_alt in A, B. apply Qclt_alt. exact (Qclt_trans x y z A B).
Qed.
(** Nothing sensible can be said for [up] of a rational. *)
#[local] Instance DiscreteFinite_Qc : DiscreteFinite Qc :=
  { MIN := Q2Qc 0; MAX := Q2Qc 0; up := fun x => Some x; down := fun x => Some x }.
Definition q (a : Z) (b : positive) : Qc := Q2Qc (a # b).
Definition ex95_ops : list (op Qc (Interval Qc) nat) :=
  [OpInsertStrict (mkInterval (q 1 2) (q 2 3)) 1; OpInsertStrict (mkInterval (q (-7) 3) (q 0 1)) 2;
   OpInsertStrict (mkInterval (q 3 5) (q 9 1)) 3; OpInsertStrict (mkInterval (q 5 7) (q 6 7)) 4;
   OpRemoveOverlapping (mkInterval (q (-1) 9) (q 1 9)); OpGetAtPointMut (Nat.add 10) (q 11 14)].
Example C95_example :
  let m := run ex95_ops in
  plain_history m /\ (forall x y : Qc, plt x y -> up x <> None /\ down y <> None) /\
  iter m = [(mkInterval (q 1 2) (q 2 3), 1); (mkInterval (q 5 7) (q 6 7), 14)] /\
  get_at_point m (q 3 5) = Val (Some 1) /\ get_at_point m (q 2 3) = Val (Some 1) /\ get_at_point m (q 7 10) = Val None /\
  overlapping m (mkInterval (q 2 3) (q 5 6)) = Val (iter m) /\
  overlapping m (mkInterval (q 67 100) (q 71 100)) = Val [] /\
  insert_strict (mkInterval (q 7 10) (q 5 7)) 9 m = (m, Val (Err 9)) /\
  snd (insert_strict (mkInterval (q 67 100) (q 71 100)) 9 m) = Val (Ok tt) /\
  snd (remove_overlapping (mkInterval (q 6 7) (q 1 1)) m) = Val [(mkInterval (q 5 7) (q 6 7), 14)].
Proof.
  intros m. split; [exists ex95_ops; split; [repeat constructor|reflexivity]|]. split; [intros x y _; split; discriminate|].
  vm_compute. repeat split; reflexivity.
Qed.
(** Without that law of [up] and [down] a lookup in a gap panics, and one in an
    entry does not. *)
Example C95_misses_example :
  let D : DiscreteFinite Qc := {| MIN := q 0 1; MAX := q 0 1; up := fun _ => None; down := fun _ => None |} in
  let m : NoditMap (Interval Qc) nat := [(mkInterval (q 1 2) (q 2 3), 1)] in
  plain_history (DI := D) m /\ get_at_point (H0 := D) m (q 3 5) = Val (Some 1) /\ get_at_point (H0 := D) m (q 5 7) = Panic.
Proof.
  intros D m. split; [|split; vm_compute; reflexivity].
  exists [OpInsertStrict (mkInterval (q 1 2) (q 2 3)) 1]. split; [repeat constructor|vm_compute; reflexivity].
Qed.

(** Points with a mark that the order does not see, like the sign of 0.0: any
    of the points that compare [Equal] finds the entry. *)
#[local] Instance Ord_marked : Ord (Z * bool) := { cmp := fun x y => Z.compare (fst x) (fst y) }.
#[local] Instance TotalPreorder_marked : TotalPreorder (Z * bool).
Proof.
  constructor; unfold cmp, Ord_marked.
  - intros x. apply Z.compare_refl.
  - intros x y. apply Z.compare_antisym.
  - intros x y z A B C. apply Z.compare_gt_iff in C. rewrite Z.compare_gt_iff in A, B. lia.
Qed.
#[local] Instance DiscreteFinite_marked : DiscreteFinite (Z * bool) :=
  { MIN := (0%Z, false); MAX := (0%Z, true); up := fun x => Some x; down := fun x => Some x }.
Example C95_equal_points_example :
  let m : NoditMap (Interval (Z * bool)) nat :=
    run [OpInsertStrict (mkInterval (0%Z, true) (3%Z, false)) 1; OpInsertStrict (mkInterval (0%Z, false) (0%Z, false)) 2;
         OpInsertStrict (mkInterval (4%Z, true) (4%Z, false)) 3] in
  plain_history m /\ iter m = [(mkInterval (0%Z, true) (3%Z, false), 1); (mkInterval (4%Z, true) (4%Z, false), 3)] /\
  get_at_point m (0%Z, false) = Val (Some 1) /\ get_at_point m (3%Z, true) = Val (Some 1) /\
  get_at_point m (4%Z, true) = Val (Some 3) /\ get_at_point m (5%Z, true) = Val None.
Proof.
  intros m. split; [eexists; split; [|reflexivity]; repeat constructor|]. vm_compute. repeat split; reflexivity.
Qed.

Definition ex96_ops : list (zop Qc (Interval Qc) nat) :=
  [ZInsertStrictBack (mkInterval (q 1 2) (q 2 3)) 1; ZInsertStrictBack (mkInterval (q 2 3) (q 2 3)) 2;
   ZInsertStrictBack (mkInterval (q 2 3) (q 2 3)) 3; ZInsertStrictBack (mkInterval (q 3 5) (q 3 5)) 4;
   ZInsertStrictBack (mkInterval (q 2 3) (q 9 1)) 5; ZRemoveLast (q 7 1); ZInsertStrictBack (mkInterval (q 2 3) (q 5 6)) 6].
Example C96_example :
  let z := zrun ex96_ops in
  uncut z /\
  zosdit_iter z = [(mkInterval (q 1 2) (q 2 3), 1); (mkInterval (q 2 3) (q 2 3), 2); (mkInterval (q 2 3) (q 2 3), 3);
                   (mkInterval (q 2 3) (q 5 6), 6)] /\
  is_zero_overlap z (mkInterval (q 1 3) (q 1 2)) = Val true /\ is_zero_overlap z (mkInterval (q 3 5) (q 3 5)) = Val false /\
  zosdit_overlapping z (mkInterval (q 7 10) (q 1 1)) = Val [(mkInterval (q 2 3) (q 5 6), 6)] /\
  point_reached (zosdit_iter z) (q 2 3) /\ get_last_value_at_point z (q 2 3) = Some 6 /\
  get_last_value_at_point z (q 3 5) = Some 1 /\
  snd (insert_strict_back (mkInterval (q 8 10) (q 1 1)) 7 z) = Val (Err 7) /\
  zosdit_first_key_value z = Some (mkInterval (q 1 2) (q 2 3), 1).
Proof.
  intros z. split; [exists ex96_ops; split; [repeat constructor|reflexivity]|].
  split; [vm_compute; reflexivity|]. split; [vm_compute; reflexivity|]. split; [vm_compute; reflexivity|]. split; [vm_compute; reflexivity|].
  split; [|vm_compute; repeat split; reflexivity].
  left. exists (mkInterval (q 2 3) (q 5 6), 6), (q 5 6).
  assert (E : zosdit_iter z = [(mkInterval (q 1 2) (q 2 3), 1); (mkInterval (q 2 3) (q 2 3), 2); (mkInterval (q 2 3) (q 2 3), 3);
                   (mkInterval (q 2 3) (q 5 6), 6)]) by (vm_compute; reflexivity).
  rewrite E. split; [right; right; right; left; reflexivity|].
  split; [split; vm_compute; discriminate|]. split; [split; vm_compute; discriminate|]. vm_compute. reflexivity.
Qed.

Print Assumptions C95_entries_ascending_disjoint.
Print Assumptions C95_point_queries.
Print Assumptions C95_misses.
Print Assumptions C95_overlap_queries.
Print Assumptions C95_insert_strict.
Print Assumptions C95_remove_overlapping.
Print Assumptions C96_entries_ascending_zero_overlap.
Print Assumptions C96_is_zero_overlap.
Print Assumptions C96_overlapping.
Print Assumptions C96_first_last_key_value.
Print Assumptions C96_insert_strict_back.
Print Assumptions C96_get_last_value_at_point.
Print Assumptions C96_remove_last_value_at_point.
