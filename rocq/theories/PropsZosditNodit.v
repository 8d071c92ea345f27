(** * PropsZosditNodit: a ZosditMap and a NoditMap with the same entries behave
      alike (C102). *)
From Coq Require Import List ZArith Bool Lia Sorting.Sorted.
From Verif Require Import Base BTree UtilsModel IntervalModel NoditModel NoditOps ZosditModel ZosditOps Spec
  InstancesModel Instances PointFacts IntervalFacts NoditFacts NoditQueries NoditMutations NoditInv ZosditNodit PropsNodit PropsZosdit.
Import ListNotations.
Open Scope nat_scope.

Section Props.
  Context {I : Type} {OI : Ord I} {DI : DiscreteFinite I} {PL : PointLaws I}.
  Context {K : Type} {IK : InclusiveInterval I K} {IL : IntervalLaws I K} {V : Type}.
  Context {Q : Type} {IQ : InclusiveInterval I Q}.
  Implicit Types (m : NoditMap K V) (z : ZosditMap K V) (k : K) (q : Q) (p : I) (v : V).

  (** ** C102 *)
  Theorem C102_overlapping : forall m z q, reachable (I := I) m -> zreachable (I := I) z -> zosdit_iter z = iter m ->
    zosdit_overlapping z q = overlapping m q.
  Proof. intros m z q R Rz E. apply same_overlapping; assumption. Qed.
  (** Where [k] meets no entry both insert it, at the same place. *)
  Theorem C102_insert : forall m z k v, reachable (I := I) m -> zreachable (I := I) z -> zosdit_iter z = iter m -> valid k ->
    ((forall e, In e (iter m) -> ~ overlap (fst e) k) -> exists m' z',
       insert_strict k v m = (m', Val (Ok tt)) /\ insert_strict_back k v z = (z', Val (Ok tt)) /\ zosdit_iter z' = iter m') /\
    ((exists e, In e (iter m) /\ overlap (fst e) k) -> insert_strict k v m = (m, Val (Err v))) /\
    ((exists e, In e (iter m) /\ ~ zero_overlap (fst e) k) -> insert_strict_back k v z = (z, Val (Err v))).
  Proof.
    intros m z k v R Rz E Vk. split; [apply same_insert; assumption|]. split; [apply same_refused; assumption|].
    intros (e & He & N). apply C34_insert_strict_back_refused; [exact Rz|exact Vk|]. intros X. apply N, X. rewrite E. exact He.
  Qed.
  (** If the intervals offered never meet in a single point only, all insertions
      agree. *)
  Theorem C102_histories : forall l : list (K * V),
    ForallOrdPairs (fun e e' => overlap (fst e) (fst e') -> ~ zero_overlap (fst e) (fst e')) l ->
    zosdit_iter (zrun (map (fun e => ZInsertStrictBack (fst e) (snd e)) l)) = iter (run (map (fun e => OpInsertStrict (fst e) (snd e)) l)).
  Proof.
    intros l N.
    enough (X : zosdit_iter (zrun (map (fun e => ZInsertStrictBack (fst e) (snd e)) l)) = iter (run (map (fun e => OpInsertStrict (fst e) (snd e)) l)) /\
                forall e, In e (iter (run (map (fun e => OpInsertStrict (fst e) (snd e)) l))) -> In e l) by apply X.
    induction l as [|e l IH] using rev_ind; [split; [reflexivity|intros e []]|].
    apply FOP_snoc in N as [N0 N]. destruct (IH N0) as [IH' IN]. clear IH. rename IH' into IH.
    rewrite !map_app. unfold zrun, run in *. rewrite !fold_left_app. cbn [map fold_left].
    set (m := fold_left step (map (fun e => OpInsertStrict (fst e) (snd e)) l) new) in *.
    set (z := fold_left zstep (map (fun e => ZInsertStrictBack (fst e) (snd e)) l) z_new) in *.
    assert (R : reachable (I := I) m) by (eexists; reflexivity). assert (Rz : zreachable (I := I) z) by (eexists; reflexivity).
    destruct e as [k v]. cbn [fst snd step zstep]. destruct (valid_dec k) as [Vk|Nk].
    - destruct (overlap_dec m k (reachable_WF m R) Vk) as [(k' & v' & Hi & Ho)|Hn].
      + rewrite (same_refused m R k v Vk) by (exists (k', v'); auto).
        rewrite (C34_insert_strict_back_refused z k v Rz Vk).
        * cbn. split; [exact IH|]. intros e He. apply in_app_iff. left. apply IN, He.
        * intros X. apply (N (k', v')); [apply IN, Hi|exact Ho|].
          apply (X (k', v')). rewrite IH. exact Hi.
      + destruct (same_insert m z R Rz IH k v Vk) as (m' & z' & Em & Ez & Ei).
        { intros [k' v'] He Ho. apply (Hn k' v' He Ho). }
        rewrite Em, Ez. cbn [fst]. split; [exact Ei|].
        destruct (C09_insert_strict_done m k v R Vk) as (m2 & l1 & l2 & Em2 & E1 & E2).
        { intros (k' & v' & He & Ho). apply (Hn k' v' He Ho). }
        rewrite Em in Em2. injection Em2 as <-. intros e He. rewrite E2 in He. apply in_app_iff. apply in_app_iff in He as [He|[<-|He]].
        * left. apply IN. rewrite E1. apply in_app_iff. auto.
        * right. left. reflexivity.
        * left. apply IN. rewrite E1. apply in_app_iff. auto.
    - rewrite (insert_strict_invalid k v m Nk). destruct (C42_insert_panics_iff_invalid z k v Rz) as [A B].
      rewrite (B (proj2 A Nk)). cbn. split; [exact IH|]. intros e He. apply in_app_iff. left. apply IN, He.
  Qed.
  (** Looking up a point: what a ZosditMap returns a NoditMap returns, and the
      converse where C38 says that the lookup works at all. *)
  Theorem C102_lookup : forall m z p, reachable (I := I) m -> zreachable (I := I) z -> zosdit_iter z = iter m ->
    (forall v, get_last_value_at_point z p = Some v -> get_at_point m p = Val (Some v)) /\
    (point_reached (iter m) p -> get_at_point m p = Val (get_last_value_at_point z p)).
  Proof. intros m z p R Rz E. split; [intros v; apply get_sound; assumption|apply get_reached; assumption]. Qed.
  (** [cut] leaves and yields the same where C37 says that it works. *)
  Theorem C102_cut : forall m z q, reachable (I := I) m -> zreachable (I := I) z -> zosdit_iter z = iter m ->
    valid q -> cut_reaches q (iter m) -> exists m' z' out out',
      cut q m = (m', Val out) /\ zosdit_cut q z = (z', Val out') /\
      Forall2 (fun e e' => same_points (fst e) (fst e') /\ snd e = snd e') out out' /\
      Forall2 (fun e e' => same_points (fst e) (fst e') /\ snd e = snd e') (iter m') (zosdit_iter z').
  Proof. intros m z q R Rz E. apply same_cut; assumption. Qed.
End Props.

Definition C102_list : list (Interval u8 * nat) := [(6 --> 9, 1); (1 --> 3, 2); (2 --> 7, 3); (8 --> 2, 4); (20 --> 30, 5)].
Definition C102_m : NoditMap (Interval u8) nat := run (map (fun e => OpInsertStrict (fst e) (snd e)) C102_list).
Definition C102_z : ZosditMap (Interval u8) nat := zrun (map (fun e => ZInsertStrictBack (fst e) (snd e)) C102_list).
Example C102_example :
  reachable (I := u8) C102_m /\ zreachable (I := u8) C102_z /\
  iter C102_m = [(1 --> 3, 2); (6 --> 9, 1); (20 --> 30, 5)] /\ zosdit_iter C102_z = iter C102_m /\
  zosdit_overlapping C102_z (3 --> 6 : Interval u8) = Val [(1 --> 3, 2); (6 --> 9, 1)] /\
  get_last_value_at_point C102_z '8 = Some 1 /\ get_at_point C102_m '8 = Val (Some 1) /\
  snd (cut (3 --> 6 : Interval u8) C102_m) = Val [(3 --> 3, 2); (6 --> 6, 1)] /\
  snd (zosdit_cut (3 --> 6 : Interval u8) C102_z) = Val [(3 --> 3, 2); (6 --> 6, 1)].
Proof.
  split; [eexists; reflexivity|]. split; [eexists; reflexivity|]. do 6 (split; [vm_compute; reflexivity|]). vm_compute. reflexivity.
Qed.
Example C102_histories_example :
  ForallOrdPairs (fun e e' => overlap (fst e) (fst e') -> ~ zero_overlap (fst e) (fst e')) C102_list.
Proof.
  assert (A : forall (a b : Interval u8) (x y : u8), cmp x y = Lt -> covers a x -> covers b x -> covers a y -> covers b y -> ~ zero_overlap a b).
  { intros a b x y L A1 A2 A3 A4 [Z _]. rewrite (Z x y A1 A2 A3 A4) in L. discriminate. }
  assert (B : forall a b : Interval u8, cmp (iend a) (istart b) = Lt \/ cmp (iend b) (istart a) = Lt \/ cmp (iend b) (istart b) = Lt -> ~ overlap a b).
  { intros a b L (p & [P1 P2] & [P3 P4]). unfold ple in *. change (Z.compare (ival (istart a)) (ival p) <> Gt) in P1. change (Z.compare (ival p) (ival (iend a)) <> Gt) in P2.
    change (Z.compare (ival (istart b)) (ival p) <> Gt) in P3. change (Z.compare (ival p) (ival (iend b)) <> Gt) in P4.
    change (Z.compare (ival (iend a)) (ival (istart b)) = Lt \/ Z.compare (ival (iend b)) (ival (istart a)) = Lt \/ Z.compare (ival (iend b)) (ival (istart b)) = Lt) in L.
    rewrite !Z.compare_lt_iff in L. rewrite Z.compare_le_iff in *. lia. }
  assert (C : forall a b : Interval u8, ~ overlap a b -> overlap a b -> ~ zero_overlap a b) by (intros a b X Y; destruct (X Y)).
  repeat constructor; cbn [fst];
    try (apply C, B; vm_compute; tauto); intros _.
  - apply (A _ _ '6 '7); [reflexivity|..]; vm_compute; split; discriminate.
  - apply (A _ _ '2 '3); [reflexivity|..]; vm_compute; split; discriminate.
Qed.
Example C102_cut_example : cut_reaches (3 --> 6 : Interval u8) (iter C102_m) /\ point_reached (iter C102_m) '8.
Proof.
  split; left.
  - exists (1 --> 3, 2), '1. split; [vm_compute; auto|]. split; [exists '3; vm_compute; repeat split; discriminate|].
    split; [vm_compute; split; discriminate|]. intros y [Hy _].
    change ((3 ?= ival y)%Z <> Gt) in Hy. change ((1 ?= ival y)%Z = Lt). apply Z.compare_le_iff in Hy. apply Z.compare_lt_iff. eapply Z.lt_le_trans; [|exact Hy]. reflexivity.
  - exists (6 --> 9, 1), '9. vm_compute. intuition discriminate.
Qed.

Print Assumptions C102_overlapping.
Print Assumptions C102_insert.
Print Assumptions C102_histories.
Print Assumptions C102_lookup.
Print Assumptions C102_cut.
