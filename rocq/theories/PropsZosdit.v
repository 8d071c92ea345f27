(** * PropsZosdit: the properties of ZosditMap (C32-C42, C63-C65). *)
From Coq Require Import List ZArith Bool Lia Sorting.Sorted Permutation.
From Verif Require Import Base IntervalModel NoditModel ZosditModel ZosditOps Spec InstancesModel Instances
  PointFacts IntervalFacts ZosditFacts ZosditMut ZosditProofs.
Import ListNotations.
Open Scope nat_scope.

Section Props.
  Context {I : Type} `{PL : PointLaws I}.
  Context {K : Type} {IK : InclusiveInterval I K} {IL : IntervalLaws I K}.
  Context {V : Type}.
  Context {Q : Type} {IQ : InclusiveInterval I Q}.
  Implicit Types (z : ZosditMap K V) (k : K) (q : Q) (p : I) (v : V) (os : list (zop I K V)) (e : K * V).

  (** ** C32 *)
  Theorem C32_entries_ascending_zero_overlap : forall os, let l := map fst (zosdit_iter (zrun os)) in
    Forall valid l /\ StronglySorted up_to l /\
    StronglySorted (fun a b => ple (istart a) (istart b) /\ ple (iend a) (iend b)) l /\
    ForallOrdPairs zero_overlap l.
  Proof. intros os. apply iter_sorted, zrun_ZWF. Qed.
  Theorem C32_non_singular_once : forall os l1 e l2, zosdit_iter (zrun os) = l1 ++ e :: l2 -> ~ singular (fst e) ->
    forall e', In e' (l1 ++ l2) -> ~ same_points (fst e') (fst e).
  Proof. intros os l1 e l2. apply iter_once, zrun_ZWF. Qed.
  (** Nothing more can be said: every such sequence is reached. *)
  Theorem C32_every_such_sequence_is_reachable : forall l : list (K * V),
    Forall valid (map fst l) -> StronglySorted up_to (map fst l) ->
    exists z, zreachable z /\ Forall2 same_entry l (zosdit_iter z).
  Proof.
    intros l Vl S. exists (zrun [ZFromIter l]). split; [exists [ZFromIter l]; reflexivity|]. apply any_sorted_reachable; assumption.
  Qed.

  (** ** C33 *)
  Theorem C33_is_zero_overlap : forall z q, zreachable z -> valid q ->
    exists b, is_zero_overlap z q = Val b /\ (b = true <-> forall e, In e (zosdit_iter z) -> zero_overlap (fst e) q).
  Proof. intros z q R. apply zero_overlap_decides, zreachable_ZWF, R. Qed.

  (** ** C34 *)
  Theorem C34_insert_strict_back_refused : forall z k v, zreachable z -> valid k ->
    ~ (forall e, In e (zosdit_iter z) -> zero_overlap (fst e) k) -> insert_strict_back k v z = (z, Val (Err v)).
  Proof. intros z k v R Vk. apply (insert_back_spec z k v (zreachable_ZWF z R) Vk). Qed.
  (** The interval stored with the value is [k], or an already stored one with the same points. *)
  Theorem C34_insert_strict_back_done : forall z k v, zreachable z -> valid k ->
    (forall e, In e (zosdit_iter z) -> zero_overlap (fst e) k) -> exists z' l1 k' l2,
      insert_strict_back k v z = (z', Val (Ok tt)) /\ zosdit_len z' = S (zosdit_len z) /\
      zosdit_iter z = l1 ++ l2 /\ zosdit_iter z' = l1 ++ (k', v) :: l2 /\
      same_points k' k /\ (k' = k \/ exists v', In (k', v') l1) /\
      (forall e, In e l1 -> up_to (fst e) k) /\ (forall e, In e l2 -> up_to k (fst e)).
  Proof.
    intros z k v R Vk Hz. destruct (insert_back_spec z k v (zreachable_ZWF z R) Vk) as [_ X].
    destruct (X Hz) as (z' & l1 & k' & l2 & A & B & C & D & E & F & G & J & _). exists z', l1, k', l2. repeat (split; [assumption|]). exact J.
  Qed.

  (** ** C35 *)
  Theorem C35_overlapping : forall z q, zreachable z -> valid q ->
    exists l, zosdit_overlapping z q = Val l /\ sub (fun e => overlap (fst e) q) (zosdit_iter z) l.
  Proof. intros z q R. apply overlapping_lists, zreachable_ZWF, R. Qed.

  (** ** C36 *)
  Theorem C36_first_last_key_value : forall z, zreachable z ->
    zosdit_first_key_value z = hd_error (zosdit_iter z) /\
    zosdit_last_key_value z = hd_error (rev (zosdit_iter z)) /\
    zosdit_into_iter z = zosdit_iter z.
  Proof. intros z R. apply first_last, zreachable_ZWF, R. Qed.
  Theorem C36_len_at_least : forall z, zreachable z ->
    length (zosdit_iter z) <= zosdit_len z /\ (zosdit_is_empty z = true -> zosdit_iter z = []).
  Proof.
    intros z R. pose proof (zreachable_ZWF z R) as (_ & _ & L). split; [exact L|].
    unfold zosdit_is_empty. intros E. apply Nat.eqb_eq in E. rewrite E in L. apply length_zero_iff_nil, Nat.le_0_r, L.
  Qed.

  (** ** C37: full claim without the hypothesis [cut_reaches]; false, see below. *)
  Theorem C37_cut_partial : forall z q, zreachable z -> valid q -> cut_reaches q (zosdit_iter z) ->
    exists z' out, zosdit_cut q z = (z', Val out) /\
      (exists o, sub (fun e => overlap (fst e) q) (zosdit_iter z) o /\ Forall2 (yields q) o out) /\
      (exists ls, Forall2 (leaves q) (zosdit_iter z) ls /\ zosdit_iter z' = concat ls) /\
      (forall e p, In e (zosdit_iter z') -> covers (fst e) p -> ~ covers q p) /\
      zosdit_len z' + length (zosdit_iter z) = zosdit_len z + length (zosdit_iter z').
  Proof.
    intros z q R Vq C. pose proof (zreachable_ZWF z R) as Wf. apply cut_reaches_spec in C; [|assumption..].
    destruct (cut_done z q Wf Vq C) as (z' & out & E & Wf' & Ho & Hl & Hn & N). exists z', out. repeat (split; [assumption|]). split; [|exact N].
    rewrite Forall_forall in Hn. intros e p He Hp Hq. apply (Hn e He). apply covers_rk in Hp. apply covers_rk in Hq. split; eapply Z.le_trans; try apply Hp; apply Hq.
  Qed.
  (** In every other state [cut] does nothing at all. *)
  Theorem C37_cut_otherwise_does_nothing_partial : forall z q, zreachable z -> valid q -> ~ cut_reaches q (zosdit_iter z) ->
    zosdit_cut q z = (z, Val []).
  Proof.
    intros z q R Vq C. pose proof (zreachable_ZWF z R) as Wf. apply cut_not_done; try assumption.
    rewrite <- cut_reaches_spec; assumption.
  Qed.

  (** ** C38: full claim without the hypothesis [point_reached]; false, see below. *)
  Theorem C38_get_last_value_at_point_partial : forall z p, zreachable z -> point_reached (zosdit_iter z) p ->
    (forall v, get_last_value_at_point z p = Some v <-> last_value (zosdit_iter z) p v) /\
    (get_last_value_at_point z p = None <-> no_value (zosdit_iter z) p).
  Proof.
    intros z p R C. pose proof (zreachable_ZWF z R) as Wf. apply get_last_char; [exact Wf|]. apply point_reached_spec; assumption.
  Qed.
  (** In every state a returned value is the right one ... *)
  Theorem C38_returned_value_is_the_last_partial : forall z p v, zreachable z -> get_last_value_at_point z p = Some v ->
    last_value (zosdit_iter z) p v.
  Proof. intros z p v R. apply get_last_sound, zreachable_ZWF, R. Qed.
  (** ... and where the hypothesis fails nothing is returned. *)
  Theorem C38_otherwise_none_partial : forall z p, zreachable z -> ~ point_reached (zosdit_iter z) p ->
    get_last_value_at_point z p = None.
  Proof.
    intros z p R C. pose proof (zreachable_ZWF z R) as Wf. apply get_last_not_found; [exact Wf|].
    rewrite <- point_reached_spec; assumption.
  Qed.

  (** ** C39 *)
  Theorem C39_remove_last_value_at_point : forall z p, zreachable z ->
    exists z', remove_last_value_at_point p z = (z', Val (get_last_value_at_point z p)) /\
      (get_last_value_at_point z p = None -> z' = z) /\
      (forall v, get_last_value_at_point z p = Some v -> exists l1 k l2,
         zosdit_iter z = l1 ++ (k, v) :: l2 /\ covers k p /\ no_value l2 p /\ zosdit_iter z' = l1 ++ l2).
  Proof.
    intros z p R. pose proof (zreachable_ZWF z R) as Wf.
    destruct (remove_last_cases z p Wf) as [(l1 & l2 & k & v & z' & E & E' & E1 & E2 & Hk & H2 & _)|(E & E' & _)].
    - exists z'. rewrite E. split; [exact E'|]. split; [discriminate|]. intros v' X. injection X as <-. exists l1, k, l2.
      split; [exact E1|]. split; [apply covers_rk, Hk|]. split; [|exact E2]. rewrite Forall_forall in H2. intros e He X.
      apply covers_rk in X. apply (Z.lt_irrefl (PointFacts.rk p)). eapply Z.lt_le_trans; [apply (H2 e He)|apply X].
    - exists z. rewrite E. split; [exact E'|]. split; [reflexivity|discriminate].
  Qed.

  (** ** C40 *)
  Theorem C40_accepts_iff_zero_overlapping : forall l : list (K * V),
    (exists z, from_iter_strict_back l = Val (Ok z)) <-> zero_overlapping (map fst l).
  Proof. exact from_iter_Ok. Qed.
  Theorem C40_result_holds_exactly_the_entries : forall (l : list (K * V)) z, from_iter_strict_back l = Val (Ok z) ->
    zosdit_len z = length l /\ (exists l', Permutation l' (zosdit_iter z) /\ Forall2 same_entry l l') /\
    (forall k l1 l2, valid k -> sub (fun e => same_points (fst e) k) l l1 ->
       sub (fun e => same_points (fst e) k) (zosdit_iter z) l2 -> map snd l2 = map snd l1).
  Proof. exact from_iter_entries. Qed.
  Theorem C40_error_is_first_clash : forall (l : list (K * V)) v, from_iter_strict_back l = Val (Err v) <->
    exists l1 k l2, l = l1 ++ (k, v) :: l2 /\ zero_overlapping (map fst l1) /\ valid k /\
      exists k', In k' (map fst l1) /\ ~ zero_overlap k' k.
  Proof. exact from_iter_Err. Qed.
  Theorem C40_panic_is_first_invalid : forall l : list (K * V), from_iter_strict_back l = Panic <->
    exists l1 k v l2, l = l1 ++ (k, v) :: l2 /\ zero_overlapping (map fst l1) /\ ~ valid k.
  Proof. exact from_iter_Panic. Qed.
  Theorem C40_from_slice_same : forall l : list (K * V), from_slice_strict_back l = from_iter_strict_back l.
  Proof. reflexivity. Qed.

  (** ** C41 *)
  Theorem C41_round_trip : forall z, zreachable z ->
    snd (zosdit_serialize z) = zosdit_iter z /\
    exists z', zosdit_deserialize (map Some (snd (zosdit_serialize z))) = Val (Ok z') /\
      Forall2 same_entry (zosdit_iter z) (zosdit_iter z') /\ zosdit_len z' = length (zosdit_iter z).
  Proof. intros z R. split; [reflexivity|]. apply round_trip, zreachable_ZWF, R. Qed.
  Theorem C41_accepts_like_bulk_construction : forall (es : list (option (K * V))) z,
    zosdit_deserialize es = Val (Ok z) <-> exists l, es = map Some l /\ from_iter_strict_back l = Val (Ok z).
  Proof. exact deserialize_Ok_from_iter. Qed.
  Theorem C41_rejects : forall es : list (option (K * V)),
    (forall k v, In (Some (k, v)) es -> valid k) ->
    ~ (exists l, es = map Some l /\ zero_overlapping (map fst l)) ->
    exists er, zosdit_deserialize es = Val (Err er).
  Proof. exact deserialize_rejects_zosdit. Qed.
  Theorem C41_panics_iff_first_bad_is_invalid : forall es : list (option (K * V)), zosdit_deserialize es = Panic <->
    exists l k v es', es = map Some l ++ Some (k, v) :: es' /\ zero_overlapping (map fst l) /\ ~ valid k.
  Proof. exact deserialize_Panic_zosdit. Qed.

  (** ** C42 *)
  Theorem C42_insert_panics_iff_invalid : forall z k v, zreachable z ->
    (snd (insert_strict_back k v z) = Panic <-> ~ valid k) /\
    (snd (insert_strict_back k v z) = Panic -> fst (insert_strict_back k v z) = z).
  Proof.
    intros z k v R. pose proof (zreachable_ZWF z R) as Wf. rewrite valid_rk.
    destruct (insert_back_cases z k v Wf) as [(X & E)|[(X & _ & E)|(X & _ & l1 & l2 & k' & i & E & _)]]; rewrite E; cbn [fst snd].
    - split; [|reflexivity]. split; [intros _; apply Z.lt_nge, X|reflexivity].
    - split; [|discriminate]. split; [discriminate|contradiction].
    - split; [|discriminate]. split; [discriminate|contradiction].
  Qed.
  Theorem C42_cut_panics_iff_invalid : forall z q, zreachable z ->
    (snd (zosdit_cut q z) = Panic <-> ~ valid q) /\ (snd (zosdit_cut q z) = Panic -> fst (zosdit_cut q z) = z).
  Proof.
    intros z q R. pose proof (zreachable_ZWF z R) as Wf. destruct (valid_dec q) as [Vq|Vq].
    - destruct (cuttable_dec z q) as [C|C].
      + destruct (cut_done z q Wf Vq C) as (z' & out & E & _). rewrite E. cbn. split; [|discriminate]. split; [discriminate|contradiction].
      + rewrite (cut_not_done z q Wf Vq C). cbn. split; [|discriminate]. split; [discriminate|contradiction].
    - rewrite (cut_invalid q z Vq). cbn. split; [|reflexivity]. split; [intros _; exact Vq|reflexivity].
  Qed.
  Theorem C42_queries_panic_iff_invalid : forall z q, zreachable z ->
    (is_zero_overlap z q = Panic <-> ~ valid q) /\ (zosdit_overlapping z q = Panic <-> ~ valid q).
  Proof.
    intros z q R. pose proof (zreachable_ZWF z R) as Wf. destruct (valid_dec q) as [Vq|Vq].
    - destruct (zero_overlap_decides q z Wf Vq) as (b & E & _). destruct (overlapping_lists q z Wf Vq) as (l & E' & _). rewrite E, E'.
      split; (split; [discriminate|contradiction]).
    - unfold is_zero_overlap, zosdit_overlapping. rewrite iip_invalid by exact Vq. split; (split; [intros _; exact Vq|reflexivity]).
  Qed.
  Theorem C42_remove_never_panics : forall z p, zreachable z -> snd (remove_last_value_at_point p z) <> Panic.
  Proof.
    intros z p R. pose proof (zreachable_ZWF z R) as Wf.
    destruct (remove_last_cases z p Wf) as [(l1 & l2 & k & v & z' & _ & E & _)|(_ & E & _)]; rewrite E; discriminate.
  Qed.

  (** ** C63: full claim: [zosdit_len z = length (zosdit_iter z)] and
      [zosdit_is_empty z = true <-> zosdit_iter z = []]; false, see below. *)
  Theorem C63_len_partial : forall os, zosdit_len (zrun os) = length (zosdit_iter (zrun os)) + removed os.
  Proof. exact removed_len. Qed.
  Theorem C63_is_empty_partial : forall os,
    zosdit_is_empty (zrun os) = true <-> zosdit_iter (zrun os) = [] /\ removed os = 0.
  Proof.
    intros os. unfold zosdit_is_empty. change (z_len (zrun os)) with (zosdit_len (zrun os)). rewrite removed_len, Nat.eqb_eq, <- length_zero_iff_nil. lia.
  Qed.

  (** ** C64: full claim without the hypotheses on [os]; false, see below. *)
  Theorem C64_round_trip_equal_partial : forall os, Forall not_cut os -> removed os = 0 ->
    zosdit_deserialize (map Some (snd (zosdit_serialize (zrun os)))) = Val (Ok (zrun os)).
  Proof.
    intros os HF E. apply round_trip_exact; [apply zrun_ZWF|apply zrun_ZD, HF|].
    pose proof (removed_len os) as L. rewrite E, Nat.add_0_r in L. exact L.
  Qed.
  (** Exactly: no removal, and no interval stored twice in the tree (cuts can do
      that; histories without cut never do). *)
  Theorem C64_round_trip_equal_iff_partial : forall os,
    zosdit_deserialize (map Some (snd (zosdit_serialize (zrun os)))) = Val (Ok (zrun os)) <-> removed os = 0 /\ stored_once (zrun os).
  Proof.
    intros os. pose proof (removed_len os) as L. rewrite (stored_once_ZD _ (zrun_ZWF os)). split.
    - intros E. apply deserialized_once in E as [HD N]. split; [|exact HD]. unfold zosdit_len, count, zosdit_iter in *. lia.
    - intros [E HD]. apply round_trip_exact; [apply zrun_ZWF|exact HD|]. rewrite E, Nat.add_0_r in L. exact L.
  Qed.
  Theorem C64_without_cut_stored_once_partial : forall os, Forall not_cut os -> stored_once (zrun os).
  Proof. intros os HF. apply (stored_once_ZD _ (zrun_ZWF os)), zrun_ZD, HF. Qed.
  Theorem C64_announced_length_partial : forall os,
    fst (zosdit_serialize (zrun os)) = length (snd (zosdit_serialize (zrun os))) <-> removed os = 0.
  Proof.
    intros os. pose proof (removed_len os) as L. change (fst (zosdit_serialize (zrun os))) with (zosdit_len (zrun os)).
    change (snd (zosdit_serialize (zrun os))) with (zosdit_iter (zrun os)). lia.
  Qed.

  (** ** C65: full claim without the last hypothesis; false, see below. *)
  Theorem C65_insert_at_the_back_partial : forall os k v, valid k ->
    (forall e, In e (zosdit_iter (zrun os)) -> zero_overlap (fst e) k) ->
    ~ singular k \/ Forall not_cut os \/ stored_once (zrun os) ->
    exists l1 k' l2, zosdit_iter (zrun os) = l1 ++ l2 /\
      zosdit_iter (fst (insert_strict_back k v (zrun os))) = l1 ++ (k', v) :: l2 /\ same_points k' k /\
      (forall e, In e l1 -> up_to (fst e) k) /\ (forall e, In e l2 -> ~ up_to (fst e) k).
  Proof.
    intros os k v Vk Hz C. destruct (insert_back_spec (zrun os) k v (zrun_ZWF os) Vk) as [_ X].
    destruct (X Hz) as (z' & l1 & k' & l2 & E & _ & A & B & D & _ & F & _ & G). exists l1, k', l2. rewrite E. cbn [fst].
    repeat (split; [assumption|]). apply G. destruct C as [C|[C|C]]; [left; exact C|right; apply zrun_ZD, C|right; apply (stored_once_ZD _ (zrun_ZWF os)), C].
  Qed.
End Props.

(** ** The claims that do not hold *)
Definition C37_ops : list (zop u8 (Interval u8) nat) :=
  [ZInsertStrictBack (0 --> 1) 1; ZInsertStrictBack (4 --> 8) 2].
(** [cut] of [3..6] leaves the overlapping entry [4..8] whole. *)
Theorem C37_cut_refuted : exists (ops : list (zop u8 (Interval u8) nat)) (q : Interval u8) e,
  In e (zosdit_iter (zrun ops)) /\ overlap (fst e) q /\ zosdit_cut q (zrun ops) = (zrun ops, Val []).
Proof. exists C37_ops, (3 --> 6), (4 --> 8, 2). split; [vm_compute; auto|]. split; [|vm_compute; reflexivity].
  exists '5. split; vm_compute; split; discriminate. Qed.
Theorem C38_get_last_value_at_point_refuted : exists (ops : list (zop u8 (Interval u8) nat)) p e,
  In e (zosdit_iter (zrun ops)) /\ covers (fst e) p /\ get_last_value_at_point (zrun ops) p = None.
Proof. exists C37_ops, '1, (0 --> 1, 1). vm_compute. split; [auto|split; [split; discriminate|reflexivity]]. Qed.
Theorem C63_len_refuted : exists ops : list (zop u8 (Interval u8) nat),
  zosdit_iter (zrun ops) = [] /\ zosdit_len (zrun ops) = 1 /\ zosdit_is_empty (zrun ops) = false.
Proof. exists [ZInsertStrictBack (0 --> 1) 1; ZRemoveLast '0]. vm_compute. repeat split; reflexivity. Qed.
Definition C64_ops : list (zop u8 (Interval u8) nat) :=
  [ZInsertStrictBack (0 --> 0) 1; ZInsertStrictBack (0 --> 4) 2; ZCut (1 --> 3)].
Theorem C64_round_trip_equal_refuted : exists (ops : list (zop u8 (Interval u8) nat)) z',
  zosdit_deserialize (map Some (snd (zosdit_serialize (zrun ops)))) = Val (Ok z') /\ z' <> zrun ops /\
  fst (zosdit_serialize (zrun ops)) = length (snd (zosdit_serialize (zrun ops))).
Proof. exists C64_ops. eexists. vm_compute. split; [reflexivity|]. split; [discriminate|reflexivity]. Qed.
Theorem C64_announced_length_refuted : exists ops : list (zop u8 (Interval u8) nat),
  fst (zosdit_serialize (zrun ops)) <> length (snd (zosdit_serialize (zrun ops))).
Proof. exists [ZInsertStrictBack (0 --> 1) 1; ZRemoveLast '0]. vm_compute. discriminate. Qed.
Theorem C65_insert_at_the_back_refuted : exists (ops : list (zop u8 (Interval u8) nat)) k v l1 e l2,
  insert_strict_back k v (zrun ops) = (fst (insert_strict_back k v (zrun ops)), Val (Ok tt)) /\
  zosdit_iter (zrun ops) = l1 ++ e :: l2 /\ fst e = k /\
  zosdit_iter (fst (insert_strict_back k v (zrun ops))) = l1 ++ (k, v) :: e :: l2.
Proof.
  exists C64_ops, (0 --> 0), 7, [(0 --> 0, 1)], (0 --> 0, 2), [(4 --> 4, 2)]. vm_compute. repeat split; reflexivity.
Qed.

(** ** Examples: the hypotheses are met, non-trivially. *)
Definition C32_ops : list (zop u8 (Interval u8) nat) :=
  [ZInsertStrictBack (4 --> 8) 1; ZInsertStrictBack (8 --> 8) 2; ZInsertStrictBack (4 --> 4) 3; ZInsertStrictBack (8 --> 8) 4;
   ZInsertStrictBack (8 --> 12) 5; ZInsertStrictBack (7 --> 9) 6].
Example C32_example : zosdit_iter (zrun C32_ops) =
  [(4 --> 4, 3); (4 --> 8, 1); (8 --> 8, 2); (8 --> 8, 4); (8 --> 12, 5)] /\ zosdit_len (zrun C32_ops) = 5.
Proof. vm_compute. split; reflexivity. Qed.
Example C33_example :
  is_zero_overlap (zrun C32_ops) (8 --> 8 : Interval u8) = Val true /\ is_zero_overlap (zrun C32_ops) (12 --> 20 : Interval u8) = Val true /\
  is_zero_overlap (zrun C32_ops) (6 --> 6 : Interval u8) = Val false /\ is_zero_overlap (zrun C32_ops) (11 --> 20 : Interval u8) = Val false.
Proof. vm_compute. repeat split; reflexivity. Qed.
Example C34_example :
  zosdit_iter (fst (insert_strict_back (12 --> 12) 9 (zrun C32_ops))) = zosdit_iter (zrun C32_ops) ++ [(12 --> 12, 9)] /\
  snd (insert_strict_back (9 --> 12) 9 (zrun C32_ops)) = Val (Err 9).
Proof. vm_compute. split; reflexivity. Qed.
Example C35_example : zosdit_overlapping (zrun C32_ops) (8 --> 8 : Interval u8) =
  Val [(4 --> 8, 1); (8 --> 8, 2); (8 --> 8, 4); (8 --> 12, 5)].
Proof. vm_compute. reflexivity. Qed.
Example C36_example : zosdit_first_key_value (zrun C32_ops) = Some (4 --> 4, 3) /\ zosdit_last_key_value (zrun C32_ops) = Some (8 --> 12, 5).
Proof. vm_compute. split; reflexivity. Qed.
Example C37_example :
  zosdit_cut (6 --> 9 : Interval u8) (zrun C32_ops) =
    (fst (zosdit_cut (6 --> 9 : Interval u8) (zrun C32_ops)), Val [(6 --> 8, 1); (8 --> 8, 2); (8 --> 8, 4); (8 --> 9, 5)]) /\
  zosdit_iter (fst (zosdit_cut (6 --> 9 : Interval u8) (zrun C32_ops))) = [(4 --> 4, 3); (4 --> 5, 1); (10 --> 12, 5)] /\
  cut_reaches (6 --> 9 : Interval u8) (zosdit_iter (zrun C32_ops)).
Proof.
  split; [vm_compute; reflexivity|]. split; [vm_compute; reflexivity|].
  left. exists (4 --> 8, 1), '4. split; [vm_compute; auto|]. split; [exists '6; split; vm_compute; split; discriminate|].
  split; [vm_compute; split; discriminate|]. intros y Hy. apply covers_rk in Hy. apply plt_rk.
  eapply Z.lt_le_trans; [|apply Hy]. apply (proj1 (plt_rk '4 '6)). vm_compute. reflexivity.
Qed.
Example C38_example : get_last_value_at_point (zrun C32_ops) '8 = Some 5 /\ get_last_value_at_point (zrun C32_ops) '4 = Some 1 /\
  get_last_value_at_point (zrun C32_ops) '12 = Some 5 /\ get_last_value_at_point (zrun C32_ops) '3 = None.
Proof. vm_compute. repeat split; reflexivity. Qed.
Example C39_example : snd (remove_last_value_at_point '8 (zrun C32_ops)) = Val (Some 5) /\
  zosdit_iter (fst (remove_last_value_at_point '8 (zrun C32_ops))) = [(4 --> 4, 3); (4 --> 8, 1); (8 --> 8, 2); (8 --> 8, 4)].
Proof. vm_compute. split; reflexivity. Qed.
Example C40_example :
  omap (fun r => match r with Ok z => zosdit_iter z | Err _ => [] end)
    (from_iter_strict_back [(8 --> 8 : Interval u8, 2); (8 --> 12, 1); (2 --> 8, 3); (8 --> 8, 4)]) =
    Val [(2 --> 8, 3); (8 --> 8, 2); (8 --> 8, 4); (8 --> 12, 1)] /\
  from_iter_strict_back [(8 --> 8 : Interval u8, 2); (8 --> 12, 1); (2 --> 9, 3); (10 --> 10, 4)] = Val (Err 3).
Proof. vm_compute. split; reflexivity. Qed.
Example C41_example : zosdit_deserialize (map Some (snd (zosdit_serialize (zrun C32_ops)))) = Val (Ok (zrun C32_ops)) /\
  zosdit_deserialize [Some (1 --> 4 : Interval u8, 0); Some (2 --> 2, 1)] = Val (Err DeOverlap).
Proof. vm_compute. split; reflexivity. Qed.
Example C42_example : insert_strict_back (9 --> 3) 0 (zrun C32_ops) = (zrun C32_ops, Panic) /\
  zosdit_cut (9 --> 3 : Interval u8) (zrun C32_ops) = (zrun C32_ops, Panic).
Proof. vm_compute. split; reflexivity. Qed.
Example C63_example : removed (C32_ops ++ [ZRemoveLast '8; ZRemoveLast '3; ZRemoveLast '8]) = 2 /\
  zosdit_len (zrun (C32_ops ++ [ZRemoveLast '8; ZRemoveLast '3; ZRemoveLast '8])) = 5 /\
  zosdit_iter (zrun (C32_ops ++ [ZRemoveLast '8; ZRemoveLast '3; ZRemoveLast '8])) = [(4 --> 4, 3); (4 --> 8, 1); (8 --> 8, 2)].
Proof. vm_compute. repeat split; reflexivity. Qed.
Example C64_example : Forall not_cut C32_ops /\ removed C32_ops = 0.
Proof. split; [unfold C32_ops; repeat (constructor; [exact Logic.I|]); constructor|vm_compute; reflexivity]. Qed.
(** With a cut. *)
Definition C64_cut_ops : list (zop u8 (Interval u8) nat) := [ZInsertStrictBack (0 --> 9) 1; ZInsertStrictBack (9 --> 9) 2; ZCut (3 --> 4)].
Example C64_cut_example : removed C64_cut_ops = 0 /\ stored_once (zrun C64_cut_ops) /\ ~ stored_once (zrun C64_ops) /\
  zosdit_iter (zrun C64_cut_ops) = [(0 --> 2, 1); (5 --> 9, 1); (9 --> 9, 2)].
Proof.
  assert (X : forall (a b : Interval u8) p, covers a p -> ~ covers b p -> ~ same_points a b) by (intros a b p A B S; apply B, S, A).
  split; [vm_compute; reflexivity|]. split; [|split; [|vm_compute; reflexivity]].
  - assert (E : z_inner (zrun C64_cut_ops) = [(0 --> 2, [1]); (5 --> 9, [1]); (9 --> 9, [2])]) by (vm_compute; reflexivity).
    unfold stored_once. rewrite E. repeat constructor; cbn [fst].
    + apply (X _ _ '0); vm_compute; [split; discriminate|intros [A _]; apply A; reflexivity].
    + apply (X _ _ '0); vm_compute; [split; discriminate|intros [A _]; apply A; reflexivity].
    + apply (X _ _ '5); vm_compute; [split; discriminate|intros [A _]; apply A; reflexivity].
  - assert (E : z_inner (zrun C64_ops) = [(0 --> 0, [1]); (0 --> 0, [2]); (4 --> 4, [2])]) by (vm_compute; reflexivity).
    unfold stored_once. rewrite E. intros F. inversion F as [|? ? A _]; subst. inversion A as [|? ? B _]; subst. apply B. intros p. reflexivity.
Qed.
Example C65_example : zosdit_iter (fst (insert_strict_back (8 --> 8) 9 (zrun C32_ops))) =
  [(4 --> 4, 3); (4 --> 8, 1); (8 --> 8, 2); (8 --> 8, 4); (8 --> 8, 9); (8 --> 12, 5)].
Proof. vm_compute. reflexivity. Qed.
Print Assumptions C32_entries_ascending_zero_overlap.
Print Assumptions C32_non_singular_once.
Print Assumptions C32_every_such_sequence_is_reachable.
Print Assumptions C33_is_zero_overlap.
Print Assumptions C34_insert_strict_back_refused.
Print Assumptions C34_insert_strict_back_done.
Print Assumptions C35_overlapping.
Print Assumptions C36_first_last_key_value.
Print Assumptions C36_len_at_least.
Print Assumptions C37_cut_partial.
Print Assumptions C37_cut_otherwise_does_nothing_partial.
Print Assumptions C38_get_last_value_at_point_partial.
Print Assumptions C38_returned_value_is_the_last_partial.
Print Assumptions C38_otherwise_none_partial.
Print Assumptions C39_remove_last_value_at_point.
Print Assumptions C40_accepts_iff_zero_overlapping.
Print Assumptions C40_result_holds_exactly_the_entries.
Print Assumptions C40_error_is_first_clash.
Print Assumptions C40_panic_is_first_invalid.
Print Assumptions C40_from_slice_same.
Print Assumptions C41_round_trip.
Print Assumptions C41_accepts_like_bulk_construction.
Print Assumptions C41_rejects.
Print Assumptions C41_panics_iff_first_bad_is_invalid.
Print Assumptions C42_insert_panics_iff_invalid.
Print Assumptions C42_cut_panics_iff_invalid.
Print Assumptions C42_queries_panic_iff_invalid.
Print Assumptions C42_remove_never_panics.
Print Assumptions C63_len_partial.
Print Assumptions C63_is_empty_partial.
Print Assumptions C64_round_trip_equal_partial.
Print Assumptions C64_round_trip_equal_iff_partial.
Print Assumptions C64_without_cut_stored_once_partial.
Print Assumptions C64_announced_length_partial.
Print Assumptions C65_insert_at_the_back_partial.
Print Assumptions C37_cut_refuted.
Print Assumptions C38_get_last_value_at_point_refuted.
Print Assumptions C63_len_refuted.
Print Assumptions C64_round_trip_equal_refuted.
Print Assumptions C64_announced_length_refuted.
Print Assumptions C65_insert_at_the_back_refuted.
