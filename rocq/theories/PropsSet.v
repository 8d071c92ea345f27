(** * PropsSet: the properties of NoditSet (C28-C30) and value independence (C62). *)
From Coq Require Import List ZArith Lia Permutation.
From Verif Require Import Base IntervalModel NoditModel NoditSetModel NoditOps NoditSetOps Spec InstancesModel Instances
  IntervalProofs NoditQueries NoditInv NoditNatural NoditSetFacts NoditSetProofs.
Import ListNotations.
Open Scope nat_scope.

Section Props.
  Context {I : Type} `{PL : PointLaws I}.
  Context {K : Type} {IK : InclusiveInterval I K} {IL : IntervalLaws I K} {FI : FromInvalid I K}.
  Context {Q : Type} {IQ : InclusiveInterval I Q}.
  Implicit Types (s : NoditSet K) (k : K) (q : Q) (p : I).

  (** ** C28: sets built by merging calls and removals are canonical. *)
  (** [iter] yields the maximal intervals of the points of the set. *)
  Theorem C28_iter_lists_maximal_intervals : forall os : list (set_op I K), Forall merging os ->
    lists_max_runs (fun p => set_contains_point (set_run os) p = Val true) (fun _ => True) (set_iter (set_run os)).
  Proof.
    intros os HF. destruct (canonical_runs os HF) as (A & B & C).
    assert (E : forall p, in_set (set_run os) p <-> set_contains_point (set_run os) p = Val true)
      by (intros p; symmetry; apply (set_contains_point_spec _ p (set_run_WF os))).
    split; [exact A|]. split.
    - intros g Hg. destruct (B g Hg) as [X Y]. split; [eapply max_run_ext; [exact E|exact X]|exact Y].
    - intros j X Y. apply C; [|exact Y]. eapply (max_run_ext (K := Interval I)); [|exact X]. intros p. symmetry. apply E.
  Qed.
  Theorem C28_same_points_same_intervals : forall os os' : list (set_op I K), Forall merging os -> Forall merging os' ->
    (forall p, set_contains_point (set_run os) p = set_contains_point (set_run os') p) ->
    Forall2 same_points (set_iter (set_run os)) (set_iter (set_run os')).
  Proof. exact canonical_same. Qed.
  Theorem C28_insertion_order : forall ks ks' : list K, Permutation ks ks' ->
    let build l := set_run (map (fun k => SInsertMergeTouchingOrOverlapping k) l) in
    Forall2 same_points (set_iter (build ks)) (set_iter (build ks')).
  Proof.
    intros ks ks' HP build. apply canonical_same; [apply merging_inserts..|]. apply order_same, HP.
  Qed.

  (** ** C29: a NoditSet is a set of points. *)
  Theorem C29_iter_ascending_disjoint : forall os : list (set_op I K),
    ascending (set_iter (set_run os)) /\ Forall valid (set_iter (set_run os)).
  Proof. intros os. rewrite set_iter_fst. apply ascending_WF, set_run_WF. Qed.
  (** The set of points a history describes is the one [contains_point] tests. *)
  Theorem C29_history_is_a_point_set : forall (os : list (set_op I K)) P, set_history os P ->
    forall p, (set_contains_point (set_run os) p = Val true <-> P p) /\
              (set_contains_point (set_run os) p = Val false <-> ~ P p).
  Proof.
    intros os P HH p. destruct (set_contains_point_spec (set_run os) p (set_run_WF os)) as [-> ->].
    rewrite (set_history_points os P HH p). split; reflexivity.
  Qed.
  (** Every history without [remove_overlapping] describes one. *)
  Theorem C29_every_history_describes_a_point_set : forall os : list (set_op I K),
    Forall (fun o => match o with SRemoveOverlapping _ => False | _ => True end) os -> exists P, set_history os P.
  Proof. intros os HF. eexists. apply set_run_history. exact HF. Qed.
  (** [remove_overlapping] removes, and yields, the overlapping intervals. *)
  Theorem C29_remove_overlapping : forall s q, set_reachable s -> valid q ->
    exists s' out, set_remove_overlapping q s = (s', Val out) /\
      sub (fun k => ~ overlap k q) (set_iter s) (set_iter s') /\ sub (fun k => overlap k q) (set_iter s) out.
  Proof.
    intros s q HR Vq. destruct (remove_points s q (set_reachable_WF _ HR) Vq) as (s' & out & E & _ & A & B). eauto.
  Qed.
  (** What the insertions return. *)
  Theorem C29_insertions_return : forall s k, set_reachable s -> valid k ->
    ((forall p, covers k p -> ~ in_set s p) ->
       snd (set_insert_strict k s) = Val (Ok tt) /\
       exists r, snd (set_insert_merge_touching k s) = Val (Ok r)) /\
    (~ (forall p, covers k p -> ~ in_set s p) ->
       set_insert_strict k s = (s, Val (Err tt)) /\ set_insert_merge_touching k s = (s, Val (Err tt))) /\
    (exists r, snd (set_insert_merge_overlapping k s) = Val r) /\
    (exists r, snd (set_insert_merge_touching_or_overlapping k s) = Val r) /\
    (exists out, snd (set_insert_overwrite k s) = Val out).
  Proof.
    intros s k HR Vk. apply set_reachable_WF in HR. split; [|split; [|split; [|split]]].
    - intros Hf. rewrite free_points in Hf. destruct (strict_points s k HR Vk Hf) as (s1 & E1 & _).
      destruct (touching_points s k HR Vk Hf) as (s2 & r & E2 & _). rewrite E1, E2. split; [reflexivity|]. exists r. reflexivity.
    - intros Hf. rewrite free_points in Hf. destruct (clash_dec s k) as [Hc|Hc]; [|contradiction].
      split; [apply strict_refused|apply touching_refused]; assumption.
    - destruct (overlapping_points s k HR Vk) as (s' & r & E & _). rewrite E. exists r. reflexivity.
    - destruct (tor_points s k HR Vk) as (s' & r & E & _). rewrite E. exists r. reflexivity.
    - destruct (overwrite_points s k HR Vk) as (s' & out & E & _). rewrite E. exists out. reflexivity.
  Qed.
  Theorem C29_cut_yields : forall s q, set_reachable s -> valid q ->
    exists out, snd (set_cut q s) = Val out /\
      forall p, (exists k, In k out /\ covers k p) <-> in_set s p /\ covers q p.
  Proof.
    intros s q HR Vq. destruct (cut_points s q (set_reachable_WF _ HR) Vq) as (s' & out & E & _ & _ & Hp).
    rewrite E. exists out. split; [reflexivity|exact Hp].
  Qed.

  (** ** C30: a NoditSet is a NoditMap with its values dropped. *)
  Section Values.
    Context {V : Type}.
    Implicit Types (m : NoditMap K V) (v : V).

    Theorem C30_histories : forall os (os' : list (op I K V)), Forall2 lifts os os' -> set_run os = forget (run os').
    Proof. exact run_lifts. Qed.

    Theorem C30_queries : forall m q p,
      set_len (forget m) = len m /\
      set_is_empty (forget m) = is_empty m /\
      set_iter (forget m) = map fst (iter m) /\
      set_into_iter (forget m) = map fst (into_iter m) /\
      set_first (forget m) = option_map fst (first_key_value m) /\
      set_last (forget m) = option_map fst (last_key_value m) /\
      set_overlaps (forget m) q = map_overlaps m q /\
      set_overlapping (forget m) q = omap (map fst) (overlapping m q) /\
      set_gaps_untrimmed (forget m) q = gaps_untrimmed m q /\
      set_gaps_trimmed (forget m) q = gaps_trimmed m q /\
      set_contains_interval (forget m) q = map_contains_interval m q /\
      set_contains_point (forget m) p = map_contains_point m p /\
      set_get_at_point (forget m) p =
        omap (fun r => match r with Ok e => Ok (fst e) | Err g => Err g end) (get_key_value_at_point m p).
    Proof. exact forget_queries. Qed.

    Theorem C30_calls : forall m q k v,
      set_remove_overlapping q (forget m) =
        (forget (fst (remove_overlapping q m)), omap (map fst) (snd (remove_overlapping q m))) /\
      set_cut q (forget m) = (forget (fst (cut q m)), omap (map fst) (snd (cut q m))) /\
      set_insert_strict k (forget m) =
        (forget (fst (insert_strict k v m)), omap drop_error (snd (insert_strict k v m))) /\
      set_insert_merge_touching k (forget m) =
        (forget (fst (insert_merge_touching k v m)), omap drop_error (snd (insert_merge_touching k v m))) /\
      set_insert_merge_overlapping k (forget m) =
        (forget (fst (insert_merge_overlapping k v m)), snd (insert_merge_overlapping k v m)) /\
      set_insert_merge_touching_or_overlapping k (forget m) =
        (forget (fst (insert_merge_touching_or_overlapping k v m)), snd (insert_merge_touching_or_overlapping k v m)) /\
      set_insert_overwrite k (forget m) =
        (forget (fst (insert_overwrite k v m)), omap (map fst) (snd (insert_overwrite k v m))).
    Proof. exact forget_calls. Qed.

    Theorem C30_bulk : forall (l : list (K * V)) (a : list (option (K * V))),
      set_from_iter_strict (map fst l) =
        omap (fun r => match r with Ok m => Ok (forget m) | Err _ => Err tt end) (from_iter_strict l) /\
      set_from_slice_strict (map fst l) = set_from_iter_strict (map fst l) /\
      set_deserialize (map (option_map fst) a) =
        omap (fun r => match r with Ok m => Ok (forget m) | Err e => Err e end) (deserialize a) /\
      forall m, set_serialize (forget m) = (fst (serialize m), map fst (snd (serialize m))).
    Proof. exact forget_bulk. Qed.

    (** ** C62: NoditMap never looks at its values. *)
    Theorem C62_values_never_inspected : forall {W : Type} (g : V -> W) (os : list (op I K V)) (os' : list (op I K W)),
      Forall2 (op_image g) os os' -> iter (run os') = map (image g) (iter (run os)).
    Proof. intros W g os os'. exact (run_image g os os'). Qed.
    Theorem C62_queries : forall {W : Type} (g : V -> W) m q p, let im := map (image g) in
      len (im m) = len m /\ is_empty (im m) = is_empty m /\ iter (im m) = im (iter m) /\ into_iter (im m) = im (into_iter m) /\
      first_key_value (im m) = option_map (image g) (first_key_value m) /\
      last_key_value (im m) = option_map (image g) (last_key_value m) /\
      map_overlaps (im m) q = map_overlaps m q /\
      overlapping (im m) q = omap im (overlapping m q) /\
      gaps_untrimmed (im m) q = gaps_untrimmed m q /\
      gaps_trimmed (im m) q = gaps_trimmed m q /\
      map_contains_interval (im m) q = map_contains_interval m q /\
      map_contains_point (im m) p = map_contains_point m p /\
      get_at_point (im m) p = omap (option_map g) (get_at_point m p) /\
      get_key_value_at_point (im m) p =
        omap (fun r => match r with Ok e => Ok (image g e) | Err k => Err k end) (get_key_value_at_point m p).
    Proof. intros W g m q p. exact (image_queries g m q p). Qed.
    Theorem C62_calls : forall {W : Type} (g : V -> W) m q k v, let im := map (image g) in
      snd (remove_overlapping q (im m)) = omap im (snd (remove_overlapping q m)) /\
      snd (cut q (im m)) = omap im (snd (cut q m)) /\
      snd (insert_strict k (g v) (im m)) = omap (image_error g) (snd (insert_strict k v m)) /\
      snd (insert_merge_touching k (g v) (im m)) = omap (image_error g) (snd (insert_merge_touching k v m)) /\
      snd (insert_merge_overlapping k (g v) (im m)) = snd (insert_merge_overlapping k v m) /\
      snd (insert_merge_touching_or_overlapping k (g v) (im m)) = snd (insert_merge_touching_or_overlapping k v m) /\
      snd (insert_overwrite k (g v) (im m)) = omap im (snd (insert_overwrite k v m)) /\
      forall veq veq', (forall x y, veq' (g x) (g y) = veq x y) ->
        snd (insert_merge_touching_if_values_equal veq' k (g v) (im m)) =
        omap (image_error g) (snd (insert_merge_touching_if_values_equal veq k v m)).
    Proof. intros W g m q k v. exact (image_calls g m q k v). Qed.
  End Values.
End Props.

Section Interval.
  Context {I : Type} `{PL : PointLaws I} {OL : OrdLaws I}.
  Theorem C28_same_points_equal : forall os os' : list (set_op I (Interval I)), Forall merging os -> Forall merging os' ->
    (forall p, set_contains_point (set_run os) p = set_contains_point (set_run os') p) -> set_run os = set_run os'.
  Proof. exact canonical_eq. Qed.
  Theorem C28_insertion_order_equal : forall ks ks' : list (Interval I), Permutation ks ks' ->
    let build l := set_run (map (fun k => SInsertMergeTouchingOrOverlapping k) l) in build ks = build ks'.
  Proof. intros ks ks' HP build. apply canonical_eq; [apply merging_inserts..|]. apply order_same, HP. Qed.
End Interval.

(** A history of merging calls, in two orders, one call being refused and one
    panicking; the set holds [3,9] and [12,12]. *)
Definition C28_ops : list (set_op u8 (Interval u8)) :=
  [SInsertMergeTouchingOrOverlapping (3 --> 5); SInsertMergeTouchingOrOverlapping (8 --> 12);
   SInsertMergeTouching (4 --> 6); SInsertMergeTouching (6 --> 7); SInsertMergeTouchingOrOverlapping (5 --> 2);
   SCut (10 --> 11)].
Definition C28_ops' : list (set_op u8 (Interval u8)) :=
  [SInsertMergeTouchingOrOverlapping (12 --> 12); SInsertMergeTouching (7 --> 9); SInsertMergeTouchingOrOverlapping (3 --> 7)].
Example C28_example : Forall merging C28_ops /\ Forall merging C28_ops' /\
  set_iter (set_run C28_ops) = [3 --> 9; 12 --> 12] /\ set_run C28_ops = set_run C28_ops'.
Proof.
  split; [|split; [|split; vm_compute; reflexivity]]; unfold C28_ops, C28_ops';
    repeat (constructor; [exact Logic.I|]); constructor.
Qed.
(** Without the restriction to merging calls it is false. *)
Example C28_strict_insertions_differ :
  let s := set_run [SInsertStrict (3 --> 5 : Interval u8); SInsertStrict (6 --> 9)] in
  let s' := set_run [SInsertStrict (3 --> 9 : Interval u8)] in
  s <> s' /\ forall p, in_set s p <-> in_set s' p.
Proof.
  split; [vm_compute; discriminate|]. intros p.
  change (in_set _ p) with (exists k, In k [3 --> 5; 6 --> 9 : Interval u8] /\ covers k p) at 1.
  change (in_set (set_run _) p) with (exists k, In k [3 --> 9 : Interval u8] /\ covers k p).
  assert (C : forall a b : u8, covers (mkInterval a b) p <-> (ival a <= ival p <= ival b)%Z).
  { intros a b. unfold covers. cbn. rewrite !ple_int. reflexivity. }
  pose proof (C '3 '5 : covers (3 --> 5) p <-> (3 <= ival p <= 5)%Z) as C1.
  pose proof (C '6 '9 : covers (6 --> 9) p <-> (6 <= ival p <= 9)%Z) as C2.
  pose proof (C '3 '9 : covers (3 --> 9) p <-> (3 <= ival p <= 9)%Z) as C3.
  cbn [In]. split.
  - intros (k & [<-|[<-|[]]] & Hc); exists (3 --> 9); (split; [auto|]); apply (proj2 C3); [apply (proj1 C1) in Hc|apply (proj1 C2) in Hc]; lia.
  - intros (k & [<-|[]] & Hc). apply (proj1 C3) in Hc. destruct (Z_le_gt_dec (ival p) 5) as [L|L];
      [exists (3 --> 5)|exists (6 --> 9)]; (split; [auto|]); [apply (proj2 C1)|apply (proj2 C2)]; lia.
Qed.
Definition C29_ops : list (set_op u8 (Interval u8)) :=
  C28_ops ++ [SInsertStrict (9 --> 11); SInsertStrict (10 --> 11); SInsertOverwrite (4 --> 5)].
Example C29_example : (exists P, set_history C29_ops P) /\
  set_iter (set_run C29_ops) = [3 --> 3; 4 --> 5; 6 --> 9; 10 --> 11; 12 --> 12] /\
  snd (set_remove_overlapping (9 --> 10 : Interval u8) (set_run C29_ops)) = Val [6 --> 9; 10 --> 11] /\
  snd (set_cut (9 --> 10 : Interval u8) (set_run C29_ops)) = Val [9 --> 9; 10 --> 10].
Proof.
  split; [|vm_compute; repeat split; reflexivity]. apply C29_every_history_describes_a_point_set.
  unfold C29_ops, C28_ops. cbn [app]. repeat (constructor; [exact Logic.I|]). constructor.
Qed.
Definition C30_ops : list (op u8 (Interval u8) nat) :=
  [OpInsertStrict (3 --> 5) 1; OpInsertMergeTouching (6 --> 8) 2; OpCut (4 --> 4 : Interval u8)].
Example C30_example :
  Forall2 lifts [SInsertStrict (3 --> 5); SInsertMergeTouching (6 --> 8); SCut (4 --> 4 : Interval u8)] C30_ops /\
  iter (run C30_ops) = [(3 --> 3, 2); (5 --> 8, 2)].
Proof. split; [unfold C30_ops; repeat constructor|vm_compute; reflexivity]. Qed.
Example C62_example :
  Forall2 (op_image (fun n => n * 2)) C30_ops
    [OpInsertStrict (3 --> 5) 2; OpInsertMergeTouching (6 --> 8) 4; OpCut (4 --> 4 : Interval u8)].
Proof.
  constructor; [exact (oi_strict (fun n => n * 2) (3 --> 5) 1)|].
  constructor; [exact (oi_touching (fun n => n * 2) (6 --> 8) 2)|]. repeat constructor.
Qed.

Print Assumptions C28_iter_lists_maximal_intervals.
Print Assumptions C28_same_points_same_intervals.
Print Assumptions C28_insertion_order.
Print Assumptions C28_same_points_equal.
Print Assumptions C28_insertion_order_equal.
Print Assumptions C29_iter_ascending_disjoint.
Print Assumptions C29_history_is_a_point_set.
Print Assumptions C29_every_history_describes_a_point_set.
Print Assumptions C29_remove_overlapping.
Print Assumptions C29_insertions_return.
Print Assumptions C29_cut_yields.
Print Assumptions C30_histories.
Print Assumptions C30_queries.
Print Assumptions C30_calls.
Print Assumptions C30_bulk.
Print Assumptions C62_values_never_inspected.
Print Assumptions C62_queries.
Print Assumptions C62_calls.
