(** * PropsNodit: the properties of NoditMap (C01-C16, C18-C22, C31, C56).

    [I] is any point type obeying [PointLaws], [K] any interval type obeying
    [IntervalLaws], [Q] any query interval type, [V] any value type.  The
    vocabulary ([covers], [overlap], [max_run], ...) is that of [Spec]. *)
From Coq Require Import List ZArith Bool Lia ZifyBool Sorting.Sorted Permutation.
From Verif Require Import Base BTree UtilsModel IntervalModel NoditModel NoditOps Spec InstancesModel Instances
  PointFacts IntervalFacts ListFacts NoditFacts NoditQueries NoditGaps NoditMutations NoditMerges NoditInv NoditMore.
Import ListNotations.
Open Scope nat_scope.

(** A map used by the examples: [2,4]->1, [6,7]->2, [8,9]->2, [20,30]->3. *)
Definition ex_ops : list (op u8 (Interval u8) nat) :=
  [OpInsertStrict (6 --> 7) 2; OpInsertStrict (2 --> 4) 1; OpInsertStrict (8 --> 9) 2;
   OpInsertStrict (20 --> 30) 3; OpInsertStrict (9 --> 21) 4].
Definition ex_map : NoditMap (Interval u8) nat := run ex_ops.
Example ex_map_entries : iter ex_map = [(2 --> 4, 1); (6 --> 7, 2); (8 --> 9, 2); (20 --> 30, 3)].
Proof. vm_compute. reflexivity. Qed.
Example ex_map_reachable : reachable ex_map.
Proof. exists ex_ops. reflexivity. Qed.
Lemma ex_valid (a b : u8) : leb a b = true -> valid (mkInterval a b).
Proof.
  intros E. exists a. split; unfold ple; cbn; [rewrite Z.compare_refl; discriminate|].
  unfold leb in E. cbn in E. destruct (ival a ?= ival b)%Z; [discriminate..|]. discriminate.
Qed.
Lemma ex_invalid (a b : u8) : ltb b a = true -> ~ valid (mkInterval a b).
Proof.
  intros E (p & P1 & P2). unfold ple, ltb in *. cbn in *.
  destruct (Z.compare_spec (ival b) (ival a)) as [?|?|?]; try discriminate.
  destruct (Z.compare_spec (ival a) (ival p)) as [?|?|?], (Z.compare_spec (ival p) (ival b)) as [?|?|?]; try congruence; lia.
Qed.

Section Props.
  Context {I : Type} `{PL : PointLaws I}.
  Context {K : Type} {IK : InclusiveInterval I K} {IL : IntervalLaws I K} {FI : FromInvalid I K}.
  Context {Q : Type} {IQ : InclusiveInterval I Q}.
  Context {V : Type}.
  Implicit Types (m : NoditMap K V) (k r : K) (q : Q) (v : V) (p : I).

  (** ** C01 *)
  (** After any history (including calls that panicked) [iter] yields valid
      intervals in ascending order, no two sharing a point. *)
  Theorem C01_entries_ascending_disjoint : forall ops : list (op I K V),
    ascending (map fst (iter (run ops))) /\ Forall valid (map fst (iter (run ops))).
  Proof. intros ops. apply ascending_WF, run_WF. Qed.

  (** And nothing more is guaranteed: every such list of entries is the [iter] of
      some history. *)
  Theorem C01_every_ascending_list_is_reachable : forall l : list (K * V),
    ascending (map fst l) -> Forall valid (map fst l) -> exists ops : list (op I K V), iter (run ops) = l.
  Proof.
    intros l Ha Hv. destruct (WF_reachable l) as (ops & E); [apply ascending_WF; auto|].
    exists ops. symmetry. exact E.
  Qed.

  (** The hypotheses are met, non-trivially. *)
  Example C01_example : exists m : NoditMap (Interval u8) nat, step ex_map (OpInsertOverwrite (3 --> 8) 9) = m /\
    map fst (iter m) = [2 --> 2; 3 --> 8; 9 --> 9; 20 --> 30].
  Proof. eexists. split; [reflexivity|]. vm_compute. reflexivity. Qed.

  (** ** C02 *)
  Theorem C02_get_key_value_at_point : forall m, reachable m -> forall p k v,
    get_key_value_at_point m p = Val (Ok (k, v)) <-> In (k, v) (iter m) /\ covers k p.
  Proof. intros m R p. apply get_key_value_at_point_Ok, reachable_WF, R. Qed.
  Theorem C02_get_at_point_Some : forall m, reachable m -> forall p v,
    get_at_point m p = Val (Some v) <-> exists k, In (k, v) (iter m) /\ covers k p.
  Proof. intros m R p v. apply get_at_point_Some, reachable_WF, R. Qed.
  Theorem C02_get_at_point_None : forall m, reachable m -> forall p,
    get_at_point m p = Val None <-> ~ exists k v, In (k, v) (iter m) /\ covers k p.
  Proof. intros m R p. apply get_at_point_None, reachable_WF, R. Qed.
  Theorem C02_contains_point : forall m, reachable m -> forall p,
    (map_contains_point m p = Val true <-> exists k v, In (k, v) (iter m) /\ covers k p) /\
    (map_contains_point m p = Val false <-> ~ exists k v, In (k, v) (iter m) /\ covers k p).
  Proof.
    intros m R p. destruct (map_contains_point_spec m p (reachable_WF m R)) as (b & E & Hb).
    change (b = true <-> exists k v, In (k, v) (iter m) /\ covers k p) in Hb. rewrite E, <- Hb.
    destruct b; intuition congruence.
  Qed.
  (** The entry is unique. *)
  Theorem C02_one_entry : forall m, reachable m -> forall p k v k' v',
    In (k, v) (iter m) -> In (k', v') (iter m) -> covers k p -> covers k' p -> (k, v) = (k', v').
  Proof. intros m R p k v k' v'. apply covers_unique, reachable_WF, R. Qed.

  (** The hypotheses are met, non-trivially. *)
  Example C02_example : get_at_point ex_map ('7) = Val (Some 2) /\ get_at_point ex_map ('5) = Val None.
  Proof. vm_compute. auto. Qed.

  (** ** C03 *)
  Theorem C03_maximal_gap_at_point : forall m, reachable m -> forall p,
    ~ covered (iter m) p ->
    exists g, get_key_value_at_point m p = Val (Err g) /\ covers g p /\
              max_run (fun x => ~ covered (iter m) x) g.
  Proof. intros m R p. apply get_key_value_at_point_Err, reachable_WF, R. Qed.

  (** The hypotheses are met, non-trivially. *)
  Example C03_example : get_key_value_at_point ex_map ('15) = Val (Err (10 --> 19)).
  Proof. vm_compute. reflexivity. Qed.

  (** ** C04 *)
  Theorem C04_overlapping : forall m q, reachable m -> valid q ->
    exists l, overlapping m q = Val l /\ sub (fun e => overlap (fst e) q) (iter m) l.
  Proof. intros m q R. apply overlapping_spec, reachable_WF, R. Qed.

  (** The hypotheses are met, non-trivially. *)
  Example C04_example : valid (4 --> 8 : Interval u8) /\
    overlapping ex_map (4 --> 8) = Val [(2 --> 4, 1); (6 --> 7, 2); (8 --> 9, 2)].
  Proof. split; [apply ex_valid; reflexivity|vm_compute; reflexivity]. Qed.

  (** ** C05 *)
  Theorem C05_overlaps : forall m q, reachable m -> valid q ->
    exists b, map_overlaps m q = Val b /\
      (b = true <-> exists k v p, In (k, v) (iter m) /\ covers k p /\ covers q p).
  Proof.
    intros m q R Vq. destruct (map_overlaps_spec m q (reachable_WF m R) Vq) as (b & E & Hb).
    exists b. split; [exact E|]. rewrite Hb. clear. unfold overlap. firstorder.
  Qed.

  (** The hypotheses are met, non-trivially. *)
  Example C05_example : map_overlaps ex_map (5 --> 5) = Val false /\ map_overlaps ex_map (5 --> 6) = Val true.
  Proof. vm_compute. auto. Qed.

  (** ** C06 *)
  Theorem C06_contains_interval : forall m q, reachable m -> valid q ->
    exists b, map_contains_interval m q = Val b /\
      (b = true <-> forall p, covers q p -> covered (iter m) p).
  Proof. intros m q R Vq. apply map_contains_interval_spec; [apply reachable_WF, R|exact Vq|apply quiet_at_FI]. Qed.

  (** The hypotheses are met, non-trivially. *)
  Example C06_example : map_contains_interval ex_map (6 --> 9) = Val true /\
    map_contains_interval ex_map (4 --> 6) = Val false.
  Proof. vm_compute. auto. Qed.

  (** ** C07 *)
  Theorem C07_gaps_untrimmed : forall m q, reachable m -> valid q ->
    exists gl, gaps_untrimmed m q = Val gl /\
      lists_max_runs (fun p => ~ covered (iter m) p) (fun g => overlap g q) gl.
  Proof. intros m q R Vq. apply gaps_untrimmed_spec; [apply reachable_WF, R|exact Vq|apply quiet_at_FI]. Qed.

  (** The hypotheses are met, non-trivially. *)
  Example C07_example : gaps_untrimmed ex_map (5 --> 25) = Val [5 --> 5; 10 --> 19] /\
    gaps_untrimmed ex_map (1 --> 255) = Val [0 --> 1; 5 --> 5; 10 --> 19; 31 --> 255].
  Proof. vm_compute. auto. Qed.

  (** ** C08 *)
  Theorem C08_gaps_trimmed : forall m q, reachable m -> valid q ->
    exists tl, gaps_trimmed m q = Val tl /\
      lists_max_runs (fun p => ~ covered (iter m) p /\ covers q p) (fun _ => True) tl /\
      (forall p, covers q p -> (~ covered (iter m) p <-> exists t, In t tl /\ covers t p)).
  Proof.
    intros m q R Vq. destruct (gaps_trimmed_spec m q (reachable_WF m R) Vq (quiet_at_FI m q)) as (tl & E & Hl).
    destruct (gaps_trimmed_points m q (reachable_WF m R) Vq (quiet_at_FI m q)) as (tl' & E' & Hp).
    rewrite E in E'. injection E' as <-. exists tl. auto.
  Qed.
  Theorem C08_trimmed_is_untrimmed_cut_to_query : forall m q, reachable m -> valid q ->
    exists gl tl, gaps_untrimmed m q = Val gl /\ gaps_trimmed m q = Val tl /\
      Forall2 (fun g t => forall p, covers t p <-> covers g p /\ covers q p) gl tl.
  Proof. intros m q R Vq. apply gaps_trimmed_untrimmed; [apply reachable_WF, R|exact Vq|apply quiet_at_FI]. Qed.

  (** The hypotheses are met, non-trivially. *)
  Example C08_example : gaps_trimmed ex_map (1 --> 12) = Val [1 --> 1; 5 --> 5; 10 --> 12].
  Proof. vm_compute. auto. Qed.

  (** ** C09 *)
  Theorem C09_insert_strict_refused : forall m k v, reachable m -> valid k ->
    (exists k' v', In (k', v') (iter m) /\ overlap k' k) -> insert_strict k v m = (m, Val (Err v)).
  Proof. intros m k v R. apply insert_strict_refused, reachable_WF, R. Qed.
  Theorem C09_insert_strict_done : forall m k v, reachable m -> valid k ->
    ~ (exists k' v', In (k', v') (iter m) /\ overlap k' k) ->
    exists m' l1 l2, insert_strict k v m = (m', Val (Ok tt)) /\
      iter m = l1 ++ l2 /\ iter m' = l1 ++ (k, v) :: l2.
  Proof.
    intros m k v R Vk Hn. destruct (insert_strict_done m k v (reachable_WF m R) Vk) as (l1 & l2 & E1 & E2 & _).
    - intros k' v' Hin Ho. apply Hn. exists k', v'. auto.
    - exists (l1 ++ (k, v) :: l2), l1, l2. auto.
  Qed.

  (** The hypotheses are met, non-trivially. *)
  Example C09_example : insert_strict (9 --> 21) 4 ex_map = (ex_map, Val (Err 4)) /\
    snd (insert_strict (10 --> 19) 4 ex_map) = Val (Ok tt).
  Proof. vm_compute. auto. Qed.

  (** ** C10 *)
  Theorem C10_insert_overwrite : forall m k v, reachable m -> valid k ->
    exists m' out, insert_overwrite k v m = (m', Val out) /\
      snd (cut k m) = Val out /\
      (forall e, In e (iter m') <-> e = (k, v) \/ In e (iter (fst (cut k m)))) /\
      (forall p w, maps_to (iter m') p w <->
                   (covers k p /\ w = v) \/ (~ covers k p /\ maps_to (iter m) p w)).
  Proof.
    intros m k v R Vk. destruct (insert_overwrite_spec m k v (reachable_WF m R) Vk) as (m' & out & E & E' & _ & _ & H1 & H2).
    exists m', out. auto.
  Qed.

  (** The hypotheses are met, non-trivially. *)
  Example C10_example : insert_overwrite (4 --> 25) 9 ex_map =
    ([(2 --> 3, 1); (4 --> 25, 9); (26 --> 30, 3)],
     Val [(4 --> 4, 1); (6 --> 7, 2); (8 --> 9, 2); (20 --> 25, 3)]).
  Proof. vm_compute. reflexivity. Qed.

  (** ** C11 *)
  (** What is yielded. *)
  Theorem C11_cut_yields : forall m q, reachable m -> valid q ->
    exists m' out, cut q m = (m', Val out) /\
      exists o, sub (fun e => overlap (fst e) q) (iter m) o /\
        Forall2 (fun e i => snd i = snd e /\
                   forall p, covers (fst i) p <-> covers (fst e) p /\ covers q p) o out.
  Proof.
    intros m q R Vq. destruct (cut_entries m q (reachable_WF m R) Vq) as (m' & out & E & _ & Ho & _).
    exists m', out. auto.
  Qed.
  (** What is left, point by point and entry by entry. *)
  Theorem C11_cut_leaves : forall m q, reachable m -> valid q ->
    exists m' out, cut q m = (m', Val out) /\
      (forall p v, maps_to (iter m') p v <-> maps_to (iter m) p v /\ ~ covers q p) /\
      (forall k' v, In (k', v) (iter m') ->
         exists k, In (k, v) (iter m) /\ (~ overlap k q -> k' = k) /\
                   max_run (fun p => covers k p /\ ~ covers q p) k') /\
      (forall k v, In (k, v) (iter m) ->
         (~ overlap k q -> In (k, v) (iter m')) /\
         forall j : Interval I, max_run (fun p => covers k p /\ ~ covers q p) j ->
           exists k', In (k', v) (iter m') /\ same_points k' j).
  Proof.
    intros m q R Vq. destruct (cut_entries m q (reachable_WF m R) Vq) as (m' & out & E & _ & _ & H1 & H2 & H3).
    exists m', out. auto.
  Qed.

  (** The hypotheses are met, non-trivially. *)
  Example C11_example : cut (22 --> 24) ex_map =
    ([(2 --> 4, 1); (6 --> 7, 2); (8 --> 9, 2); (20 --> 21, 3); (25 --> 30, 3)], Val [(22 --> 24, 3)]).
  Proof. vm_compute. reflexivity. Qed.

  (** ** C12 *)
  Theorem C12_remove_overlapping : forall m q, reachable m -> valid q ->
    exists m' removed, remove_overlapping q m = (m', Val removed) /\
      sub (fun e => overlap (fst e) q) (iter m) removed /\
      sub (fun e => ~ overlap (fst e) q) (iter m) (iter m').
  Proof.
    intros m q R Vq. destruct (remove_overlapping_spec m q (reachable_WF m R) Vq) as (m' & o & E & H1 & H2 & _).
    exists m', o. auto.
  Qed.

  (** The hypotheses are met, non-trivially. *)
  Example C12_example : remove_overlapping (4 --> 6) ex_map =
    ([(8 --> 9, 2); (20 --> 30, 3)], Val [(2 --> 4, 1); (6 --> 7, 2)]).
  Proof. vm_compute. reflexivity. Qed.

  (** ** C13 *)
  Theorem C13_insert_merge_touching_refused : forall m k v, reachable m -> valid k ->
    (exists k' v', In (k', v') (iter m) /\ overlap k' k) -> insert_merge_touching k v m = (m, Val (Err v)).
  Proof. intros m k v R. apply insert_merge_touching_refused, reachable_WF, R. Qed.
  Theorem C13_insert_merge_touching_done : forall m k v, reachable m -> valid k ->
    ~ (exists k' v', In (k', v') (iter m) /\ overlap k' k) ->
    exists m' r, insert_merge_touching k v m = (m', Val (Ok r)) /\
      absorbs (fun e => touch (fst e) k) k v (iter m) (iter m') r.
  Proof.
    intros m k v R Vk Hn. destruct (insert_merge_touching_done m k v (reachable_WF m R) Vk) as (m' & r & E & _ & Ha).
    - intros k' v' Hin Ho. apply Hn. exists k', v'. auto.
    - exists m', r. auto.
  Qed.

  (** The hypotheses are met, non-trivially. *)
  Example C13_example : insert_merge_touching (5 --> 5) 9 ex_map =
    ([(2 --> 7, 9); (8 --> 9, 2); (20 --> 30, 3)], Val (Ok (2 --> 7))).
  Proof. vm_compute. reflexivity. Qed.

  (** ** C14 *)
  Theorem C14_insert_merge_touching_if_values_equal_refused : forall veq m k v, reachable m -> valid k ->
    (exists k' v', In (k', v') (iter m) /\ overlap k' k) ->
    insert_merge_touching_if_values_equal veq k v m = (m, Val (Err v)).
  Proof. intros veq m k v R. apply insert_merge_touching_if_equal_refused, reachable_WF, R. Qed.
  Theorem C14_insert_merge_touching_if_values_equal_done : forall veq m k v, reachable m -> valid k ->
    ~ (exists k' v', In (k', v') (iter m) /\ overlap k' k) ->
    exists m' r, insert_merge_touching_if_values_equal veq k v m = (m', Val (Ok r)) /\
      absorbs (fun e => touch (fst e) k /\ veq (snd e) v = true) k v (iter m) (iter m') r.
  Proof.
    intros veq m k v R Vk Hn.
    destruct (insert_merge_touching_if_equal_done veq m k v (reachable_WF m R) Vk) as (m' & r & E & _ & Ha).
    - intros k' v' Hin Ho. apply Hn. exists k', v'. auto.
    - exists m', r. auto.
  Qed.

  (** The hypotheses are met, non-trivially. *)
  Example C14_example : insert_merge_touching_if_values_equal Nat.eqb (5 --> 5) 2 ex_map =
    ([(2 --> 4, 1); (5 --> 7, 2); (8 --> 9, 2); (20 --> 30, 3)], Val (Ok (5 --> 7))).
  Proof. vm_compute. reflexivity. Qed.

  (** ** C15 *)
  Theorem C15_insert_merge_overlapping : forall m k v, reachable m -> valid k ->
    exists m' r, insert_merge_overlapping k v m = (m', Val r) /\
      absorbs (fun e => overlap (fst e) k) k v (iter m) (iter m') r.
  Proof.
    intros m k v R Vk. destruct (insert_merge_overlapping_spec m k v (reachable_WF m R) Vk) as (m' & r & E & _ & Ha).
    exists m', r. auto.
  Qed.

  (** The hypotheses are met, non-trivially. *)
  Example C15_example : insert_merge_overlapping (7 --> 19) 9 ex_map =
    ([(2 --> 4, 1); (6 --> 19, 9); (20 --> 30, 3)], Val (6 --> 19)).
  Proof. vm_compute. reflexivity. Qed.

  (** ** C16 *)
  Theorem C16_insert_merge_touching_or_overlapping : forall m k v, reachable m -> valid k ->
    exists m' r, insert_merge_touching_or_overlapping k v m = (m', Val r) /\
      absorbs (fun e => touch (fst e) k \/ overlap (fst e) k) k v (iter m) (iter m') r.
  Proof.
    intros m k v R Vk.
    destruct (insert_merge_touching_or_overlapping_spec m k v (reachable_WF m R) Vk) as (m' & r & E & _ & Ha).
    exists m', r. auto.
  Qed.

  (** The hypotheses are met, non-trivially. *)
  Example C16_example : insert_merge_touching_or_overlapping (7 --> 19) 9 ex_map =
    ([(2 --> 4, 1); (6 --> 30, 9)], Val (6 --> 30)).
  Proof. vm_compute. reflexivity. Qed.

  (** ** C18 *)
  Theorem C18_insertions_panic_iff_invalid : forall m k v veq, reachable m ->
    (snd (insert_strict k v m) = Panic <-> ~ valid k) /\
    (snd (insert_overwrite k v m) = Panic <-> ~ valid k) /\
    (snd (insert_merge_touching k v m) = Panic <-> ~ valid k) /\
    (snd (insert_merge_touching_if_values_equal veq k v m) = Panic <-> ~ valid k) /\
    (snd (insert_merge_overlapping k v m) = Panic <-> ~ valid k) /\
    (snd (insert_merge_touching_or_overlapping k v m) = Panic <-> ~ valid k).
  Proof.
    intros m k v veq R. pose proof (reachable_WF m R) as W. repeat split;
      try (intros Nk; first [rewrite insert_strict_invalid by exact Nk | rewrite insert_overwrite_invalid by exact Nk
        | rewrite insert_merge_touching_invalid by exact Nk | rewrite insert_merge_touching_if_equal_invalid by exact Nk
        | rewrite insert_merge_overlapping_invalid by exact Nk | rewrite insert_merge_tor_invalid by exact Nk];
        reflexivity);
      intros E Vk; revert E.
    - destruct (overlap_dec m k W Vk) as [Ho|Hn].
      + rewrite insert_strict_refused by assumption. discriminate.
      + destruct (insert_strict_done m k v W Vk Hn) as (l1 & l2 & _ & E & _). rewrite E. discriminate.
    - destruct (insert_overwrite_spec m k v W Vk) as (m' & out & E & _). rewrite E. discriminate.
    - destruct (overlap_dec m k W Vk) as [Ho|Hn].
      + rewrite insert_merge_touching_refused by assumption. discriminate.
      + destruct (insert_merge_touching_done m k v W Vk Hn) as (m' & r & E & _). rewrite E. discriminate.
    - destruct (overlap_dec m k W Vk) as [Ho|Hn].
      + rewrite insert_merge_touching_if_equal_refused by assumption. discriminate.
      + destruct (insert_merge_touching_if_equal_done veq m k v W Vk Hn) as (m' & r & E & _). rewrite E. discriminate.
    - destruct (insert_merge_overlapping_spec m k v W Vk) as (m' & r & E & _). rewrite E. discriminate.
    - destruct (insert_merge_touching_or_overlapping_spec m k v W Vk) as (m' & r & E & _). rewrite E. discriminate.
  Qed.
  Theorem C18_insertions_panic_leave_map_unchanged : forall m k v veq, reachable m -> ~ valid k ->
    fst (insert_strict k v m) = m /\
    fst (insert_overwrite k v m) = m /\
    fst (insert_merge_touching k v m) = m /\
    fst (insert_merge_touching_if_values_equal veq k v m) = m /\
    fst (insert_merge_overlapping k v m) = m /\
    fst (insert_merge_touching_or_overlapping k v m) = m.
  Proof.
    intros m k v veq R Nk.
    rewrite insert_strict_invalid, insert_overwrite_invalid, insert_merge_touching_invalid,
      insert_merge_touching_if_equal_invalid, insert_merge_overlapping_invalid, insert_merge_tor_invalid
      by exact Nk. auto 6.
  Qed.
  Theorem C18_removals_panic_iff_invalid : forall m q f, reachable m ->
    (snd (cut q m) = Panic <-> ~ valid q) /\
    (snd (remove_overlapping q m) = Panic <-> ~ valid q) /\
    (snd (overlapping_mut f q m) = Panic <-> ~ valid q).
  Proof.
    intros m q f R. pose proof (reachable_WF m R) as W. repeat split;
      try (intros Nk; first [rewrite cut_invalid by exact Nk | rewrite remove_overlapping_invalid by exact Nk
        | rewrite overlapping_mut_invalid by exact Nk]; reflexivity);
      intros E Vk; revert E.
    - destruct (cut_entries m q W Vk) as (m' & out & E & _). rewrite E. discriminate.
    - destruct (remove_overlapping_spec m q W Vk) as (m' & out & E & _). rewrite E. discriminate.
    - destruct (overlapping_mut_spec f q m W Vk) as (m' & E & _). rewrite E. discriminate.
  Qed.
  Theorem C18_removals_panic_leave_map_unchanged : forall m q f, reachable m -> ~ valid q ->
    fst (cut q m) = m /\ fst (remove_overlapping q m) = m /\ fst (overlapping_mut f q m) = m.
  Proof.
    intros m q f R Nq. rewrite cut_invalid, remove_overlapping_invalid, overlapping_mut_invalid by exact Nq. auto.
  Qed.
  Theorem C18_queries_panic_iff_invalid : forall m q, reachable m ->
    (overlapping m q = Panic <-> ~ valid q) /\
    (map_overlaps m q = Panic <-> ~ valid q) /\
    (gaps_untrimmed m q = Panic <-> ~ valid q) /\
    (gaps_trimmed m q = Panic <-> ~ valid q) /\
    (map_contains_interval m q = Panic <-> ~ valid q).
  Proof.
    intros m q R. pose proof (reachable_WF m R) as W. repeat split;
      try (intros Nk; first [rewrite overlapping_invalid by exact Nk | rewrite map_overlaps_invalid by exact Nk
        | rewrite gaps_untrimmed_invalid by exact Nk | rewrite gaps_trimmed_invalid by exact Nk
        | rewrite map_contains_interval_invalid by exact Nk]; reflexivity);
      intros E Vk; revert E.
    - destruct (overlapping_spec m q W Vk) as (l & E & _). rewrite E. discriminate.
    - destruct (map_overlaps_spec m q W Vk) as (l & E & _). rewrite E. discriminate.
    - apply (gaps_total m q W Vk).
    - apply (gaps_total m q W Vk).
    - apply (gaps_total m q W Vk).
  Qed.
  Theorem C18_point_methods_never_panic : forall m p, reachable m ->
    get_at_point m p <> Panic /\ get_key_value_at_point m p <> Panic /\ map_contains_point m p <> Panic.
  Proof.
    intros m p R. pose proof (reachable_WF m R) as W.
    assert (G : get_key_value_at_point m p <> Panic).
    { destruct (covered_dec m p W) as [(k & v & Hk)|Hn].
      - apply (get_key_value_at_point_Ok m p W) in Hk. rewrite Hk. discriminate.
      - destruct (get_key_value_at_point_Err m p W Hn) as (g & E & _). rewrite E. discriminate. }
    unfold get_at_point, map_contains_point. destruct (get_key_value_at_point m p); cbn; intuition discriminate.
  Qed.

  (** The hypotheses are met, non-trivially. *)
  Example C18_example : ~ valid (9 --> 7 : Interval u8) /\ snd (cut (9 --> 7 : Interval u8) ex_map) = Panic.
  Proof.
    split; [apply ex_invalid|]; vm_compute; reflexivity.
  Qed.

  (** ** C19 *)
  Theorem C19_accepts_iff_disjoint : forall l : list (K * V),
    (exists m, from_iter_strict l = Val (Ok m)) <-> disjoint_intervals (map fst l).
  Proof. exact from_iter_strict_Ok. Qed.
  Theorem C19_result_holds_exactly_the_entries : forall (l : list (K * V)) m,
    from_iter_strict l = Val (Ok m) -> Permutation l (iter m) /\ ascending (map fst (iter m)).
  Proof.
    intros l m E. destruct (from_iter_strict_entries l m E) as [W P]. split; [exact P|]. apply ascending_WF, W.
  Qed.
  Theorem C19_order_irrelevant : forall (l l' : list (K * V)) m, Permutation l l' ->
    from_iter_strict l = Val (Ok m) -> from_iter_strict l' = Val (Ok m).
  Proof. exact from_iter_strict_perm. Qed.
  Theorem C19_error_is_first_clash : forall (l : list (K * V)) v,
    from_iter_strict l = Val (Err v) <->
    exists l1 k l2, l = l1 ++ (k, v) :: l2 /\ disjoint_intervals (map fst l1) /\ valid k /\
      exists k', In k' (map fst l1) /\ overlap k' k.
  Proof. exact from_iter_strict_Err. Qed.
  Theorem C19_panic_is_first_invalid : forall l : list (K * V),
    from_iter_strict l = Panic <->
    exists l1 k v l2, l = l1 ++ (k, v) :: l2 /\ disjoint_intervals (map fst l1) /\ ~ valid k.
  Proof. exact from_iter_strict_Panic. Qed.
  Theorem C19_from_slice_strict_same : forall l : list (K * V), from_slice_strict l = from_iter_strict l.
  Proof. reflexivity. Qed.

  (** The hypotheses are met, non-trivially. *)
  Example C19_example :
    from_iter_strict [(6 --> 7, 1); (1 --> 2, 0); (3 --> 4, 2)] =
      Val (Ok [(1 --> 2, 0); (3 --> 4, 2); (6 --> 7, 1)] : result (NoditMap (Interval u8) nat) nat) /\
    from_iter_strict [(6 --> 7 : Interval u8, 1); (1 --> 2, 0); (2 --> 6, 2); (1 --> 1, 3)] = Val (Err 2).
  Proof. vm_compute. auto. Qed.

  (** ** C20 *)
  Theorem C20_len_is_empty_iter : forall m,
    len m = length (iter m) /\ (is_empty m = true <-> iter m = []) /\ into_iter m = iter m.
  Proof. intros [|e m]; (split; [reflexivity|]; split; [|reflexivity]); cbn; split; (reflexivity || discriminate). Qed.
  Theorem C20_first_key_value : forall m, reachable m ->
    (forall e, first_key_value m = Some e <->
       In e (iter m) /\ forall e', In e' (iter m) -> e' = e \/ before (fst e) (fst e')) /\
    first_key_value m = hd_error (iter m).
  Proof.
    intros m R. split; [intros e; apply first_key_value_spec, reachable_WF, R|]. destruct m; reflexivity.
  Qed.
  Theorem C20_last_key_value : forall m, reachable m ->
    (forall e, last_key_value m = Some e <->
       In e (iter m) /\ forall e', In e' (iter m) -> e' = e \/ before (fst e') (fst e)) /\
    (last_key_value m = None <-> iter m = []).
  Proof.
    intros m R. split; [intros e; apply last_key_value_spec, reachable_WF, R|apply last_none].
  Qed.

  (** The hypotheses are met, non-trivially. *)
  Example C20_example : first_key_value ex_map = Some (2 --> 4, 1) /\ last_key_value ex_map = Some (20 --> 30, 3) /\
    len ex_map = 4.
  Proof. vm_compute. auto. Qed.

  (** ** C21 *)
  Theorem C21_iter_mut : forall m f,
    Forall2 (fun e e' => fst e' = fst e /\ snd e' = f (fst e) (snd e)) (iter m) (iter (iter_mut f m)).
  Proof.
    intros m f. unfold iter_mut, map_values, iter. induction m as [|[k v] m IH]; cbn; constructor; auto.
  Qed.
  Theorem C21_overlapping_mut : forall m f q, reachable m -> valid q ->
    exists m', overlapping_mut f q m = (m', Val tt) /\
      Forall2 (fun e e' => fst e' = fst e /\
                 (overlap (fst e) q -> snd e' = f (fst e) (snd e)) /\
                 (~ overlap (fst e) q -> snd e' = snd e)) (iter m) (iter m').
  Proof. intros m f q R. apply overlapping_mut_spec, reachable_WF, R. Qed.
  Theorem C21_get_at_point_mut : forall m f p, reachable m ->
    exists m' o, get_at_point_mut f p m = (m', o) /\
      (forall v, o = Some v <-> maps_to (iter m) p v) /\
      Forall2 (fun e e' => fst e' = fst e /\
                 (covers (fst e) p -> snd e' = f (snd e)) /\
                 (~ covers (fst e) p -> snd e' = snd e)) (iter m) (iter m').
  Proof. intros m f p R. apply get_at_point_mut_spec, reachable_WF, R. Qed.

  (** The hypotheses are met, non-trivially. *)
  Example C21_example : overlapping_mut (fun _ x => x + 10) (4 --> 6) ex_map =
    ([(2 --> 4, 11); (6 --> 7, 12); (8 --> 9, 2); (20 --> 30, 3)], Val tt).
  Proof. vm_compute. reflexivity. Qed.

  (** ** C22 *)
  Theorem C22_round_trip : forall m, reachable m ->
    snd (serialize m) = iter m /\ fst (serialize m) = length (iter m) /\
    deserialize (map Some (snd (serialize m))) = Val (Ok m).
  Proof.
    intros m R. split; [reflexivity|]. split; [reflexivity|].
    unfold deserialize. apply (visit_seq_rebuild m []). apply reachable_WF, R.
  Qed.
  Theorem C22_accepts_iff_disjoint : forall (es : list (option (K * V))) m,
    deserialize es = Val (Ok m) <->
    exists l, es = map Some l /\ disjoint_intervals (map fst l) /\
              Permutation l (iter m) /\ ascending (map fst (iter m)).
  Proof. exact deserialize_Ok. Qed.
  Theorem C22_rejects : forall es : list (option (K * V)),
    (forall k v, In (Some (k, v)) es -> valid k) ->
    ~ (exists l, es = map Some l /\ disjoint_intervals (map fst l)) ->
    exists e, deserialize es = Val (Err e).
  Proof. exact deserialize_rejects. Qed.
  Theorem C22_panics_iff_first_bad_is_invalid : forall es : list (option (K * V)),
    deserialize es = Panic <->
    exists l k v es', es = map Some l ++ Some (k, v) :: es' /\ disjoint_intervals (map fst l) /\ ~ valid k.
  Proof. exact deserialize_Panic. Qed.

  (** The hypotheses are met, non-trivially. *)
  Example C22_example :
    deserialize (map Some (snd (serialize ex_map))) = Val (Ok ex_map) /\
    deserialize [Some (1 --> 2 : Interval u8, 0); Some (2 --> 3, 1)] = Val (Err DeOverlap).
  Proof. vm_compute. auto. Qed.

  (** ** C31 *)
  Theorem C31_overlapping_and_gaps_tile_the_query : forall m q, reachable m -> valid q ->
    exists ol gl, overlapping m q = Val ol /\ gaps_trimmed m q = Val gl /\
      disjoint_intervals (map fst ol ++ gl) /\
      (forall p, covers q p -> exists j, In j (map fst ol ++ gl) /\ covers j p) /\
      (forall j, In j (map fst ol) -> overlap j q) /\
      (forall j p, In j gl -> covers j p -> covers q p).
  Proof. intros m q R. apply tiling, reachable_WF, R. Qed.

  (** The hypotheses are met, non-trivially. *)
  Example C31_example : overlapping ex_map (4 --> 10) = Val [(2 --> 4, 1); (6 --> 7, 2); (8 --> 9, 2)] /\
    gaps_trimmed ex_map (4 --> 10) = Val [5 --> 5; 10 --> 10].
  Proof. vm_compute. auto. Qed.

  (** ** C56 *)
  Theorem C56_cut_idempotent : forall m q, reachable m -> valid q ->
    cut q (fst (cut q m)) = (fst (cut q m), Val []).
  Proof. intros m q R. apply cut_idempotent, reachable_WF, R. Qed.
  Theorem C56_cut_restore : forall m q, reachable m -> valid q ->
    exists m' out, cut q m = (m', Val out) /\
      forall l, Permutation out l ->
      exists m'', insert_each l m' = Some m'' /\
        forall p, get_at_point m'' p = get_at_point m p.
  Proof.
    intros m q R Vq. pose proof (reachable_WF m R) as W.
    destruct (cut_restore m q W Vq) as (m' & out & E & Hl). exists m', out. split; [exact E|].
    intros l P. destruct (Hl l P) as (m'' & E' & W'' & S). exists m''.
    split; [apply insert_each_extend, E'|]. intros p.
    destruct (get_at_point_cases m p W) as [(v & Hv & Ev & _)|(Hn & En & _)].
    - rewrite Ev. apply (get_at_point_Some m'' p v W''), S, Hv.
    - rewrite En. apply (get_at_point_None m'' p W''). rewrite covered_maps_to in *. intros (v & Hv).
      apply Hn. exists v. apply S, Hv.
  Qed.
  (** The hypotheses are met, non-trivially. *)
  Example C56_example : exists left out, cut (3 --> 25) ex_map = (left, Val out) /\ length out = 4 /\
    insert_each (rev out) left = Some ([(2 --> 2, 1); (3 --> 4, 1); (6 --> 7, 2); (8 --> 9, 2); (20 --> 25, 3); (26 --> 30, 3)]
      : NoditMap (Interval u8) nat).
  Proof. eexists _, _. split; [vm_compute; reflexivity|]. vm_compute. auto. Qed.

End Props.

Section Commute.
  Context {I : Type} `{PL : PointLaws I}.
  Context {K : Type} {IK : InclusiveInterval I K} {IL : IntervalLaws I K} {FI : FromInvalid I K}.
  Context {Q : Type} {IQ : InclusiveInterval I Q}.
  Context {R : Type} {IR : InclusiveInterval I R}.
  Context {V : Type}.
  (** The map after two cuts does not depend on their order (even if they
      overlap), and for disjoint ones neither do the pieces. *)
  Theorem C56_cuts_commute : forall {OL : OrdLaws I} (m : NoditMap K V) (q : Q) (r : R), reachable m -> valid q -> valid r ->
    fst (cut r (fst (cut q m))) = fst (cut q (fst (cut r m))).
  Proof. intros OL m q r Hm. apply cut_commute, reachable_WF, Hm. Qed.
  Theorem C56_disjoint_cuts_yield_the_same : forall {OL : OrdLaws I} (m : NoditMap K V) (q : Q) (r : R),
    reachable m -> valid q -> valid r -> ~ overlap q r ->
    snd (cut q (fst (cut r m))) = snd (cut q m).
  Proof. intros OL m q r Hm. apply cut_other_pieces, reachable_WF, Hm. Qed.
End Commute.

(** C22's remaining claim, that deserialization never panics, is false: a
    serialized interval may have its start after its end (see also C55), and
    [visit_seq] feeds it to [insert_strict]. *)
Theorem C58_deserialize_never_panics_refuted :
  exists es : list (option (Interval u8 * nat)), deserialize es = Panic.
Proof. exists [Some (5 --> 2, 0)]. vm_compute. reflexivity. Qed.
(** The strongest true form. *)
Theorem C58_deserialize_never_panics_partial :
  forall {I} `{PL : PointLaws I} {K} {IK : InclusiveInterval I K} {IL : IntervalLaws I K} {V}
    (es : list (option (K * V))),
  (forall k v, In (Some (k, v)) es -> valid k) -> deserialize es <> Panic.
Proof.
  intros I O D PL K IK IL V es HV E. apply deserialize_Panic in E.
  destruct E as (l & k & v & es' & -> & _ & Hk). apply Hk, (HV k v), in_app_iff. right. left. reflexivity.
Qed.
(** Valid intervals in any order, overlapping ones and elements that do not parse. *)
Example C58_example :
  let es := [Some (5 --> 7, 0); Some (1 --> 2, 1)] : list (option (Interval u8 * nat)) in
  (forall k v, In (Some (k, v)) (es ++ [Some (7 --> 9, 2); None]) -> valid k) /\
  deserialize es = Val (Ok [(1 --> 2, 1); (5 --> 7, 0)]) /\
  deserialize (es ++ [Some (7 --> 9, 2)]) = Val (Err DeOverlap) /\ deserialize (es ++ [None]) <> Panic.
Proof.
  cbv zeta. split; [|vm_compute; repeat split; discriminate].
  intros k v Hi. cbn in Hi. destruct Hi as [E|[E|[E|[E|[]]]]]; inversion E; subst.
  - exists '6. split; vm_compute; discriminate.
  - exists '1. split; vm_compute; discriminate.
  - exists '8. split; vm_compute; discriminate.
Qed.

Print Assumptions C01_entries_ascending_disjoint.
Print Assumptions C01_every_ascending_list_is_reachable.
Print Assumptions C02_get_key_value_at_point.
Print Assumptions C02_get_at_point_Some.
Print Assumptions C02_get_at_point_None.
Print Assumptions C02_contains_point.
Print Assumptions C02_one_entry.
Print Assumptions C03_maximal_gap_at_point.
Print Assumptions C04_overlapping.
Print Assumptions C05_overlaps.
Print Assumptions C06_contains_interval.
Print Assumptions C07_gaps_untrimmed.
Print Assumptions C08_gaps_trimmed.
Print Assumptions C08_trimmed_is_untrimmed_cut_to_query.
Print Assumptions C09_insert_strict_refused.
Print Assumptions C09_insert_strict_done.
Print Assumptions C10_insert_overwrite.
Print Assumptions C11_cut_yields.
Print Assumptions C11_cut_leaves.
Print Assumptions C12_remove_overlapping.
Print Assumptions C13_insert_merge_touching_refused.
Print Assumptions C13_insert_merge_touching_done.
Print Assumptions C14_insert_merge_touching_if_values_equal_refused.
Print Assumptions C14_insert_merge_touching_if_values_equal_done.
Print Assumptions C15_insert_merge_overlapping.
Print Assumptions C16_insert_merge_touching_or_overlapping.
Print Assumptions C18_insertions_panic_iff_invalid.
Print Assumptions C18_insertions_panic_leave_map_unchanged.
Print Assumptions C18_removals_panic_iff_invalid.
Print Assumptions C18_removals_panic_leave_map_unchanged.
Print Assumptions C18_queries_panic_iff_invalid.
Print Assumptions C18_point_methods_never_panic.
Print Assumptions C19_accepts_iff_disjoint.
Print Assumptions C19_result_holds_exactly_the_entries.
Print Assumptions C19_order_irrelevant.
Print Assumptions C19_error_is_first_clash.
Print Assumptions C19_panic_is_first_invalid.
Print Assumptions C19_from_slice_strict_same.
Print Assumptions C20_len_is_empty_iter.
Print Assumptions C20_first_key_value.
Print Assumptions C20_last_key_value.
Print Assumptions C21_iter_mut.
Print Assumptions C21_overlapping_mut.
Print Assumptions C21_get_at_point_mut.
Print Assumptions C22_round_trip.
Print Assumptions C22_accepts_iff_disjoint.
Print Assumptions C22_rejects.
Print Assumptions C22_panics_iff_first_bad_is_invalid.
Print Assumptions C31_overlapping_and_gaps_tile_the_query.
Print Assumptions C56_cut_idempotent.
Print Assumptions C56_cut_restore.
Print Assumptions C56_cuts_commute.
Print Assumptions C56_disjoint_cuts_yield_the_same.
Print Assumptions C58_deserialize_never_panics_refuted.
Print Assumptions C58_deserialize_never_panics_partial.
