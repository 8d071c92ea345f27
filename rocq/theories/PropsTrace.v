(** * PropsTrace: the states in the middle of a call (C92, C93, C94).

    [trace m o], [gtrace g o] and [ztrace z o] list the states the structure goes through
    during the call [o], one after each change of the B-tree.  Wherever user
    code panics, in [V::clone], [V::eq], [K::from], but also in [Ord],
    [InclusiveInterval] or [DiscreteFinite], it leaves one of them. *)
From Coq Require Import List ZArith Bool Lia Sorting.Sorted.
From Verif Require Import Base BTree UtilsModel IntervalModel NoditModel NoditOps ZosditModel ZosditOps GqditModel GqditOps CrashModel TraceModel
  Spec TraceSpec InstancesModel Instances PointFacts IntervalFacts ListFacts NoditFacts NoditQueries NoditInv NoditMore NoditSim
  ZosditFacts ZosditMut ZosditProofs CrashZosdit TraceZosdit GqditFacts GqditProofs GqditGaps CrashFacts CrashProofs CrashGqdit TraceFacts TraceGqdit PropsNodit PropsGqdit.
Import ListNotations.
Open Scope nat_scope.

Section Nodit.
  Context {I : Type} `{PL : PointLaws I}.
  Context {K : Type} {IK : InclusiveInterval I K} {IL : IntervalLaws I K}.
  Context {V : Type}.
  Implicit Types (m s : NoditMap K V) (o : op I K V).

  (** ** C92 *)
  (** The trace leads from the state before the call to the state after it, ... *)
  Theorem C92_from_before_to_after : forall m o, reachable m ->
    (exists r, trace m o = m :: r) /\ last (trace m o) m = step m o.
  Proof. intros m o R. apply trace_ends, reachable_WF, R. Qed.
  (** ... inserting or removing one entry at a time. *)
  Theorem C92_one_entry_at_a_time : forall m o, reachable m -> by_entries o ->
    forall a s s' b, trace m o = a ++ s :: s' :: b -> one_entry (iter s) (iter s').
  Proof. intros m o R B. apply (path_adj _ _ m (step m o)), traced_any; [apply reachable_WF, R|exact B]. Qed.
  (** Every state on the way is a valid map: some calls that return build it. *)
  Theorem C92_every_state_valid : forall m o s, reachable m -> In s (trace m o) ->
    reachable s /\ ascending (map fst (iter s)) /\ Forall valid (map fst (iter s)).
  Proof.
    intros m o s R Hs. pose proof (trace_WF o m s (reachable_WF m R) Hs) as W.
    split; [apply WF_reachable, W|]. apply ascending_WF, W.
  Qed.
  (** No point has a value it has neither before nor after the call. *)
  Theorem C92_no_new_values : forall m o s, reachable m -> In s (trace m o) ->
    forall p v, maps_to s p v -> maps_to m p v \/ maps_to (step m o) p v.
  Proof. intros m o s R Hs. apply (trace_mid o m s (reachable_WF m R) Hs). Qed.
  (** The entries the call is not about are there all the time. *)
  Theorem C92_other_entries_stay : forall m o s, reachable m -> In s (trace m o) ->
    forall e, In e (iter m) -> ~ about o e -> In e (iter s).
  Proof. intros m o s R Hs. apply (trace_mid o m s (reachable_WF m R) Hs). Qed.
  (** The states left by the panics of C69-C71 are among them. *)
  Theorem C92_crash_points_are_traced : forall m o f, reachable m -> In (step_c m o f) (trace m o).
  Proof. intros m o f R. apply step_c_traced, reachable_WF, R. Qed.
  (** A caller may catch such a panic after every call and go on. *)
  Theorem C92_histories_included : forall os : list (op I K V), interrupted_history os (run os).
  Proof.
    intros os. induction os as [|o os IH] using rev_ind; [constructor|].
    unfold run. rewrite fold_left_app. apply (interrupted_call os (run os) o); [exact IH|].
    apply trace_last_in, reachable_WF. exists os. reflexivity.
  Qed.
  Theorem C92_interrupted_histories : forall os m, interrupted_history os m -> reachable m.
  Proof. intros os m X. apply WF_reachable, (interrupted_WF os m X). Qed.
End Nodit.

Section Gqdit.
  Context {I : Type} `{PL : PointLaws I}.
  Context {K : Type} {IK : InclusiveInterval I K} {IL : IntervalLaws I K}.
  Context {Q : Type} {IQ : InclusiveInterval I Q}.
  Context {D : Type} {OD : Ord D} {OL : OrdLaws D}.
  Implicit Types (g s : Gqdit K D) (o : gop I K D) (ids : BTreeSet D) (p : I).

  (** ** C93 *)
  (** [ginterrupted_history os g]: [g] is left by the calls [os], each of which
      may have been interrupted anywhere. *)
  Theorem C93_from_before_to_after : forall os g o, ginterrupted_history os g ->
    (exists r, gtrace g o = g :: r) /\ last (gtrace g o) g = gstep o g.
  Proof.
    intros os g o R. destruct (gtrace_path g o (ginterrupted_WF os g R)) as [P _].
    split; [apply (path_head _ _ _ _ P)|apply (path_last _ _ _ _ _ P)].
  Qed.
  Theorem C93_one_entry_at_a_time : forall os g o, ginterrupted_history os g ->
    forall a s s' b, gtrace g o = a ++ s :: s' :: b -> one_entry (iter s) (iter s').
  Proof. intros os g o R. apply (path_adj _ _ g (gstep o g)), gtrace_path, (ginterrupted_WF os g R). Qed.
  Theorem C93_histories_included : forall os : list (gop I K D), ginterrupted_history os (grun os).
  Proof.
    intros os. induction os as [|o os IH] using rev_ind; [constructor|].
    unfold grun, gsteps. rewrite fold_left_app. apply (ginterrupted_call os (grun os) o); [exact IH|].
    apply (path_in_last _ _ _ _ (proj1 (gtrace_path (grun os) o (ginterrupted_WF os _ IH)))).
  Qed.
  (** The intervals of the inner map are valid and ascending all the time. *)
  Theorem C93_every_state_ordered : forall os g, ginterrupted_history os g ->
    ascending (map fst (iter g)) /\ Forall valid (map fst (iter g)).
  Proof. intros os g R. apply ascending_WF, (ginterrupted_WF os g R). Qed.
  (** During an update of the identifiers in [q], a point has the identifiers it
      had before, none, or (in [q]) the ones it has afterwards. *)
  Theorem C93_insert_states : forall os g ids k s, ginterrupted_history os g -> In s (gqdit_insert_t ids k g) ->
    forall p, identifiers_at_point s p = identifiers_at_point g p \/ identifiers_at_point s p = Val [] \/
      covers k p /\ exists x, identifiers_at_point g p = Val x /\ identifiers_at_point s p = Val (bset_extend x ids).
  Proof.
    intros os g ids k s R Hs. pose proof (ginterrupted_WF os g R) as W.
    apply (partly_ids (fun x => bset_extend x ids) k g s W), (insert_t_any ids k g W), Hs.
  Qed.
  Theorem C93_cut_with_states : forall os g ids (q : Q) s, ginterrupted_history os g -> In s (cut_with_identifiers_t ids q g) ->
    forall p, identifiers_at_point s p = identifiers_at_point g p \/ identifiers_at_point s p = Val [] \/
      covers q p /\ exists x, identifiers_at_point g p = Val x /\
        identifiers_at_point s p = Val (filter (fun i => negb (bset_contains ids i)) x).
  Proof.
    intros os g ids q s R Hs. pose proof (ginterrupted_WF os g R) as W.
    apply (partly_ids (bset_retain (fun i => negb (bset_contains ids i))) q g s W), (cut_with_t_any ids q g W), Hs.
  Qed.
  Theorem C93_cut_all_states : forall os g (q : Q) s, ginterrupted_history os g -> In s (cut_all_identifiers_t q g) ->
    forall p, identifiers_at_point s p = identifiers_at_point g p \/ identifiers_at_point s p = Val [].
  Proof.
    intros os g q s R Hs p. pose proof (ginterrupted_WF os g R) as W.
    destruct (partly_ids (fun _ => bset_empty) q g s W (proj2 (cut_all_t_any q g W) s Hs)) as [X _].
    destruct (X p) as [E|[E|(_ & x & _ & E)]]; auto.
  Qed.
  (** Outside [q] at most one run of points with equal identifiers is lost. *)
  Theorem C93_one_run_lost : forall os g ids k (q : Q), ginterrupted_history os g ->
    (forall s, In s (gqdit_insert_t ids k g) -> exists j : Interval I,
       (forall p p', covers j p -> covers j p' -> ~ covers k p -> ~ covers k p' -> identifiers_at_point g p = identifiers_at_point g p') /\
       (forall p, ~ covers k p -> ~ covers j p -> identifiers_at_point s p = identifiers_at_point g p)) /\
    (forall s, In s (cut_with_identifiers_t ids q g) \/ In s (cut_all_identifiers_t q g) -> exists j : Interval I,
       (forall p p', covers j p -> covers j p' -> ~ covers q p -> ~ covers q p' -> identifiers_at_point g p = identifiers_at_point g p') /\
       (forall p, ~ covers q p -> ~ covers j p -> identifiers_at_point s p = identifiers_at_point g p)).
  Proof.
    intros os g ids k q R. pose proof (ginterrupted_WF os g R) as W. split; [intros s Hs|intros s [Hs|Hs]].
    - apply (partly_ids (fun x => bset_extend x ids) k g s W), (insert_t_any ids k g W), Hs.
    - apply (partly_ids (bset_retain (fun i => negb (bset_contains ids i))) q g s W), (cut_with_t_any ids q g W), Hs.
    - apply (partly_ids (fun _ => bset_empty) q g s W), (cut_all_t_any q g W), Hs.
  Qed.
  (** [append] invents no identifier. *)
  Theorem C93_append_states : forall os g os2 s, ginterrupted_history os g -> In s (gtrace g (GAppend os2)) ->
    forall p d, has_id s p d -> has_id g p d \/ has_id (grun os2) p d.
  Proof. intros os g os2 s R Hs. apply (append_t_any g (grun os2) (ginterrupted_WF os g R) (grun_GWF os2)), Hs. Qed.
  (** The states left by the panics of C74-C76 are among them. *)
  Theorem C93_crash_points_are_traced : forall os g o f, ginterrupted_history os g -> In (gstep_c g o f) (gtrace g o).
  Proof. intros os g o f R. apply gstep_c_traced, (ginterrupted_WF os g R). Qed.
End Gqdit.

Section Zosdit.
  Context {I : Type} `{PL : PointLaws I}.
  Context {K : Type} {IK : InclusiveInterval I K} {IL : IntervalLaws I K}.
  Context {Q : Type} {IQ : InclusiveInterval I Q}.
  Context {V : Type}.
  Implicit Types (z s : ZosditMap K V) (o : zop I K V).

  (** ** C94 *)
  Theorem C94_from_before_to_after : forall z o, (exists r, ztrace z o = z :: r) /\ last (ztrace z o) z = zstep z o.
  Proof. apply ztrace_ends. Qed.
  Theorem C94_histories_included : forall os : list (zop I K V), zinterrupted_history os (zrun os).
  Proof.
    intros os. induction os as [|o os IH] using rev_ind; [constructor|].
    unfold zrun. rewrite fold_left_app. apply (zinterrupted_call os (zrun os) o); [exact IH|]. apply ztrace_last_in.
  Qed.
  (** The entries are valid, ascending and at most zero-overlapping all the time, ... *)
  Theorem C94_every_state_ordered : forall os z, zinterrupted_history os z -> let l := map fst (zosdit_iter z) in
    Forall valid l /\ StronglySorted up_to l /\ ForallOrdPairs zero_overlap l.
  Proof. intros os z X. destruct (iter_sorted z (zinterrupted_ZWF os z X)) as (A & B & _ & C). auto. Qed.
  (** ... [len()] never says less than there is, ... *)
  Theorem C94_len_never_too_small : forall os z, zinterrupted_history os z -> length (zosdit_iter z) <= zosdit_len z.
  Proof. intros os z X. destruct (zinterrupted_ZWF os z X) as (_ & _ & L). exact L. Qed.
  (** ... and the queries answer for the entries there are. *)
  Theorem C94_queries_still_correct : forall os z, zinterrupted_history os z -> forall q : Q, valid q ->
    (exists b, is_zero_overlap z q = Val b /\ (b = true <-> forall e, In e (zosdit_iter z) -> zero_overlap (fst e) q)) /\
    (exists l, zosdit_overlapping z q = Val l /\ sub (fun e => overlap (fst e) q) (zosdit_iter z) l) /\
    zosdit_first_key_value z = hd_error (zosdit_iter z) /\
    zosdit_last_key_value z = hd_error (rev (zosdit_iter z)).
  Proof.
    intros os z X q Vq. pose proof (zinterrupted_ZWF os z X) as W. split; [apply zero_overlap_decides; assumption|].
    split; [apply overlapping_lists; assumption|]. destruct (first_last _ W) as (E1 & E2 & _). auto.
  Qed.
  (** A state in the middle of [cut]: the entries [l1] have been cut, the entries
      [l] of the interval being cut are replaced by some of their parts outside
      [q], all others are as before. *)
  Theorem C94_cut_states : forall os z, zinterrupted_history os z -> forall (q : Q) s, In s (zosdit_cut_t q z) ->
    s = z \/ s = fst (zosdit_cut q z) \/
    exists l0 l1 l l2 ls r, zosdit_iter z = l0 ++ l1 ++ l ++ l2 /\ zosdit_iter s = l0 ++ concat ls ++ r ++ l2 /\
      Forall2 (leaves q) l1 ls /\ Forall (fun e => overlap (fst e) q) (l1 ++ l) /\
      (exists k0, Forall (fun e => fst e = k0) l) /\
      (forall e, In e r -> exists e0, In e0 l /\ snd e = snd e0 /\ forall p, covers (fst e) p -> covers (fst e0) p /\ ~ covers q p).
  Proof.
    intros os z X q s Hs. pose proof (zinterrupted_ZWF os z X) as W.
    destruct (zcut_t_states q z s W Hs) as [E|[E|[Vq E]]]; [auto|auto|]. right. right.
    apply (zstopped_interrupted q z s W Vq E).
  Qed.
  (** The states left by the panics of C71 are among them. *)
  Theorem C94_crash_points_are_traced : forall z o f, In (zstep_c z o f) (ztrace z o).
  Proof. apply zstep_c_traced. Qed.
End Zosdit.

(** ** Examples *)
(** Overwriting 3..=8 takes out 2..=4 and puts 2 back, takes out 6..=7, takes
    out 8..=9 and puts 9 back, and inserts. *)
Definition ex92_op : op u8 (Interval u8) nat := OpInsertOverwrite (3 --> 8) 9.
(** The states before anything is done, after 2..=4 is taken out, after 2 is put
    back, after 6..=7 and after 8..=9 is taken out, after 9 is put back and at
    the end; the others repeat one of these. *)
Example ex92_states : map (fun n => iter (nth n (trace ex_map ex92_op) [])) [0; 2; 3; 6; 10; 12; 14] =
  [[(2 --> 4, 1); (6 --> 7, 2); (8 --> 9, 2); (20 --> 30, 3)];
   [(6 --> 7, 2); (8 --> 9, 2); (20 --> 30, 3)];
   [(2 --> 2, 1); (6 --> 7, 2); (8 --> 9, 2); (20 --> 30, 3)];
   [(2 --> 2, 1); (8 --> 9, 2); (20 --> 30, 3)];
   [(2 --> 2, 1); (20 --> 30, 3)];
   [(2 --> 2, 1); (9 --> 9, 2); (20 --> 30, 3)];
   [(2 --> 2, 1); (3 --> 8, 9); (9 --> 9, 2); (20 --> 30, 3)]].
Proof. vm_compute. reflexivity. Qed.
Example ex92_holds :
  (exists s, In s (trace ex_map ex92_op) /\ iter s = [(6 --> 7, 2); (8 --> 9, 2); (20 --> 30, 3)] /\
     ~ about ex92_op (20 --> 30, 3) /\ reachable s) /\
  by_entries ex92_op /\ interrupted_history (ex_ops ++ [ex92_op]) (nth 2 (trace ex_map ex92_op) []).
Proof.
  assert (N : forall n, n < length (trace ex_map ex92_op) -> In (nth n (trace ex_map ex92_op) []) (trace ex_map ex92_op)).
  { intros n Hn. apply nth_In, Hn. }
  assert (L : 2 < length (trace ex_map ex92_op)) by (vm_compute; lia).
  split; [|split; [exact Logic.I|]].
  - exists (nth 2 (trace ex_map ex92_op) []). split; [apply N, L|]. split; [vm_compute; reflexivity|]. split.
    + intros (p & [A1 _] & [_ A2]). change (20 <= ival p)%Z in A1. change (ival p <= 8)%Z in A2. lia.
    + apply (proj1 (C92_every_state_valid _ _ _ ex_map_reachable (N 2 L))).
  - econstructor; [apply C92_histories_included|apply N, L].
Qed.

(** Cutting 7 out of every identifier: 7..=7 is taken out, then 8..=255, whose
    points have no identifier, and 7..=255 is put in. *)
Definition ex93_op : gop u8 (Interval u8) u8 := GCutAll (7 --> 7).
Example ex93_states : map (fun n => iter (nth n (gtrace exg ex93_op) [])) [0; 3; 13; 15] =
  [[(0 --> 1, []); (2 --> 2, ['9]); (3 --> 4, ['1; '2; '9]); (5 --> 6, ['2]); (7 --> 7, ['1; '2]); (8 --> 255, [])];
   [(0 --> 1, []); (2 --> 2, ['9]); (3 --> 4, ['1; '2; '9]); (5 --> 6, ['2]); (8 --> 255, [])];
   [(0 --> 1, []); (2 --> 2, ['9]); (3 --> 4, ['1; '2; '9]); (5 --> 6, ['2])];
   [(0 --> 1, []); (2 --> 2, ['9]); (3 --> 4, ['1; '2; '9]); (5 --> 6, ['2]); (7 --> 255, [])]].
Proof. vm_compute. reflexivity. Qed.
Example ex93_holds : exists s : Gqdit (Interval u8) u8,
  ginterrupted_history (exg_ops ++ [ex93_op]) s /\ identifiers_at_point s '7 = Val [] /\ identifiers_at_point s '6 = Val ['2].
Proof.
  exists (nth 3 (gtrace exg ex93_op) []). split; [|split; vm_compute; reflexivity].
  econstructor; [apply C93_histories_included|]. apply nth_In. vm_compute. lia.
Qed.
(** An interrupted [append] has copied a part of the other structure. *)
Definition ex93_append : gop u8 (Interval u8) u8 := GAppend [GInsert ['9] (0 --> 4); GInsert ['8] (9 --> 12)].
Example ex93_append_states : exists s : Gqdit (Interval u8) u8, In s (gtrace exg ex93_append) /\
  identifiers_at_point s '0 = Val ['9] /\ identifiers_at_point s '10 = Val [].
Proof. exists (nth 40 (gtrace exg ex93_append) []). split; [apply nth_In; vm_compute; lia|vm_compute; split; reflexivity]. Qed.
(** Cutting 6..=9 out of 4..=8, 8..=8 and 8..=12. *)
Definition ex94_ops : list (zop u8 (Interval u8) nat) :=
  [ZInsertStrictBack (4 --> 8) 1; ZInsertStrictBack (8 --> 8) 2; ZInsertStrictBack (8 --> 12) 3].
Definition ex94_op : zop u8 (Interval u8) nat := ZCut (6 --> 9 : Interval u8).
Example ex94_states :
  map (fun n => let s := nth n (ztrace (zrun ex94_ops) ex94_op) z_new in (zosdit_len s, zosdit_iter s)) [0; 2; 3; 8; 14; 16; 17; 19] =
  [(3, [(4 --> 8, 1); (8 --> 8, 2); (8 --> 12, 3)]);
   (3, [(8 --> 8, 2); (8 --> 12, 3)]);
   (4, [(4 --> 5, 1); (8 --> 8, 2); (8 --> 12, 3)]);
   (3, [(4 --> 5, 1); (8 --> 12, 3)]);
   (2, [(4 --> 5, 1)]);
   (3, [(4 --> 5, 1)]);
   (3, [(4 --> 5, 1); (10 --> 12, 3)]);
   (2, [(4 --> 5, 1); (10 --> 12, 3)])].
Proof. vm_compute. reflexivity. Qed.
Example ex94_holds : exists s : ZosditMap (Interval u8) nat, zinterrupted_history (ex94_ops ++ [ex94_op]) s /\
  zosdit_len s = 2 /\ zosdit_iter s = [(4 --> 5, 1)].
Proof.
  exists (nth 14 (ztrace (zrun ex94_ops) ex94_op) z_new). split; [|vm_compute; split; reflexivity].
  econstructor; [apply C94_histories_included|]. apply nth_In. vm_compute. lia.
Qed.

Print Assumptions C92_from_before_to_after.
Print Assumptions C92_one_entry_at_a_time.
Print Assumptions C92_every_state_valid.
Print Assumptions C92_no_new_values.
Print Assumptions C92_other_entries_stay.
Print Assumptions C92_crash_points_are_traced.
Print Assumptions C92_histories_included.
Print Assumptions C92_interrupted_histories.
Print Assumptions C93_from_before_to_after.
Print Assumptions C93_one_entry_at_a_time.
Print Assumptions C93_histories_included.
Print Assumptions C93_every_state_ordered.
Print Assumptions C93_insert_states.
Print Assumptions C93_cut_with_states.
Print Assumptions C93_cut_all_states.
Print Assumptions C93_one_run_lost.
Print Assumptions C93_append_states.
Print Assumptions C93_crash_points_are_traced.
Print Assumptions C94_from_before_to_after.
Print Assumptions C94_histories_included.
Print Assumptions C94_every_state_ordered.
Print Assumptions C94_len_never_too_small.
Print Assumptions C94_queries_still_correct.
Print Assumptions C94_cut_states.
Print Assumptions C94_crash_points_are_traced.
