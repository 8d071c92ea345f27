(** * PropsEffectTraceMore: C165, the rest of the code with user code that gives the right
      answers or panics.

    The methods of C159, C161 and C162 under the assumptions of C164. *)
From Coq Require Import List ZArith Bool Arith Lia Sorting.Sorted.
From Verif Require Import Base BTree UtilsModel IntervalModel NoditModel NoditSetModel NoditOps NoditSetOps ZosditModel ZosditOps InstancesModel Instances Spec TreeShape TraceModel
  NoditFacts NoditInv NoditSetFacts NoditQueries ZosditFacts ZosditProofs TreeProofs TraceFacts
  EffectModel EffectOps EffectFacts EffectRight EffectZosditModel EffectZosditOps EffectGqditModel EffectGqditOps EffectBulkModel EffectBulkFacts EffectMoreModel EffectMoreOps EffectMoreFacts EffectMoreRight
  LooksMoreFacts TraceSpec EffectCrashOps EffectTraceOps EffectTraceFacts EffectTraceZosdit EffectTraceGqdit EffectTraceMoreOps EffectTraceMore
  PropsTrace PropsEffect PropsEffectCrash PropsEffectBulk PropsEffectMore PropsEffectTrace.
Import ListNotations.
Open Scope nat_scope.

(** ** Default methods, constructors and the rest of [NoditMap] *)
Section Maps.
  Context {W I : Type} `{PL : PointLaws I} (P : point_code W I) (RP : points_or_panic P).
  Theorem C165_default_code : forall {A B} {IA : InclusiveInterval I A} {IB : InclusiveInterval I B} sa ea (ib : interval_code W I B),
    (forall x : A, right_or_panic (sa x) (istart x)) -> (forall x : A, right_or_panic (ea x) (iend x)) -> intervals_or_panic ib ->
    intervals_or_panic (default_code P sa ea) /\ overlaps_or_panic (default_overlaps_e P (default_code P sa ea) ib) /\ overlaps_or_panic (default_overlaps_e P ib (default_code P sa ea)).
  Proof.
    intros A B IA IB sa ea ib RS RE RB. pose proof (a_default_code P RP sa ea RS RE) as R. split; [exact R|]. split; apply (a_d_overlaps P RP); assumption.
  Qed.
  Theorem C165_default_methods : forall {A B} {IA : InclusiveInterval I A} {IB : InclusiveInterval I B} (ia : interval_code W I A) (ib : interval_code W I B),
    intervals_or_panic ia -> intervals_or_panic ib ->
    (forall a p, right_or_panic (default_contains_point_e P ia a p) (contains_point a p)) /\
    (forall a b, right_or_panic (default_contains_interval_e P ia ib a b) (contains_interval a b)) /\
    (forall a, right_or_panic (default_is_singular_e P ia a) (is_singular a)) /\
    (forall max min from a b, (forall x y, right_or_panic (max x y) (omax x y)) -> (forall x y, right_or_panic (min x y) (omin x y)) ->
       (forall i, right_or_panic (from i) (ifrom i)) -> right_or_panic (default_intersection_e P ia ib max min from a b) (intersection a b)) /\
    (forall add add' from a d, (forall x y, may (add' x y) (add x y)) -> (forall i, right_or_panic (from i) (ifrom i)) ->
       may (default_translate_e ia add' from a d) (translate add a d)) /\
    (forall sub sub' a, (forall x y, may (sub' x y) (sub x y)) -> may (default_width_e ia sub' a) (width sub a)).
  Proof.
    intros A B IA IB ia ib RA RB. split; [intros a p; exact (a_d_contains_point P RP ia RA a p)|]. split; [intros a b; exact (a_d_contains_interval P RP ia ib RA RB a b)|].
    split; [intros a; exact (a_d_singular P RP ia RA a)|]. split; [intros mx mn from a b R1 R2 R3; exact (a_d_intersection P RP ia ib RA RB mx mn from a b R1 R2 R3)|].
    split; [intros add add' from a d R1 R2; exact (a_d_translate ia RA add add' from a d R1 R2)|intros sub sub' a R; exact (a_d_width ia RA sub sub' a R)].
  Qed.
  Theorem C165_constructors : forall (x y : I) i r ri,
    may (uu_e P) uu /\ may (ui_e P x) (ui x) /\ may (ue_e P x) (ue x) /\ may (iu_e P x) (iu x) /\ may (eu_e P x) (eu x) /\
    may (ii_e P x y) (ii x y) /\ may (ie_e P x y) (ie x y) /\ may (ei_e P x y) (ei x y) /\ may (ee_e P x y) (ee x y) /\
    may (interval_from_range_inclusive_e P ri) (interval_from_range_inclusive ri) /\ may (range_from_e P i) (range_from i) /\ may (interval_from_range_e P r) (interval_from_range r).
  Proof.
    intros x y i r ri. split; [exact (a_ii P RP _ _)|]. split; [exact (a_ii P RP _ _)|]. split; [exact (a_ue P RP _)|]. split; [exact (a_ii P RP _ _)|]. split; [exact (a_eu P RP _)|].
    split; [exact (a_ii P RP _ _)|]. split; [exact (a_ie P RP _ _)|]. split; [exact (a_ei P RP _ _)|]. split; [exact (a_ee P RP _ _)|]. split; [exact (a_ii P RP _ _)|].
    split; [exact (a_range_from P RP _)|exact (a_ie P RP _ _)].
  Qed.

  Context {K : Type} {IK : InclusiveInterval I K} {IL : IntervalLaws I K} {V : Type} (veq : V -> V -> bool).
  Context (ik : interval_code W I K) (RK : intervals_or_panic ik) (C : entry_code W I K V) (RC : entries_or_panic veq C).
  Implicit Types (m : NoditMap K V) (t : tree K V) (w : W).
  Theorem C165_queries : forall {Q} {IQ : InclusiveInterval I Q} (iq : interval_code W I Q) m t (q : Q) p, intervals_or_panic iq -> reachable m -> entries t = m ->
    may (get_at_point_e P ik C t p) (get_at_point m p) /\ may (map_contains_point_e P ik C t p) (map_contains_point m p) /\
    may (map_contains_interval_e P ik C iq t q) (map_contains_interval m q).
  Proof.
    intros Q IQ iq m t q p RQ R E. apply reachable_WF in R. split; [exact (a_get_at_point veq P RP ik RK C RC m t p R E)|]. split; [exact (a_contains_point veq P RP ik RK C RC m t p R E)|].
    exact (a_contains_interval veq P RP ik RK C RC iq RQ m t q R E).
  Qed.
  (** Panics, also of the caller between two [&mut V]s: the entries before are changed as
      they should be, the one the caller was at as it left it, the others not. *)
  Theorem C165_overlapping_mut : forall {Q} {IQ : InclusiveInterval I Q} (iq : interval_code W I Q) m t (q : Q) w f g m' o w', intervals_or_panic iq -> reachable m -> entries t = m -> edit_or_panic f g ->
    overlapping_mut_e P ik iq f q t w = ((m', o), w') ->
    (m', o) = overlapping_mut g q m \/ o = Panic /\ (m' = m \/ exists l, overlapping m q = Val l /\ edits_stopped g l m m').
  Proof.
    intros Q IQ iq m t q w f g m' o w' RQ R E RG X. pose proof (a_overlapping_mut P RP ik RK iq RQ f g RG m t q w (reachable_WF m R) E) as Y. rewrite X in Y. exact Y.
  Qed.
  Theorem C165_iter_mut : forall m w f g m' o w', edit_or_panic f g -> iter_mut_e f m w = ((m', o), w') -> (m', o) = (iter_mut g m, Val tt) \/ o = Panic /\ edits_stopped g m m m'.
  Proof.
    intros m w f g m' o w' RG X. pose proof (a_edits f g RG m [] [] w) as Y. cbn [app] in Y. rewrite !app_nil_r in Y. unfold iter_mut_e in X. rewrite X in Y. exact Y.
  Qed.
  Theorem C165_get_at_point_mut : forall m t p w f g m' o w', reachable m -> entries t = m -> edit_or_panic f (fun _ => g) -> get_at_point_mut_e P ik f p t w = ((m', o), w') ->
    (m', o) = (fst (get_at_point_mut g p m), Val (snd (get_at_point_mut g p m))) \/
    o = Panic /\ (m' = m \/ exists e, In e m /\ contains_point (fst e) p = true /\ edits_stopped (fun _ => g) [e] m m').
  Proof.
    intros m t p w f g m' o w' R E RG X. pose proof (a_get_mut P RP ik RK f (fun _ => g) RG p m t w (reachable_WF m R) E g (fun _ _ => eq_refl)) as Y. rewrite X in Y. cbv zeta in Y. cbn [fst snd] in Y.
    destruct (get_at_point_mut g p m). exact Y.
  Qed.
  (** What is left after such a panic could be built without panics and has the same keys. *)
  Theorem C165_stopped_edits : forall g l m m', reachable m -> edits_stopped g l m m' -> reachable m' /\ map fst (iter m') = map fst (iter m).
  Proof.
    intros g l m m' R (a & done & k & v & v' & todo & b & -> & Em & ->).
    assert (Ek : map fst (a ++ map (fun e => (fst e, g (fst e) (snd e))) done ++ (k, v') :: todo ++ b) = map fst m).
    { rewrite Em. rewrite !map_app. cbn [map fst]. rewrite !map_app. cbn [map fst]. rewrite map_map. cbn [fst]. rewrite <- !app_assoc. reflexivity. }
    split; [|exact Ek]. apply WF_reachable. apply ascending_WF. unfold iter. rewrite Ek. apply ascending_WF, reachable_WF, R.
  Qed.
  (** Histories of maps whose intervals only implement [start], [end] and [From]. *)
  Theorem C165_default_history : forall start end_ (T : nat -> nat -> BTreeMap K V -> tree K V) cs w,
    (forall x : K, right_or_panic (start x) (istart x)) -> (forall x : K, right_or_panic (end_ x) (iend x)) -> (forall n, faithful (T n)) ->
    interrupted_history (map (as_op veq) cs) (fst (fst (ehistory C P (default_code P start end_) (default_overlaps_e P (default_code P start end_) (default_code P start end_)) T cs new w))).
  Proof.
    intros start end_ T cs w RS RE TF. pose proof (a_default_code P RP start end_ RS RE) as R.
    exact (a_history veq P RP _ R C RC _ (a_d_overlaps P RP _ _ R R) T cs TF [] new w interrupted_new).
  Qed.

  (** ** Loading from a source that may do anything *)
  Theorem C165_from_iter_strict : forall (T : nat -> nat -> BTreeMap K V -> tree K V) next fuel w r l w', (forall i, faithful (T i)) ->
    from_iter_strict_e P ik T next fuel w = (r, l, w') ->
    match r with
    | LDone m => from_iter_strict l = Val (Ok m)
    | LRefused v => from_iter_strict l = Val (Err v)
    | LStopped false => exists l0 e m, l = l0 ++ [e] /\ from_iter_strict l0 = Val (Ok m)
    | LFailed _ | LStopped true | LRunning => exists m, from_iter_strict l = Val (Ok m)
    end.
  Proof.
    intros T next fuel w r l w' TF X. apply (load_may _ _ (fun v => v) WF insert_strict) in X.
    - unfold from_iter_strict. rewrite <- loop_strict. destruct r as [m|e|e|[]|]; exact X.
    - intros i k v m w1 Wm. destruct (a_insert_strict P RP ik RK (T i) (TF i) m k v [m] Wm (or_introl eq_refl) w1) as [X1|[X1 _]]; [left|right; exact X1].
      rewrite X1. unfold erring. destruct (insert_strict k v m) as [m1 [[[]|e]|]]; reflexivity.
    - intros k v m Wm. exact (step_WF m (OpInsertStrict k v) Wm).
    - apply reachable_WF. exists []. reflexivity.
  Qed.
  (** The code that makes the error may panic as well. *)
  Theorem C165_visit_seq : forall {E} (T : nat -> nat -> BTreeMap K V -> tree K V) (custom : user W E) access fuel w r l w', (forall i, faithful (T i)) ->
    visit_seq_e P ik T custom access fuel w = (r, l, w') ->
    match r with
    | LDone m => deserialize (map Some l) = Val (Ok m)
    | LRefused _ => deserialize (map Some l) = Val (Err DeOverlap)
    | LStopped false => exists l0 e m, l = l0 ++ [e] /\ deserialize (map Some l0) = Val (Ok m)
    | LFailed _ => deserialize (map Some l ++ [None]) = Val (Err DeElement)
    | LStopped true | LRunning => exists m, deserialize (map Some l) = Val (Ok m)
    end.
  Proof.
    intros E T custom access fuel w r l w' TF X. apply (load_may _ _ (fun _ => DeOverlap) WF (custom_ins insert_strict DeOverlap)) in X.
    - unfold deserialize. rewrite loop_visit in X. destruct r as [m|e|e|[]|]; trivial.
      + destruct X as (m & X). exact (visit_fails _ _ _ X).
      + destruct X as (l0 & e & m & -> & X). exists l0, e, m. split; [reflexivity|]. rewrite <- loop_visit. exact X.
    - intros i k v m w1 Wm. apply or_custom_may. destruct (a_insert_strict P RP ik RK (T i) (TF i) m k v [m] Wm (or_introl eq_refl) w1) as [X1|[X1 _]]; [left|right]; exact X1.
    - intros k v m Wm. exact (step_WF m (OpInsertStrict k v) Wm).
    - apply reachable_WF. exists []. reflexivity.
  Qed.
  (** Reading back what was written: the same map, or a panic or an error of the source. *)
  Theorem C165_read_back : forall {E} (T : nat -> nat -> BTreeMap K V -> tree K V) (custom : user W E) access fuel w r m w', (forall i, faithful (T i)) -> reachable m ->
    visit_seq_e P ik T custom access fuel w = (r, iter m, w') -> match r with LDone m' => m' = m | LRefused _ => False | _ => True end.
  Proof.
    intros E T custom access fuel w r m w' TF R X. apply C165_visit_seq in X; [|exact TF].
    assert (Y : deserialize (map Some (iter m)) = Val (Ok m)) by (exact (visit_seq_rebuild m [] (reachable_WF m R))).
    destruct r as [m'|e|e|[]|]; trivial; congruence.
  Qed.
  Theorem C165_from_iter_strict_back : forall (T : nat -> BTreeMap K (list V) -> tree K (list V)) next fuel w r l w', faithful T ->
    from_iter_strict_back_e P ik T next fuel w = (r, l, w') ->
    match r with
    | LDone z => from_iter_strict_back l = Val (Ok z)
    | LRefused v => from_iter_strict_back l = Val (Err v)
    | LStopped false => exists l0 e z, l = l0 ++ [e] /\ from_iter_strict_back l0 = Val (Ok z)
    | LFailed _ | LStopped true | LRunning => exists z, from_iter_strict_back l = Val (Ok z)
    end.
  Proof.
    intros T next fuel w r l w' TF X. apply (load_may _ _ (fun v => v) (fun z => ZWF z /\ ZD (z_inner z)) insert_strict_back) in X.
    - unfold from_iter_strict_back. rewrite <- loop_strict_back. destruct r as [m|e|e|[]|]; exact X.
    - intros i k v z w1 [Wz Dz]. destruct (a_strict_back_once P RP ik RK z (T i (z_inner z)) k v w1 Wz Dz (TF _ _)) as [X1|X1]; [left|right; exact X1].
      rewrite X1. unfold erring. destruct (insert_strict_back k v z) as [z1 [[[]|e]|]]; reflexivity.
    - intros k v z [Wz Dz]. split; [exact (insert_ZWF z k v Wz)|exact (zstep_ZD z (ZInsertStrictBack k v) Wz Dz Logic.I)].
    - split; [apply new_ZWF|constructor].
  Qed.
  Theorem C165_visit_seq_back : forall {E} (T : nat -> BTreeMap K (list V) -> tree K (list V)) (custom : user W E) access fuel w r l w', faithful T ->
    zosdit_visit_seq_e P ik T custom access fuel w = (r, l, w') ->
    match r with
    | LDone z => zosdit_deserialize (map Some l) = Val (Ok z)
    | LRefused _ => zosdit_deserialize (map Some l) = Val (Err DeOverlap)
    | LStopped false => exists l0 e z, l = l0 ++ [e] /\ zosdit_deserialize (map Some l0) = Val (Ok z)
    | LFailed _ => zosdit_deserialize (map Some l ++ [None]) = Val (Err DeElement)
    | LStopped true | LRunning => exists z, zosdit_deserialize (map Some l) = Val (Ok z)
    end.
  Proof.
    intros E T custom access fuel w r l w' TF X. apply (load_may _ _ (fun _ => DeOverlap) (fun z => ZWF z /\ ZD (z_inner z)) (custom_ins insert_strict_back DeOverlap)) in X.
    - unfold zosdit_deserialize. rewrite loop_visit_back in X. destruct r as [m|e|e|[]|]; trivial.
      + destruct X as (m & X). exact (zvisit_fails _ _ _ X).
      + destruct X as (l0 & e & m & -> & X). exists l0, e, m. split; [reflexivity|]. rewrite <- loop_visit_back. exact X.
    - intros i k v z w1 [Wz Dz]. apply or_custom_may. exact (a_strict_back_once P RP ik RK z (T i (z_inner z)) k v w1 Wz Dz (TF _ _)).
    - intros k v z [Wz Dz]. split; [exact (insert_ZWF z k v Wz)|exact (zstep_ZD z (ZInsertStrictBack k v) Wz Dz Logic.I)].
    - split; [apply new_ZWF|constructor].
  Qed.
End Maps.

(** ** [NoditSet] *)
Section Sets.
  Context {W I : Type} `{PL : PointLaws I} {K : Type} {IK : InclusiveInterval I K} {IL : IntervalLaws I K}.
  Context (P : point_code W I) (RP : points_or_panic P) (ik : interval_code W I K) (RK : intervals_or_panic ik) (from : Interval I -> user W K) (RF : forall i, right_or_panic (from i) (ifrom i)).
  Implicit Types (s : NoditSet K) (t : tree K unit) (w : W).
  Theorem C165_set_queries : forall {Q} {IQ : InclusiveInterval I Q} (iq : interval_code W I Q) s t (q : Q) p, intervals_or_panic iq -> set_reachable s -> entries t = s ->
    may (set_overlaps_e P ik iq t q) (set_overlaps s q) /\ may (set_overlapping_e P ik iq t q) (set_overlapping s q) /\
    may (set_gaps_untrimmed_e P ik from iq t q) (set_gaps_untrimmed s q) /\ may (set_gaps_trimmed_e P ik from iq t q) (set_gaps_trimmed s q) /\
    may (set_contains_interval_e P ik from iq t q) (set_contains_interval s q) /\
    may (set_get_at_point_e P ik from t p) (set_get_at_point s p) /\ may (set_contains_point_e P ik from t p) (set_contains_point s p).
  Proof.
    intros Q IQ iq s t q p RQ R E. apply set_reachable_WF in R. pose proof (a_unit_code from RF) as RU.
    split; [exact (a_map_overlaps P RP ik RK iq RQ s t q R E)|]. split; [exact (a_set_overlapping P RP ik RK iq RQ s t q R E)|].
    split; [exact (a_gaps_untrimmed _ P RP ik RK _ RU iq RQ s t q R E)|]. split; [exact (a_gaps_trimmed _ P RP ik RK _ RU iq RQ s t q R E)|].
    split; [exact (a_contains_interval _ P RP ik RK _ RU iq RQ s t q R E)|]. split; [exact (a_set_get P RP ik RK from RF s t p R E)|exact (a_contains_point _ P RP ik RK _ RU s t p R E)].
  Qed.
  Theorem C165_set_removals : forall {Q} {IQ : InclusiveInterval I Q} (iq : interval_code W I Q) q_overlaps k_overlaps s t (q : Q) w,
    intervals_or_panic iq -> overlaps_or_panic q_overlaps -> overlaps_or_panic k_overlaps -> set_reachable s -> entries t = s ->
    lands (fst (set_remove_overlapping_e P ik iq q_overlaps q t w)) (set_remove_overlapping q s) (remove_overlapping_t q s) /\
    lands (fst (set_cut_e P ik from iq k_overlaps q t w)) (set_cut q s) (cut_t q s).
  Proof.
    intros Q IQ iq qo ko s t q w RQ R1 R2 R E. apply set_reachable_WF in R. split; [exact (a_set_remove_overlapping P RP ik RK iq RQ qo s t q R1 R E w)|exact (a_set_cut P RP ik RK from RF iq RQ ko s t q R2 R E w)].
  Qed.
  Theorem C165_set_insertions : forall overlaps_k T k s w, overlaps_or_panic overlaps_k -> faithful T -> set_reachable s ->
    lands (fst (set_insert_strict_e P ik T k s w)) (set_insert_strict k s) [s] /\
    lands (fst (set_insert_merge_touching_e P ik from overlaps_k T k s w)) (set_insert_merge_touching k s) (trace s (OpInsertMergeTouching k tt)) /\
    lands (fst (set_insert_merge_overlapping_e P ik from overlaps_k T k s w)) (set_insert_merge_overlapping k s) (trace s (OpInsertMergeOverlapping k tt)) /\
    lands (fst (set_insert_merge_touching_or_overlapping_e P ik from overlaps_k T k s w)) (set_insert_merge_touching_or_overlapping k s) (trace s (OpInsertMergeTouchingOrOverlapping k tt)) /\
    lands (fst (set_insert_overwrite_e P ik from overlaps_k T k s w)) (set_insert_overwrite k s) (trace s (OpInsertOverwrite k tt)).
  Proof.
    intros ok T k s w RO F R. apply set_reachable_WF in R. pose proof (a_unit_code from RF) as RU.
    split; [exact (a_insert_strict P RP ik RK T F s k tt [s] R (or_introl eq_refl) w)|]. split; [exact (a_merge_touching _ P RP ik RK _ RU ok RO T F s k tt R w)|].
    split; [exact (a_merge_overlapping _ P RP ik RK _ RU ok RO T F s k tt R w)|]. split; [exact (a_merge_both _ P RP ik RK _ RU ok RO T F s k tt R w)|].
    exact (a_set_overwrite P RP ik RK from RF ok RO T s k F R w).
  Qed.
  (** Histories, with panics caught. *)
  Theorem C165_set_history : forall overlaps_k (T : nat -> nat -> BTreeMap K unit -> tree K unit) cs w, overlaps_or_panic overlaps_k -> (forall n, faithful (T n)) ->
    let s := fst (fst (shistory P ik from overlaps_k T cs set_new w)) in
    interrupted_history (map as_map_op cs) s /\ set_reachable s /\ ascending (set_iter s) /\ Forall valid (set_iter s).
  Proof.
    intros ok T cs w RO TF s. pose proof (a_shistory P RP ik RK from RF ok RO T cs TF [] set_new w interrupted_new) as X. cbn [app] in X. fold s in X.
    split; [exact X|]. pose proof (interrupted_WF _ s X) as Ws. split; [exact (WF_set_reachable s Ws)|]. rewrite set_iter_fst. apply ascending_WF, Ws.
  Qed.
  (** Whatever a call does: what it leaves could be built without panics, no point gets in that
      is in neither before nor after the call without panics, and the intervals the call is not about stay. *)
  Theorem C165_set_any_call : forall overlaps_k T c s w s' h w', overlaps_or_panic overlaps_k -> faithful T -> set_reachable s -> scall_do P ik from overlaps_k T c s w = (s', h, w') ->
    set_reachable s' /\ (forall p, in_set s' p -> in_set s p \/ in_set (set_step s (as_set_op c)) p) /\
    (forall k, In k (set_iter s) -> ~ about (as_map_op c) (k, tt) -> In k (set_iter s')).
  Proof.
    intros ok T c s w s' h w' RO TF R E. pose proof (set_reachable_WF s R) as Ws. pose proof (WF_reachable s Ws) as Rm.
    pose proof (a_scall P RP ik RK from RF ok RO T c s w TF Ws) as X. rewrite E in X. cbn [fst] in X. split; [apply WF_set_reachable, reachable_WF, (C92_every_state_valid s _ s' Rm X)|]. split.
    - intros p. rewrite !in_set_maps, <- step_as_map. exact (C92_no_new_values s _ s' Rm X p tt).
    - intros k Hk N. apply in_set_iter in Hk. apply in_set_iter. exact (C92_other_entries_stay s _ s' Rm X (k, tt) Hk N).
  Qed.

  Theorem C165_set_from_iter_strict : forall (T : nat -> nat -> BTreeMap K unit -> tree K unit) next fuel w r l w', (forall i, faithful (T i)) ->
    set_from_iter_strict_e P ik T next fuel w = (r, l, w') ->
    match r with
    | LDone s => set_from_iter_strict (map fst l) = Val (Ok s)
    | LRefused _ => set_from_iter_strict (map fst l) = Val (Err tt)
    | LStopped false => exists l0 e s, l = l0 ++ [e] /\ set_from_iter_strict (map fst l0) = Val (Ok s)
    | LFailed _ | LStopped true | LRunning => exists s, set_from_iter_strict (map fst l) = Val (Ok s)
    end.
  Proof.
    intros T next fuel w r l w' TF X. apply (load_may _ _ (fun _ => tt) WF insert_strict) in X.
    - assert (EL : forall l : list (K * unit), set_from_iter_strict (map fst l) = loop insert_strict l set_new).
      { intros l1. unfold set_from_iter_strict. rewrite set_extend_map, loop_strict. f_equal. rewrite map_map. rewrite <- (map_id l1) at 2. apply map_ext. intros [k []]. reflexivity. }
      rewrite EL. destruct r as [m|e|e|[]|]; try exact X. destruct X as (l0 & e & m & -> & X). exists l0, e, m. rewrite EL. split; [reflexivity|exact X].
    - intros i k [] m w1 Wm. unfold set_insert_strict_e. destruct (a_insert_strict P RP ik RK (T i) (TF i) m k tt [m] Wm (or_introl eq_refl) w1) as [X1|[X1 _]]; [left|right; exact X1].
      rewrite X1. unfold erring. destruct (insert_strict k tt m) as [m1 [[[]|[]]|]]; reflexivity.
    - intros k v m Wm. exact (step_WF m (OpInsertStrict k v) Wm).
    - apply reachable_WF. exists []. reflexivity.
  Qed.
  Theorem C165_set_visit_seq : forall {E} (T : nat -> nat -> BTreeMap K unit -> tree K unit) (custom : user W E) access fuel w r l w', (forall i, faithful (T i)) ->
    set_visit_seq_e P ik T custom access fuel w = (r, l, w') -> let read := fun l : list (K * unit) => map (fun e => Some (fst e)) l in
    match r with
    | LDone s => set_deserialize (read l) = Val (Ok s)
    | LRefused _ => set_deserialize (read l) = Val (Err DeOverlap)
    | LStopped false => exists l0 e s, l = l0 ++ [e] /\ set_deserialize (read l0) = Val (Ok s)
    | LFailed _ => set_deserialize (read l ++ [None]) = Val (Err DeElement)
    | LStopped true | LRunning => exists s, set_deserialize (read l) = Val (Ok s)
    end.
  Proof.
    intros E T custom access fuel w r l w' TF Y read.
    assert (EL : forall (l1 : list (K * unit)) r1, set_deserialize (read l1 ++ r1) = visit_seq (map Some l1 ++ map (option_map unit_entry) r1) set_new).
    { intros l1 r1. unfold set_deserialize, read. rewrite set_visit_map, map_app, map_map. f_equal. f_equal. apply map_ext. intros [k []]. reflexivity. }
    assert (EL0 : forall l1, set_deserialize (read l1) = visit_seq (map Some l1) set_new) by (intros l1; rewrite <- (app_nil_r (read l1)), EL; cbn [map]; rewrite app_nil_r; reflexivity).
    rewrite EL0, EL. apply (load_may _ _ (fun _ => DeOverlap) WF (custom_ins insert_strict DeOverlap)) in Y.
    - rewrite loop_visit in Y. destruct r as [s|e|e|[]|]; try exact Y.
      + destruct Y as (s & Y). exact (visit_fails l set_new s Y).
      + destruct Y as (l0 & e & s & -> & Y). exists l0, e, s. split; [reflexivity|]. rewrite EL0, <- loop_visit. exact Y.
    - intros i k [] m w1 Wm. apply map_err_may. destruct (a_insert_strict P RP ik RK (T i) (TF i) m k tt [m] Wm (or_introl eq_refl) w1) as [X1|[X1 _]]; [left|right]; exact X1.
    - intros k v m Wm. pose proof (step_WF m (OpInsertStrict k v) Wm) as X. unfold custom_ins. cbn [step] in X. destruct (insert_strict k v m) as [m1 [[?|?]|]]; exact X.
    - apply reachable_WF. exists []. reflexivity.
  Qed.
End Sets.

(** ** Example: user code that panics when its budget, the world, is spent *)
Definition spending_kd : interval_code nat u8 (Interval u8) := default_code spending_p (fun x => spend (istart x)) (fun x => spend (iend x)).
Definition spending_f : Interval u8 -> user nat (Interval u8) := fun i => spend (ifrom i).
(** Adds 100 to the value; if it panics it has made it 99. *)
Definition spending_edit : edit (W := nat) (K := Interval u8) (V := nat) := fun k v w => match w with 0 => ((99, Panic), 0) | S w => ((v + 100, Val tt), w) end.
(** A source that looks at the budget. *)
Definition spending_source : user nat (option (Interval u8 * nat)) := fun w =>
  (Val (if Nat.ltb w 5 then None else Some (if Nat.leb w 12 then 3 --> 4 else if Nat.leb w 30 then 31 --> 39 else 11 --> 19, w)), w).
Example C165_example :
  points_or_panic spending_p /\ intervals_or_panic spending_i /\ intervals_or_panic spending_kd /\ overlaps_or_panic spending_o /\ entries_or_panic Nat.eqb spending /\
  (forall i, right_or_panic (spending_f i) (ifrom i)) /\ edit_or_panic spending_edit (fun _ v => v + 100) /\ (forall i, faithful (ex_shapes (V := nat) i)) /\ reachable (entries ex_tree) /\
  default_overlaps_e spending_p spending_kd spending_i (1 --> 9) (4 --> 12) 5 = (Panic, 0) /\
  default_overlaps_e spending_p spending_kd spending_i (1 --> 9) (4 --> 12) 20 = (Val true, 3) /\
  ee_e spending_p ('1) ('9) 2 = (Panic, 0) /\ ee_e spending_p ('1) ('9) 3 = (Val (2 --> 8), 0) /\
  map_contains_interval_e spending_p spending_i spending spending_i ex_tree (4 --> 5) 30 = (Panic, 0) /\
  map_contains_interval_e spending_p spending_i spending spending_i ex_tree (4 --> 5) 50 = (Val true, 9) /\
  overlapping_mut_e spending_p spending_i spending_i spending_edit (2 --> 9) ex_tree 18 = ((entries ex_tree, Panic), 0) /\
  overlapping_mut_e spending_p spending_i spending_i spending_edit (2 --> 9) ex_tree 20 = (([(1 --> 2, 107); (4 --> 5, 99); (9 --> 9, 6); (20 --> 30, 5)], Panic), 0) /\
  overlapping_mut_e spending_p spending_i spending_i spending_edit (2 --> 9) ex_tree 22 = (([(1 --> 2, 107); (4 --> 5, 108); (9 --> 9, 106); (20 --> 30, 5)], Val tt), 0) /\
  get_at_point_mut_e spending_p spending_i spending_edit ('9) ex_tree 12 = (([(1 --> 2, 7); (4 --> 5, 8); (9 --> 9, 99); (20 --> 30, 5)], Panic), 0) /\
  (** loads that end well, are stopped, and are refused *)
  from_iter_strict_e spending_p spending_i ex_shapes spending_source 20 33 =
    (LDone [(3 --> 4, 12); (11 --> 19, 33); (31 --> 39, 28)], [(11 --> 19, 33); (31 --> 39, 28); (3 --> 4, 12)], 0) /\
  from_iter_strict_e spending_p spending_i ex_shapes spending_source 20 32 = (LStopped false, [(11 --> 19, 32); (31 --> 39, 27); (3 --> 4, 11)], 0) /\
  fst (from_iter_strict_e spending_p spending_i ex_shapes spending_source 20 36) = (LRefused 31, [(11 --> 19, 36); (11 --> 19, 31)]) /\
  (** the seventh call panics having taken 9..12 out *)
  set_iter (fst (fst (shistory spending_p spending_i spending_f spending_o (fun _ => some_shapes) ex_set_calls set_new 300))) = [1 --> 4; 5 --> 6; 7 --> 7; 20 --> 30] /\
  set_iter (fst (fst (shistory spending_p spending_i spending_f spending_o (fun _ => some_shapes) ex_set_calls set_new 320))) = [5 --> 6; 7 --> 7; 9 --> 30].
Proof.
  assert (RP : points_or_panic spending_p) by (repeat split; intros; apply spend_right).
  assert (RK : intervals_or_panic spending_i) by (repeat split; intros; apply spend_right).
  split; [exact RP|]. split; [exact RK|].
  split; [refine (proj1 (C165_default_code spending_p RP _ _ spending_i _ _ RK)); intros x; apply spend_right|].
  split; [intros a b [|w]; [right|left]; reflexivity|]. split; [repeat split; intros; apply spend_right|]. split; [intros i; apply spend_right|].
  split; [intros k v [|w]; [right|left]; reflexivity|]. split; [intros i j l; apply some_shapes_good|].
  split; [exists [OpInsertStrict (1 --> 2 : Interval u8) 7; OpInsertStrict (4 --> 5) 8; OpInsertStrict (9 --> 9) 6; OpInsertStrict (20 --> 30) 5]; reflexivity|].
  vm_compute. repeat split; reflexivity.
Qed.
Print Assumptions C165_default_code.
Print Assumptions C165_default_methods.
Print Assumptions C165_constructors.
Print Assumptions C165_queries.
Print Assumptions C165_overlapping_mut.
Print Assumptions C165_iter_mut.
Print Assumptions C165_get_at_point_mut.
Print Assumptions C165_stopped_edits.
Print Assumptions C165_default_history.
Print Assumptions C165_from_iter_strict.
Print Assumptions C165_visit_seq.
Print Assumptions C165_read_back.
Print Assumptions C165_from_iter_strict_back.
Print Assumptions C165_visit_seq_back.
Print Assumptions C165_set_queries.
Print Assumptions C165_set_removals.
Print Assumptions C165_set_insertions.
Print Assumptions C165_set_history.
Print Assumptions C165_set_any_call.
Print Assumptions C165_set_from_iter_strict.
Print Assumptions C165_set_visit_seq.
