(** * PropsEffectTrace: C164, all user code gives the right answers or panics.

    Unlike in C163 the comparisons and methods of points, intervals and identifiers may panic
    as well, anywhere, with any side effects.  A query then gives the right answer or panics;
    a call that changes the map gives the right result, or panics and leaves one of the states
    of [TraceModel], about which C92-C94 speak. *)
From Coq Require Import List ZArith Bool Arith Lia Sorting.Sorted.
From Verif Require Import Base BTree UtilsModel IntervalModel NoditModel NoditOps ZosditModel ZosditOps GqditModel GqditOps InstancesModel Instances Spec TreeShape TraceModel
  NoditFacts NoditInv NoditMore NoditSim NoditQueries NoditMutations ZosditFacts ZosditProofs GqditFacts GqditProofs CrashModel CrashGqdit TraceFacts TraceZosdit TraceGqdit
  EffectModel EffectOps EffectFacts EffectRight EffectZosditModel EffectZosditOps EffectGqditModel EffectGqditOps EffectGqditRight
  LooksMoreFacts TraceSpec EffectCrashOps EffectCrashFacts EffectCrashMore EffectTraceOps EffectTraceFacts EffectTraceZosdit EffectTraceGqdit
  PropsTrace PropsEffect PropsEffectZosdit PropsEffectGqdit PropsEffectCrash.
Import ListNotations.
Open Scope nat_scope.

(** ** [NoditMap] *)
Section Maps.
  Context {W I : Type} `{PL : PointLaws I}.
  Context {K : Type} {IK : InclusiveInterval I K} {IL : IntervalLaws I K}.
  Context {V : Type} (veq : V -> V -> bool).
  Context (P : point_code W I) (RP : points_or_panic P) (ik : interval_code W I K) (RK : intervals_or_panic ik).
  Context (C : entry_code W I K V) (RC : entries_or_panic veq C).
  Context (overlaps_k : K -> K -> user W bool) (RO : overlaps_or_panic overlaps_k).
  Implicit Types (m : NoditMap K V) (w : W).

  (** A query answers right or panics. *)
  Theorem C164_queries : forall {Q} {IQ : InclusiveInterval I Q} (iq : interval_code W I Q) m t (q : Q) p, intervals_or_panic iq -> reachable m -> entries t = m ->
    may (overlapping_e P ik iq t q) (overlapping m q) /\ may (map_overlaps_e P ik iq t q) (map_overlaps m q) /\
    may (gaps_untrimmed_e P ik C iq t q) (gaps_untrimmed m q) /\ may (gaps_trimmed_e P ik C iq t q) (gaps_trimmed m q) /\
    may (get_key_value_at_point_e P ik C t p) (get_key_value_at_point m p).
  Proof.
    intros Q IQ iq m t q p RQ R E. apply reachable_WF in R. split; [exact (a_overlapping P RP ik RK iq RQ m t q R E)|]. split; [exact (a_map_overlaps P RP ik RK iq RQ m t q R E)|].
    split; [exact (a_gaps_untrimmed veq P RP ik RK C RC iq RQ m t q R E)|]. split; [exact (a_gaps_trimmed veq P RP ik RK C RC iq RQ m t q R E)|exact (a_get_at veq P RP ik RK C RC m t p R E)].
  Qed.
  Theorem C164_remove_overlapping : forall {Q} {IQ : InclusiveInterval I Q} (iq : interval_code W I Q) q_overlaps m t (q : Q) w, intervals_or_panic iq -> overlaps_or_panic q_overlaps ->
    reachable m -> entries t = m -> lands (fst (remove_overlapping_e P ik iq q_overlaps q t w)) (remove_overlapping q m) (remove_overlapping_t q m).
  Proof. intros Q IQ iq q_overlaps m t q w RQ RQO R E. exact (a_remove_overlapping P RP ik RK iq RQ q_overlaps RQO m t q (reachable_WF m R) E w). Qed.
  Theorem C164_cut : forall {Q} {IQ : InclusiveInterval I Q} (iq : interval_code W I Q) k_overlaps m t (q : Q) w, intervals_or_panic iq -> overlaps_or_panic k_overlaps ->
    reachable m -> entries t = m -> lands (fst (cut_e P ik C iq k_overlaps q t w)) (cut q m) (cut_t q m).
  Proof. intros Q IQ iq k_overlaps m t q w RQ RKO R E. exact (a_cut veq P RP ik RK C RC iq RQ k_overlaps RKO m t q (reachable_WF m R) E w). Qed.
  Theorem C164_insert_strict : forall T m k v w, faithful T -> reachable m -> lands (fst (insert_strict_e P ik T k v m w)) (insert_strict k v m) [m].
  Proof. intros T m k v w TF R. exact (a_insert_strict P RP ik RK T TF m k v [m] (reachable_WF m R) (or_introl eq_refl) w). Qed.
  Theorem C164_insert_overwrite : forall T m k v w, faithful T -> reachable m ->
    lands (fst (insert_overwrite_e P ik C overlaps_k T k v m w)) (insert_overwrite k v m) (trace m (OpInsertOverwrite k v)).
  Proof. intros T m k v w TF R. exact (a_insert_overwrite veq P RP ik RK C RC overlaps_k RO T TF m k v (reachable_WF m R) w). Qed.
  Theorem C164_insert_merge_touching : forall T m k v w, faithful T -> reachable m ->
    lands (fst (insert_merge_touching_e P ik C overlaps_k T k v m w)) (insert_merge_touching k v m) (trace m (OpInsertMergeTouching k v)).
  Proof. intros T m k v w TF R. exact (a_merge_touching veq P RP ik RK C RC overlaps_k RO T TF m k v (reachable_WF m R) w). Qed.
  Theorem C164_insert_merge_touching_if_values_equal : forall T m k v w, faithful T -> reachable m ->
    lands (fst (insert_merge_touching_if_values_equal_e P ik C overlaps_k T k v m w)) (insert_merge_touching_if_values_equal veq k v m) (trace m (OpInsertMergeTouchingIfValuesEqual veq k v)).
  Proof. intros T m k v w TF R. exact (a_merge_equal veq P RP ik RK C RC overlaps_k RO T TF m k v (reachable_WF m R) w). Qed.
  Theorem C164_insert_merge_overlapping : forall T m k v w, faithful T -> reachable m ->
    lands (fst (insert_merge_overlapping_e P ik C overlaps_k T k v m w)) (insert_merge_overlapping k v m) (trace m (OpInsertMergeOverlapping k v)).
  Proof. intros T m k v w TF R. exact (a_merge_overlapping veq P RP ik RK C RC overlaps_k RO T TF m k v (reachable_WF m R) w). Qed.
  Theorem C164_insert_merge_touching_or_overlapping : forall T m k v w, faithful T -> reachable m ->
    lands (fst (insert_merge_touching_or_overlapping_e P ik C overlaps_k T k v m w)) (insert_merge_touching_or_overlapping k v m) (trace m (OpInsertMergeTouchingOrOverlapping k v)).
  Proof. intros T m k v w TF R. exact (a_merge_both veq P RP ik RK C RC overlaps_k RO T TF m k v (reachable_WF m R) w). Qed.
  (** Whatever a call does: what it leaves could be built without panics, gives no point a value
      it has neither before nor after the call without panics, and keeps the entries the call
      is not about. *)
  Theorem C164_any_call : forall T c m w m' out w', faithful T -> reachable m -> ecall_do C P ik overlaps_k T c m w = (m', out, w') ->
    reachable m' /\
    (forall p v, maps_to m' p v -> maps_to m p v \/ maps_to (step m (as_op veq c)) p v) /\
    (forall e, In e (iter m) -> ~ about (as_op veq c) e -> In e (iter m')).
  Proof.
    intros T c m w m' out w' TF R E. pose proof (a_call veq P RP ik RK C RC overlaps_k RO T c m w TF (reachable_WF m R)) as X. rewrite E in X. cbn [fst] in X.
    split; [apply (C92_every_state_valid m _ m' R X)|]. split; [exact (C92_no_new_values m _ m' R X)|exact (C92_other_entries_stay m _ m' R X)].
  Qed.
  (** Histories, with panics caught. *)
  Theorem C164_history : forall T cs w, (forall n, faithful (T n)) -> let m := fst (fst (ehistory C P ik overlaps_k T cs new w)) in
    interrupted_history (map (as_op veq) cs) m /\ reachable m /\ ascending (map fst (iter m)) /\ Forall valid (map fst (iter m)).
  Proof.
    intros T cs w TF m. pose proof (a_history veq P RP ik RK C RC overlaps_k RO T cs TF [] new w interrupted_new) as X. cbn [app] in X. fold m in X.
    split; [exact X|]. split; [exact (C92_interrupted_histories _ m X)|]. apply ascending_WF, (interrupted_WF _ m X).
  Qed.

  (** ** [ZosditMap]: [z] was left by any history, in trees of any shapes *)
  Context (kc : K -> I -> user W bool) (RKC : contains_or_panic kc).
  Definition zleft (z : ZosditMap K V) : Prop := exists below T cs w, faithful T /\ z = fst (fst (zehistory C P ik kc overlaps_k below T cs z_new w)).
  Lemma zleft_ZWF z : zleft z -> ZWF z.
  Proof.
    intros (below & T & cs & w & TF & ->). exact (a_zhistory veq P RP ik RK C RC kc RKC overlaps_k RO below T cs TF z_new w (zreachable_ZWF z_new (ex_intro _ [] eq_refl))).
  Qed.
  (** Its entries are valid, ascending and at most zero-overlapping; [len] never says less than there is. *)
  Theorem C164_zosdit_history : forall z, zleft z -> let l := map fst (zosdit_iter z) in
    Forall valid l /\ StronglySorted up_to l /\ ForallOrdPairs zero_overlap l /\ length (zosdit_iter z) <= zosdit_len z.
  Proof. intros z X. apply zleft_ZWF in X. destruct (iter_sorted z X) as (A & B & _ & D). destruct X as (_ & _ & L). auto. Qed.
  Theorem C164_zosdit_queries : forall {Q} {IQ : InclusiveInterval I Q} (iq : interval_code W I Q) z t (q : Q) p, intervals_or_panic iq -> zleft z -> entries t = z_inner z ->
    may (is_zero_overlap_e P ik iq t q) (is_zero_overlap z q) /\ may (zosdit_overlapping_e P ik iq t q) (zosdit_overlapping z q) /\
    may (get_last_value_at_point_e P ik kc t p) (Val (get_last_value_at_point z p)).
  Proof.
    intros Q IQ iq z t q p RQ X E. apply zleft_ZWF in X. split; [exact (a_zero_overlap P RP ik RK iq RQ z t q X E)|].
    split; [exact (a_zoverlapping P RP ik RK iq RQ z t q X E)|exact (a_get_last P RP ik RK kc RKC z t p X E)].
  Qed.
  (** [remove_last_value_at_point] does all or nothing, ... *)
  Theorem C164_remove_last_value_at_point : forall z t p w, zleft z -> entries t = z_inner z ->
    lands (fst (remove_last_value_at_point_e P ik kc p (zosdit_len z) t w)) (remove_last_value_at_point p z) [z].
  Proof. intros z t p w X E. exact (a_remove_last P RP ik RK kc RKC z t p [z] (zleft_ZWF z X) E (or_introl eq_refl) w). Qed.
  (** ... and so does [insert_strict_back]: it panics, or answers right; when it inserts, it
      inserts the value where it belongs, and else changes nothing. *)
  Theorem C164_insert_strict_back : forall z t k v w z' o w', zleft z -> entries t = z_inner z -> insert_strict_back_e P ik k v (zosdit_len z) t w = ((z', o), w') ->
    match o with
    | Panic => z' = z
    | Val (Err u) => z' = z /\ u = v /\ snd (insert_strict_back k v z) = Val (Err v)
    | Val (Ok _) => snd (insert_strict_back k v z) = Val (Ok tt) /\ zosdit_len z' = zosdit_len z + 1 /\ exists l1 l2 k',
        zosdit_iter z = l1 ++ l2 /\ zosdit_iter z' = l1 ++ (k', v) :: l2 /\
        same_points k' k /\ (forall e, In e l1 -> up_to (fst e) k) /\ (forall e, In e l2 -> up_to k (fst e))
    end.
  Proof.
    intros z t k v w z' o w' X E Y. apply zleft_ZWF in X. pose proof (a_strict_back P RP ik RK z t k v w X E) as S. cbv zeta in S. change (zosdit_len z) with (z_len z) in Y. rewrite Y in S. cbn [fst] in S.
    pose proof (C158_any_insert_strict_back P ik k v (zosdit_len z) t w z' o w' Y) as A.
    assert (Ez : mkZosdit (zosdit_len z) (entries t) = z) by (destruct z; cbn in *; congruence). rewrite Ez in A. destruct o as [[[]|u]|].
    - pose proof (a_strict_back_where P RP ik RK z t k v w z' w' X E Y) as Wh. split; [|exact Wh].
      destruct S as [S|[[S S']|(_ & _ & S & S')]]; [discriminate|rewrite <- S; reflexivity|exact S'].
    - destruct A as [-> ->]. split; [reflexivity|]. split; [reflexivity|]. destruct S as [S|[[S _]|(_ & _ & S & _)]]; [discriminate S|rewrite <- S; reflexivity|discriminate S].
    - exact A.
  Qed.
  Theorem C164_zosdit_cut : forall {Q} {IQ : InclusiveInterval I Q} (iq : interval_code W I Q) k_overlaps below z t (q : Q) w, intervals_or_panic iq -> overlaps_or_panic k_overlaps ->
    zleft z -> entries t = z_inner z -> lands (fst (zosdit_cut_e P ik C iq k_overlaps below q (zosdit_len z) t w)) (zosdit_cut q z) (zosdit_cut_t q z).
  Proof. intros Q IQ iq k_overlaps below z t q w RQ RKO X E. exact (a_zcut veq P RP ik RK C RC iq RQ k_overlaps RKO below z t q (zleft_ZWF z X) E w). Qed.
End Maps.

(** ** [Gqdit]: [g] was left by any history *)
Section Gqdit.
  Context {W I : Type} `{PL : PointLaws I}.
  Context {K : Type} {IK : InclusiveInterval I K} {IL : IntervalLaws I K}.
  Context {D : Type} {OD : Ord D} {OL : OrdLaws D}.
  Context (P : point_code W I) (RP : points_or_panic P) (ik : interval_code W I K) (RK : intervals_or_panic ik).
  Context (from : Interval I -> user W K) (RF : forall i, right_or_panic (from i) (ifrom i)).
  Context (J : id_code W D) (RJ : all_ids_or_panic J) (shape : W -> list D -> tree D unit) (SF : faithful_sets shape).
  Context (overlaps_k : K -> K -> user W bool) (RO : overlaps_or_panic overlaps_k) (i_overlaps : Interval I -> K -> user W bool) (RIO : overlaps_or_panic i_overlaps).
  Implicit Types (g other : Gqdit K D) (w : W) (cs : list (gcall K D)).
  Notation trees := (nat -> nat -> BTreeMap K (list D) -> tree K (list D)).
  Lemma stop_sets cs g : gstops cs gnew g -> WF g /\ sets g.
  Proof. intros X. destruct (gnew_sets (K := K) (D := D)) as [Wn Sn]. exact (gstops_sets cs gnew g X Wn Sn). Qed.

  Theorem C164_gqdit_new : forall (T : trees), (forall i, faithful (T i)) -> right_or_panic (gqdit_new_e P ik from T) (gnew (K := K) (D := D)).
  Proof. exact (a_new_gnew P RP ik RK from RF). Qed.
  Theorem C164_gqdit_queries : forall {Q} {IQ : InclusiveInterval I Q} (iq : interval_code W I Q) kc cs g t d (q : Q) p, intervals_or_panic iq -> contains_or_panic kc -> gstops cs gnew g -> entries t = g ->
    may (gaps_no_identifier_e P ik iq t q) (gaps_no_identifier g q) /\ may (gaps_with_identifier_e P ik from J shape kc iq t d q) (gaps_with_identifier g d q) /\
    may (identifiers_at_point_e P ik from J t p) (identifiers_at_point g p).
  Proof.
    intros Q IQ iq kc cs g t d q p RQ RKC X E. destruct (stop_sets cs g X) as [Wg Sg]. split; [exact (a_gaps_no P RP ik RK g Wg Sg t E iq RQ q)|].
    split; [exact (a_gaps_with P RP ik RK from RF J RJ shape SF kc RKC g Wg Sg t E iq RQ d q)|exact (a_at_point P RP ik RK from RF J RJ g Wg t E p)].
  Qed.
  Theorem C164_gqdit_insert : forall (T : trees) cs ids k g w, (forall i, faithful (T i)) -> gstops cs gnew g ->
    lands (fst (gqdit_insert_e P ik from J shape overlaps_k T ids k g w)) (gqdit_insert ids k g) (gqdit_insert_t ids k g).
  Proof.
    intros T cs ids k g w TF X. destruct (stop_sets cs g X) as [Wg Sg]. exact (a_gqdit_insert P RP ik RK from RF J RJ shape SF overlaps_k RO T ids k g TF Wg Sg w).
  Qed.
  Theorem C164_cut_with_identifiers : forall {Q} {IQ : InclusiveInterval I Q} (iq : interval_code W I Q) k_overlaps (T : trees) cs ids (q : Q) g w,
    intervals_or_panic iq -> overlaps_or_panic k_overlaps -> (forall i, faithful (T i)) -> is_set ids -> gstops cs gnew g ->
    lands (fst (cut_with_identifiers_e P ik from J shape overlaps_k iq k_overlaps T ids q g w)) (cut_with_identifiers ids q g) (cut_with_identifiers_t ids q g).
  Proof.
    intros Q IQ iq k_overlaps T cs ids q g w RQ RKO TF Si X. destruct (stop_sets cs g X) as [Wg Sg].
    exact (a_cut_with P RP ik RK from RF J RJ shape SF overlaps_k RO iq RQ k_overlaps RKO T ids q g TF Si Wg Sg w).
  Qed.
  Theorem C164_cut_all_identifiers : forall {Q} {IQ : InclusiveInterval I Q} (iq : interval_code W I Q) k_overlaps (T : trees) cs (q : Q) g w,
    intervals_or_panic iq -> overlaps_or_panic k_overlaps -> (forall i, faithful (T i)) -> gstops cs gnew g ->
    lands (fst (cut_all_identifiers_e P ik from J overlaps_k iq k_overlaps T q g w)) (cut_all_identifiers q g) (cut_all_identifiers_t q g).
  Proof.
    intros Q IQ iq k_overlaps T cs q g w RQ RKO TF X. destruct (stop_sets cs g X) as [Wg Sg].
    exact (a_cut_all P RP ik RK from RF J RJ overlaps_k RO iq RQ k_overlaps RKO T q g TF Wg Sg w).
  Qed.
  (** Both [Gqdit]s may have been left by panics; [other] is emptied entry by entry. *)
  Theorem C164_append : forall To (T : nat -> trees) cs cs' g other w g' other' o w', (forall m, entries (To m) = m) -> (forall j i, faithful (T j i)) ->
    gstops cs gnew g -> gstops cs' gnew other -> append_e P ik from J shape overlaps_k i_overlaps To T g other w = ((g', other', o), w') ->
    ((g', other', o) = append g other \/ o = Panic /\ In g' (append_t g other)) /\ In other' (remove_overlapping_t (mkInterval MIN MAX : Interval I) other).
  Proof.
    intros To T cs cs' g other w g' other' o w' TF TF' X X' E. destruct (stop_sets cs g X) as [Wg Sg]. destruct (stop_sets cs' other X') as [Wo _].
    pose proof (a_append P RP ik RK from RF J RJ shape SF overlaps_k RO i_overlaps RIO To T g other w TF TF' Wg Sg Wo) as Y. rewrite E in Y. exact Y.
  Qed.
  (** An insertion that panics: each point has the identifiers it had, none, or the new ones;
      outside [k] at most one run of points with equal identifiers is lost. *)
  Theorem C164_interrupted_insert : forall (T : trees) cs ids k g w g' w', (forall i, faithful (T i)) -> gstops cs gnew g ->
    gqdit_insert_e P ik from J shape overlaps_k T ids k g w = ((g', Panic), w') ->
    (forall p, identifiers_at_point g' p = identifiers_at_point g p \/ identifiers_at_point g' p = Val [] \/
       covers k p /\ exists x, identifiers_at_point g p = Val x /\ identifiers_at_point g' p = Val (bset_extend x ids)) /\
    exists j : Interval I,
      (forall p p', covers j p -> covers j p' -> ~ covers k p -> ~ covers k p' -> identifiers_at_point g p = identifiers_at_point g p') /\
      (forall p, ~ covers k p -> ~ covers j p -> identifiers_at_point g' p = identifiers_at_point g p).
  Proof.
    intros T cs ids k g w g' w' TF X E. pose proof (C164_gqdit_insert T cs ids k g w TF X) as L. rewrite E in L. destruct (stop_sets cs g X) as [Wg _].
    pose proof (stops_in (fst ((g', Panic), w')) _ _ L (insert_t_last ids k g Wg)) as Y. cbn [fst] in Y. exact (partly_ids (fun x => bset_extend x ids) k g g' Wg (proj2 (insert_t_any ids k g Wg) g' Y)).
  Qed.
  (** Histories; what is left is in order, its values are sets. *)
  Theorem C164_gqdit_history : forall T cs w g w', (forall path, faithful (T path)) -> Forall gives_sets cs ->
    ghistory P ik from J shape overlaps_k i_overlaps T cs w = (Val g, w') ->
    gstops cs gnew g /\ ascending (map fst (iter g)) /\ Forall valid (map fst (iter g)) /\ Forall is_set (map snd (iter g)).
  Proof.
    intros T cs w g w' TF Fc E. pose proof (a_ghistory P RP ik RK from RF J RJ shape SF overlaps_k RO i_overlaps RIO T TF cs w Fc) as X. rewrite E in X. cbn [fst] in X.
    destruct X as (X & Wg & Sg). split; [exact X|]. destruct (proj2 (ascending_WF g) Wg) as [A B]. split; [exact A|]. split; [exact B|].
    rewrite Forall_forall. intros s Hs. apply in_map_iff in Hs. destruct Hs as ((k & s') & <- & Hi). exact (Sg k s' Hi).
  Qed.
End Gqdit.

(** ** Examples: [u8]; the world counts the calls of user code still to succeed *)
Definition spending_p : point_code nat u8 := {| e_cmp := fun x y => spend (cmp x y); e_lt := fun x y => spend (ltb x y); e_gt := fun x y => spend (gtb x y);
  e_le := fun x y => spend (leb x y); e_ge := fun x y => spend (geb x y); e_eq := fun x y => spend (eqb x y); e_up := fun x => spend (up x); e_down := fun x => spend (down x) |}.
Definition spending_i : interval_code nat u8 (Interval u8) := {| e_start := fun x => spend (istart x); e_end := fun x => spend (iend x); e_valid := fun x => spend (is_valid x) |}.
Definition spending_o : Interval u8 -> Interval u8 -> user nat bool := fun a b w => match w with 0 => (Panic, 0) | S w => (overlaps a b, w) end.
Definition spending_kc : Interval u8 -> u8 -> user nat bool := fun k p => spend (contains_point k p).
Definition spending_ids : id_code nat u8 := {| i_cmp := fun x y => spend (cmp x y); i_eq := fun x y => spend (eqb x y); i_clone := spend |}.
Definition ex_trace_zosdit : ZosditMap (Interval u8) nat :=
  fst (fst (zehistory spending spending_p spending_i spending_kc spending_o Panic some_shapes [CInsert (1 --> 9 : Interval u8) 7; CInsert (1 --> 9) 8; CInsert (9 --> 20) 5; CCut (4 --> 5)] z_new 220)).
Example C164_example :
  points_or_panic spending_p /\ intervals_or_panic spending_i /\ overlaps_or_panic spending_o /\ contains_or_panic spending_kc /\ entries_or_panic Nat.eqb spending /\ all_ids_or_panic spending_ids /\
  Forall gives_sets ex_crash_calls /\ reachable ex_crash_map /\ entries (some_shapes 3 ex_crash_map) = ex_crash_map /\
  zleft spending_p spending_i spending spending_o spending_kc ex_trace_zosdit /\
  (** a comparison panics after both neighbours were taken out: they are lost, unlike in C163 *)
  insert_merge_touching_e spending_p spending_i spending spending_o some_shapes (10 --> 10) 6 ex_crash_map 44 = ((ex_crash_map, Panic), 0) /\
  insert_merge_touching_e spending_p spending_i spending spending_o some_shapes (10 --> 10) 6 ex_crash_map 49 = (([(21 --> 30, 7)], Panic), 0) /\
  insert_merge_touching_e spending_p spending_i spending spending_o some_shapes (10 --> 10) 6 ex_crash_map 52 = (([(1 --> 20, 6); (21 --> 30, 7)], Val (Ok (1 --> 20))), 0) /\
  cut_e spending_p spending_i spending spending_i spending_o (5 --> 25) (some_shapes 3 ex_crash_map) 29 = (([(1 --> 4, 7); (11 --> 20, 8); (21 --> 30, 7)], Panic), 0) /\
  (** [insert_strict_back] does all or nothing *)
  insert_strict_back_e spending_p spending_i (20 --> 30) 6 (zosdit_len ex_crash_zosdit) (some_shapes 3 (z_inner ex_crash_zosdit)) 55 = ((ex_crash_zosdit, Panic), 0) /\
  snd (fst (insert_strict_back_e spending_p spending_i (20 --> 30) 6 (zosdit_len ex_crash_zosdit) (some_shapes 3 (z_inner ex_crash_zosdit)) 56)) = Val (Ok tt) /\
  ghistory spending_p spending_i (fun i => spend (ifrom i)) spending_ids ex_sets spending_o spending_o ex_trees ex_crash_calls 5 = (Panic, 0) /\
  ghistory spending_p spending_i (fun i => spend (ifrom i)) spending_ids ex_sets spending_o spending_o ex_trees ex_crash_calls 133 =
    (Val [(0 --> 9, []); (10 --> 14, ['1; '2]); (21 --> 255, [])], 0) /\
  ghistory spending_p spending_i (fun i => spend (ifrom i)) spending_ids ex_sets spending_o spending_o ex_trees ex_crash_calls 250 =
    (Val [(0 --> 9, []); (10 --> 14, ['1; '2]); (15 --> 20, ['1; '2; '3]); (31 --> 255, [])], 0).
Proof.
  split; [repeat split; intros; apply spend_right|]. split; [repeat split; intros; apply spend_right|].
  split; [intros a b [|w]; [right|left]; reflexivity|]. split; [intros k p; apply spend_right|].
  split; [repeat split; intros; apply spend_right|]. split; [repeat split; intros; apply spend_right|].
  split; [repeat constructor|]. split; [exists [OpInsertStrict (1 --> 9 : Interval u8) 7; OpInsertStrict (11 --> 20) 8; OpInsertStrict (21 --> 30) 7]; reflexivity|].
  split; [vm_compute; reflexivity|].
  split. { exists Panic, some_shapes, [CInsert (1 --> 9 : Interval u8) 7; CInsert (1 --> 9) 8; CInsert (9 --> 20) 5; CCut (4 --> 5)], 220. split; [intros n m; apply some_shapes_good|reflexivity]. }
  repeat split; vm_compute; reflexivity.
Qed.
Print Assumptions C164_queries.
Print Assumptions C164_remove_overlapping.
Print Assumptions C164_cut.
Print Assumptions C164_insert_strict.
Print Assumptions C164_insert_overwrite.
Print Assumptions C164_insert_merge_touching.
Print Assumptions C164_insert_merge_touching_if_values_equal.
Print Assumptions C164_insert_merge_overlapping.
Print Assumptions C164_insert_merge_touching_or_overlapping.
Print Assumptions C164_any_call.
Print Assumptions C164_history.
Print Assumptions C164_zosdit_history.
Print Assumptions C164_zosdit_queries.
Print Assumptions C164_remove_last_value_at_point.
Print Assumptions C164_insert_strict_back.
Print Assumptions C164_zosdit_cut.
Print Assumptions C164_gqdit_new.
Print Assumptions C164_gqdit_queries.
Print Assumptions C164_gqdit_insert.
Print Assumptions C164_cut_with_identifiers.
Print Assumptions C164_cut_all_identifiers.
Print Assumptions C164_append.
Print Assumptions C164_interrupted_insert.
Print Assumptions C164_gqdit_history.
