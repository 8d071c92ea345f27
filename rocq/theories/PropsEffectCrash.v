(** * PropsEffectCrash: C163, user code that gives the right answers or panics.

    The points and the intervals have side effects but give the right answers; [K::from],
    [clone] and [==] of the values give the right answer or panic, as they like.  What a call
    leaves and returns is then what [CrashModel] says for some crash point, so that all that
    C69-C74 and C153 say about crash points holds for such code. *)
From Coq Require Import List ZArith Bool Arith Lia.
From Verif Require Import Base BTree UtilsModel IntervalModel NoditModel NoditOps ZosditModel ZosditOps GqditModel GqditOps InstancesModel Instances Spec TreeShape CrashModel
  NoditFacts NoditInv NoditMore NoditSim NoditQueries CrashFacts CrashProofs CrashZosdit CrashGqdit CrashLen
  EffectModel EffectOps EffectFacts EffectRight EffectZosditModel EffectZosditOps EffectGqditModel EffectGqditOps EffectGqditRight
  LooksMoreFacts EffectCrashOps EffectCrashFacts EffectCrashMore PropsCrash PropsCrashLen PropsEffect PropsEffectZosdit PropsEffectGqdit.
Import ListNotations.
Open Scope nat_scope.

(** ** [NoditMap] *)
Section Maps.
  Context {W I : Type} `{PL : PointLaws I}.
  Context {K : Type} {IK : InclusiveInterval I K} {IL : IntervalLaws I K}.
  Context {V : Type} (veq : V -> V -> bool).
  Context (P : point_code W I) (RP : right_points P) (ik : interval_code W I K) (RK : right_intervals ik).
  Context (C : entry_code W I K V) (RC : entries_or_panic veq C).
  Context (overlaps_k : K -> K -> user W bool) (RO : right_overlaps overlaps_k).
  Implicit Types (m : NoditMap K V) (w : W).

  Theorem C163_cut : forall {Q} {IQ : InclusiveInterval I Q} (iq : interval_code W I Q) k_overlaps m t (q : Q) w, right_intervals iq -> right_overlaps k_overlaps ->
    reachable m -> entries t = m -> stops_as (fst (cut_e P ik C iq k_overlaps q t w)) (cut_c q m).
  Proof. intros Q IQ iq k_overlaps m t q w RQ RKO R E. exact (s_cut veq P RP ik RK C RC iq RQ k_overlaps RKO m t q (reachable_WF m R) E w). Qed.
  Theorem C163_insert_overwrite : forall T m k v w, faithful T -> reachable m ->
    stops_as (fst (insert_overwrite_e P ik C overlaps_k T k v m w)) (insert_overwrite_c k v m).
  Proof. intros T m k v w TF R. exact (s_insert_overwrite veq P RP ik RK C RC overlaps_k RO T TF m k v (reachable_WF m R) w). Qed.
  Theorem C163_insert_merge_touching : forall T m k v w, faithful T -> reachable m ->
    stops_as (fst (insert_merge_touching_e P ik C overlaps_k T k v m w)) (insert_merge_touching_c k v m).
  Proof. intros T m k v w TF R. exact (s_merge_touching veq P RP ik RK C RC overlaps_k RO T TF m k v (reachable_WF m R) w). Qed.
  Theorem C163_insert_merge_touching_if_values_equal : forall T m k v w, faithful T -> reachable m ->
    stops_as (fst (insert_merge_touching_if_values_equal_e P ik C overlaps_k T k v m w)) (insert_merge_touching_if_values_equal_c veq k v m).
  Proof. intros T m k v w TF R. exact (s_merge_equal veq P RP ik RK C RC overlaps_k RO T TF m k v (reachable_WF m R) w). Qed.
  Theorem C163_insert_merge_overlapping : forall T m k v w, faithful T -> reachable m ->
    stops_as (fst (insert_merge_overlapping_e P ik C overlaps_k T k v m w)) (insert_merge_overlapping_c k v m).
  Proof. intros T m k v w TF R. exact (s_merge_overlapping veq P RP ik RK C RC overlaps_k RO T TF m k v (reachable_WF m R) w). Qed.
  Theorem C163_insert_merge_touching_or_overlapping : forall T m k v w, faithful T -> reachable m ->
    stops_as (fst (insert_merge_touching_or_overlapping_e P ik C overlaps_k T k v m w)) (insert_merge_touching_or_overlapping_c k v m).
  Proof. intros T m k v w TF R. exact (s_merge_both veq P RP ik RK C RC overlaps_k RO T TF m k v (reachable_WF m R) w). Qed.
  (** Histories: every call has its own crash point; what is left could be built without panics. *)
  Theorem C163_history : forall T cs w, (forall n, faithful (T n)) ->
    (exists fuels, length fuels = length cs /\ fst (fst (ehistory C P ik overlaps_k T cs new w)) = run_c (combine (map (as_op veq) cs) fuels)) /\
    reachable (fst (fst (ehistory C P ik overlaps_k T cs new w))).
  Proof.
    intros T cs w TF. destruct (s_history veq P RP ik RK C RC overlaps_k RO T cs TF new w (reachable_WF new (ex_intro _ [] eq_refl))) as (fs & L & E).
    split; [exists fs; split; [exact L|exact E]|]. rewrite E. exact (C69_reachable_without_panics (combine (map (as_op veq) cs) fs)).
  Qed.
  (** A cut that panics: as in C69. *)
  Theorem C163_interrupted_cut : forall {Q} {IQ : InclusiveInterval I Q} (iq : interval_code W I Q) k_overlaps m t (q : Q) w m' w', right_intervals iq -> right_overlaps k_overlaps ->
    reachable m -> entries t = m -> valid q -> cut_e P ik C iq k_overlaps q t w = ((m', Panic), w') ->
    (forall e, In e (iter m) -> ~ overlap (fst e) q -> In e (iter m')) /\
    exists k0 v0, In (k0, v0) (iter m) /\ overlap k0 q /\
      (forall p v, plt p (istart k0) -> (maps_to m' p v <-> maps_to m p v /\ ~ covers q p)) /\
      (forall p v, plt (iend k0) p -> (maps_to m' p v <-> maps_to m p v)) /\
      (forall p v, covers k0 p -> maps_to m' p v -> v = v0 /\ ~ covers q p).
  Proof.
    intros Q IQ iq k_overlaps m t q w m' w' RQ RKO R E Vq X. pose proof (C163_cut iq k_overlaps m t q w RQ RKO R E) as S. rewrite X in S. destruct S as [n S].
    exact (cut_c_stopped q m n m' (reachable_WF m R) Vq S).
  Qed.
  (** The merging inserts that do not look at values change nothing when they panic. *)
  Theorem C163_merging_inserts_unchanged : forall T m k v w m' w', faithful T -> reachable m ->
    insert_merge_touching_e P ik C overlaps_k T k v m w = ((m', Panic), w') \/
    insert_merge_overlapping_e P ik C overlaps_k T k v m w = ((m', Panic), w') \/
    insert_merge_touching_or_overlapping_e P ik C overlaps_k T k v m w = ((m', Panic), w') -> m' = m.
  Proof.
    intros T m k v w m' w' TF R [X|[X|X]].
    - pose proof (C163_insert_merge_touching T m k v w TF R) as S. rewrite X in S. destruct S as [n S]. exact (merge_touching_c_panic _ _ _ _ _ (reachable_WF m R) S).
    - pose proof (C163_insert_merge_overlapping T m k v w TF R) as S. rewrite X in S. destruct S as [n S]. exact (merge_overlapping_c_panic _ _ _ _ _ (reachable_WF m R) S).
    - pose proof (C163_insert_merge_touching_or_overlapping T m k v w TF R) as S. rewrite X in S. destruct S as [n S]. exact (merge_tor_c_panic _ _ _ _ _ (reachable_WF m R) S).
  Qed.

  (** ** [ZosditMap]: [cut] is the only method that runs such code *)
  Theorem C163_zosdit_cut : forall {Q} {IQ : InclusiveInterval I Q} (iq : interval_code W I Q) k_overlaps below os t (q : Q) w, right_intervals iq -> right_overlaps k_overlaps ->
    entries t = z_inner (zrun_c os) -> stops_as_z (fst (zosdit_cut_e P ik C iq k_overlaps below q (zosdit_len (zrun_c os)) t w)) (zosdit_cut_c q (zrun_c os)).
  Proof. intros Q IQ iq k_overlaps below os t q w RQ RKO E. exact (s_zcut veq P RP ik RK C RC iq RQ k_overlaps RKO below (zrun_c os) t q (zrun_c_ZWF os) E w). Qed.
  (** [len] after a cut: right if it returned, at most two more if it panicked. *)
  Theorem C163_zosdit_len : forall {Q} {IQ : InclusiveInterval I Q} (iq : interval_code W I Q) k_overlaps below os t (q : Q) w z' o w', right_intervals iq -> right_overlaps k_overlaps ->
    entries t = z_inner (zrun_c os) -> valid q -> zosdit_cut_e P ik C iq k_overlaps below q (zosdit_len (zrun_c os)) t w = ((z', o), w') ->
    exists x, zosdit_len z' + length (zosdit_iter (zrun_c os)) = zosdit_len (zrun_c os) + length (zosdit_iter z') + x /\
      match o with Val _ => x = 0 | Panic => x <= 2 end.
  Proof.
    intros Q IQ iq k_overlaps below os t q w z' o w' RQ RKO E Vq X. pose proof (C163_zosdit_cut iq k_overlaps below os t q w RQ RKO E) as S. rewrite X in S. unfold stops_as_z in S. cbn [fst snd] in S.
    destruct o as [a|]; destruct S as [n S].
    - exists 0. split; [|reflexivity]. rewrite Nat.add_0_r. exact (C74_returning_cut_len_partial os q (n + 0) z' a (S 0)).
    - destruct (C74_interrupted_cut_len_partial os q n z' Vq S) as (x & Lx & Ex). exists x. split; [exact Ex|exact Lx].
  Qed.
End Maps.

(** ** [Gqdit] *)
Section Gqdit.
  Context {W I : Type} `{PL : PointLaws I}.
  Context {K : Type} {IK : InclusiveInterval I K} {IL : IntervalLaws I K}.
  Context {D : Type} {OD : Ord D} {OL : OrdLaws D}.
  Context (P : point_code W I) (RP : right_points P) (ik : interval_code W I K) (RK : right_intervals ik).
  Context (from : Interval I -> user W K) (RF : forall i, right_or_panic (from i) (ifrom i)).
  Context (J : id_code W D) (RJ : ids_or_panic J) (shape : W -> list D -> tree D unit) (SF : faithful_sets shape).
  Context (overlaps_k : K -> K -> user W bool) (RO : right_overlaps overlaps_k) (i_overlaps : Interval I -> K -> user W bool) (RIO : right_overlaps i_overlaps).
  Implicit Types (g other : Gqdit K D) (w : W) (cs : list (gcall K D)).
  Notation trees := (nat -> nat -> BTreeMap K (list D) -> tree K (list D)).
  Lemma left_sets cs g : gcrashes cs gnew g -> WF g /\ sets g.
  Proof. intros X. destruct (gnew_sets (K := K) (D := D)) as [Wn Sn]. exact (gcrashes_sets cs gnew g X Wn Sn). Qed.

  Theorem C163_gqdit_new : forall (T : trees), (forall i, faithful (T i)) -> right_or_panic (gqdit_new_e P ik from T) (gnew (K := K) (D := D)).
  Proof. exact (s_new P RP ik RK from RF). Qed.
  Theorem C163_gqdit_insert : forall (T : trees) cs ids k g w, (forall i, faithful (T i)) -> gcrashes cs gnew g ->
    stops_as_g (fst (gqdit_insert_e P ik from J shape overlaps_k T ids k g w)) (gqdit_insert_c ids k g).
  Proof.
    intros T cs ids k g w TF X. destruct (left_sets cs g X) as [Wg Sg]. apply stops_lift.
    exact (s_gqdit_insert P RP ik RK from RF J RJ shape SF overlaps_k RO T ids k g TF Wg Sg w).
  Qed.
  Theorem C163_cut_with_identifiers : forall {Q} {IQ : InclusiveInterval I Q} (iq : interval_code W I Q) k_overlaps (T : trees) cs ids (q : Q) g w,
    right_intervals iq -> right_overlaps k_overlaps -> (forall i, faithful (T i)) -> is_set ids -> gcrashes cs gnew g ->
    stops_as_g (fst (cut_with_identifiers_e P ik from J shape overlaps_k iq k_overlaps T ids q g w)) (cut_with_identifiers_c ids q g).
  Proof.
    intros Q IQ iq k_overlaps T cs ids q g w RQ RKO TF Si X. destruct (left_sets cs g X) as [Wg Sg]. apply stops_lift.
    exact (s_cut_with P RP ik RK from RF J RJ shape SF overlaps_k RO iq RQ k_overlaps RKO T ids q g TF Si Wg Sg w).
  Qed.
  Theorem C163_cut_all_identifiers : forall {Q} {IQ : InclusiveInterval I Q} (iq : interval_code W I Q) k_overlaps (T : trees) cs (q : Q) g w,
    right_intervals iq -> right_overlaps k_overlaps -> (forall i, faithful (T i)) -> gcrashes cs gnew g ->
    stops_as_g (fst (cut_all_identifiers_e P ik from J overlaps_k iq k_overlaps T q g w)) (cut_all_identifiers_c q g).
  Proof.
    intros Q IQ iq k_overlaps T cs q g w RQ RKO TF X. destruct (left_sets cs g X) as [Wg Sg]. apply stops_lift.
    exact (s_cut_all P RP ik RK from RF J RJ overlaps_k RO iq RQ k_overlaps RKO T q g TF Wg Sg w).
  Qed.
  (** Both [Gqdit]s may have been left by panics. *)
  Theorem C163_append : forall To (T : nat -> trees) cs cs' g other w g' other' o w', (forall m, entries (To m) = m) -> (forall j i, faithful (T j i)) ->
    gcrashes cs gnew g -> gcrashes cs' gnew other -> append_e P ik from J shape overlaps_k i_overlaps To T g other w = ((g', other', o), w') ->
    stops_as_g (g', o) (append_c g other).
  Proof.
    intros To T cs cs' g other w g' other' o w' TF TF' X X' E. destruct (left_sets cs g X) as [Wg Sg]. destruct (left_sets cs' other X') as [Wo _].
    pose proof (s_append P RP ik RK from RF J RJ shape SF overlaps_k RO i_overlaps RIO To T g other w TF TF' Wg Sg Wo) as Y. rewrite E in Y. exact Y.
  Qed.
  (** Histories; what is left is in order, its values are sets. *)
  Theorem C163_gqdit_history : forall T cs w g w', (forall path, faithful (T path)) -> Forall gives_sets cs ->
    ghistory P ik from J shape overlaps_k i_overlaps T cs w = (Val g, w') ->
    gcrashes cs gnew g /\ ascending (map fst (iter g)) /\ Forall valid (map fst (iter g)) /\ Forall is_set (map snd (iter g)).
  Proof.
    intros T cs w g w' TF Fc E. pose proof (s_ghistory P RP ik RK from RF J RJ shape SF overlaps_k RO i_overlaps RIO T TF cs w Fc) as X. rewrite E in X. cbn [fst] in X.
    destruct X as (X & Wg & Sg). split; [exact X|]. destruct (proj2 (ascending_WF g) Wg) as [A B]. split; [exact A|]. split; [exact B|].
    rewrite Forall_forall. intros s Hs. apply in_map_iff in Hs. destruct Hs as ((k & s') & <- & Hi). exact (Sg k s' Hi).
  Qed.
End Gqdit.

(** ** Examples: [u8]; the world counts the calls of [K::from], [clone] and [==] still to
    succeed; points and intervals leave it alone *)
Definition quiet {A} (o : outcome A) : user nat A := uout o.
Definition quiet_p : point_code nat u8 := {| e_cmp := fun x y => quiet (Val (cmp x y)); e_lt := fun x y => quiet (Val (ltb x y)); e_gt := fun x y => quiet (Val (gtb x y));
  e_le := fun x y => quiet (Val (leb x y)); e_ge := fun x y => quiet (Val (geb x y)); e_eq := fun x y => quiet (Val (eqb x y)); e_up := fun x => quiet (Val (up x)); e_down := fun x => quiet (Val (down x)) |}.
Definition quiet_i : interval_code nat u8 (Interval u8) := {| e_start := fun x => quiet (Val (istart x)); e_end := fun x => quiet (Val (iend x)); e_valid := fun x => quiet (Val (is_valid x)) |}.
Definition quiet_o : Interval u8 -> Interval u8 -> user nat bool := fun a b => quiet (overlaps a b).
Definition spend {A} (a : A) : user nat A := fun w => match w with 0 => (Panic, 0) | S w => (Val a, w) end.
Definition spending : entry_code nat u8 (Interval u8) nat := {| e_from := fun i => spend (ifrom i); e_clone := spend; e_veq := fun v v' => spend (Nat.eqb v v') |}.
Definition spending_d : id_code nat u8 := {| i_cmp := fun x y => quiet (Val (cmp x y)); i_eq := fun x y => spend (eqb x y); i_clone := spend |}.
Definition ex_crash_map : NoditMap (Interval u8) nat := run [OpInsertStrict (1 --> 9 : Interval u8) 7; OpInsertStrict (11 --> 20) 8; OpInsertStrict (21 --> 30) 7].
Definition ex_crash_zosdit : ZosditMap (Interval u8) nat := zrun_c [(ZInsertStrictBack (1 --> 9 : Interval u8) 7, 0); (ZInsertStrictBack (1 --> 9) 8, 0); (ZInsertStrictBack (9 --> 20) 5, 0)].
Definition ex_crash_calls : list (gcall (Interval u8) u8) :=
  [CallInsert ['1; '2] (10 --> 20); CallInsert ['3] (15 --> 30); CallAppend [CallInsert ['4] (18 --> 40); CallCutAll (25 --> 30)]; CallCutWith ['1] (12 --> 25)].
Lemma spend_right {A} (a : A) : right_or_panic (spend a) a.
Proof. intros [|w]; [right|left]; reflexivity. Qed.
Definition without_fuel {A B : Type} (r : A * outcome (B * nat)) : A * outcome B := (fst r, omap fst (snd r)).
Example C163_example :
  right_points quiet_p /\ right_intervals quiet_i /\ right_overlaps quiet_o /\ entries_or_panic Nat.eqb spending /\ ids_or_panic spending_d /\ Forall gives_sets ex_crash_calls /\
  reachable ex_crash_map /\ entries (some_shapes 3 ex_crash_map) = ex_crash_map /\
  (** each crash point is met *)
  map (fun n => fst (cut_e quiet_p quiet_i spending quiet_i quiet_o (5 --> 25) (some_shapes 3 ex_crash_map) n)) (seq 0 10) =
    map (fun n => without_fuel (cut_c (5 --> 25 : Interval u8) ex_crash_map n)) (seq 0 10) /\
  cut_e quiet_p quiet_i spending quiet_i quiet_o (5 --> 25) (some_shapes 3 ex_crash_map) 5 = (([(1 --> 4, 7)], Panic), 0) /\
  cut_e quiet_p quiet_i spending quiet_i quiet_o (5 --> 25) (some_shapes 3 ex_crash_map) 9 = (([(1 --> 4, 7); (26 --> 30, 7)], Val [(5 --> 9, 7); (11 --> 20, 8); (21 --> 25, 7)]), 2) /\
  (** [K::from] panics after a neighbour was taken out: the neighbour is lost *)
  insert_merge_touching_if_values_equal_e quiet_p quiet_i spending quiet_o some_shapes (10 --> 10) 7 ex_crash_map 4 = (([(11 --> 20, 8); (21 --> 30, 7)], Panic), 0) /\
  (** [len] stays one too high *)
  map (fun n => fst (zosdit_cut_e quiet_p quiet_i spending quiet_i quiet_o Panic (4 --> 5) (zosdit_len ex_crash_zosdit) (some_shapes 3 (z_inner ex_crash_zosdit)) n)) (seq 0 7) =
    map (zosdit_cut_c (4 --> 5 : Interval u8) ex_crash_zosdit) (seq 0 7) /\
  zosdit_cut_e quiet_p quiet_i spending quiet_i quiet_o Panic (4 --> 5) (zosdit_len ex_crash_zosdit) (some_shapes 3 (z_inner ex_crash_zosdit)) 0 =
    ((mkZosdit 2 [(9 --> 20, [5])], Panic), 0) /\
  ghistory quiet_p quiet_i (fun i => spend (ifrom i)) spending_d ex_sets quiet_o quiet_o ex_trees ex_crash_calls 0 = (Panic, 0) /\
  ghistory quiet_p quiet_i (fun i => spend (ifrom i)) spending_d ex_sets quiet_o quiet_o ex_trees ex_crash_calls 14 =
    (Val [(0 --> 9, []); (15 --> 20, ['1; '2; '3]); (21 --> 30, ['3]); (31 --> 255, [])], 0).
Proof.
  split; [repeat split|]. split; [repeat split|]. split; [intros a b w; reflexivity|].
  split; [repeat split; intros; apply spend_right|]. split; [repeat split; intros; apply spend_right|].
  split; [repeat constructor|]. split; [exists [OpInsertStrict (1 --> 9 : Interval u8) 7; OpInsertStrict (11 --> 20) 8; OpInsertStrict (21 --> 30) 7]; reflexivity|].
  split; [vm_compute; reflexivity|]. repeat split; vm_compute; reflexivity.
Qed.
Print Assumptions C163_cut.
Print Assumptions C163_insert_overwrite.
Print Assumptions C163_insert_merge_touching.
Print Assumptions C163_insert_merge_touching_if_values_equal.
Print Assumptions C163_insert_merge_overlapping.
Print Assumptions C163_insert_merge_touching_or_overlapping.
Print Assumptions C163_history.
Print Assumptions C163_interrupted_cut.
Print Assumptions C163_merging_inserts_unchanged.
Print Assumptions C163_zosdit_cut.
Print Assumptions C163_zosdit_len.
Print Assumptions C163_gqdit_new.
Print Assumptions C163_gqdit_insert.
Print Assumptions C163_cut_with_identifiers.
Print Assumptions C163_cut_all_identifiers.
Print Assumptions C163_append.
Print Assumptions C163_gqdit_history.
