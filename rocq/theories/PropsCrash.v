(** * PropsCrash: what a panic in user code leaves behind (C69-C74).

    [run_c], [zrun_c] and [grun_c] are histories in which every call has its own
    crash point: the number of calls of user code ([V::clone], [V::eq],
    [K::from]) that return before the next one panics.  A panic is caught by the
    caller, who goes on using the structure. *)
From Coq Require Import List ZArith Bool Lia Sorting.Sorted.
From Verif Require Import Base BTree UtilsModel IntervalModel NoditModel NoditOps ZosditModel ZosditOps GqditModel GqditOps CrashModel
  Spec InstancesModel Instances PointFacts IntervalFacts ListFacts NoditFacts NoditQueries NoditInv NoditMore NoditSim
  ZosditFacts ZosditMut ZosditProofs GqditFacts GqditProofs GqditGaps CrashFacts CrashProofs CrashZosdit CrashGqdit PropsNodit.
Import ListNotations.
Open Scope nat_scope.

Section Nodit.
  Context {I : Type} `{PL : PointLaws I}.
  Context {K : Type} {IK : InclusiveInterval I K} {IL : IntervalLaws I K}.
  Context {Q : Type} {IQ : InclusiveInterval I Q}.
  Context {V : Type}.
  Implicit Types (m : NoditMap K V) (k : K) (q : Q) (v : V) (p : I) (os : list (op I K V * nat)).

  (** ** C69 *)
  Theorem C69_entries_ascending_disjoint : forall os,
    ascending (map fst (iter (run_c os))) /\ Forall valid (map fst (iter (run_c os))).
  Proof. intros os. apply ascending_WF, run_c_WF. Qed.
  (** A panic leaves nothing behind that a history without panics could not
      build, so every statement about reachable maps applies. *)
  Theorem C69_reachable_without_panics : forall os, reachable (run_c os).
  Proof. intros os. apply WF_reachable, run_c_WF. Qed.
  (** If the panic comes late enough, it does not come at all. *)
  Theorem C69_no_panic_no_difference : forall m (o : op I K V), exists n, forall f, n <= f -> step_c m o f = step m o.
  Proof.
    intros m o. exists (5 * length m + 5). intros f L.
    destruct o; cbn [step_c step]; try reflexivity.
    - destruct (merge_touching_c_enough k v m f 0) as (f' & -> & _); [lia|reflexivity].
    - destruct (merge_if_equal_c_enough veq k v m f 0) as (f' & -> & _); [lia|reflexivity].
    - destruct (merge_overlapping_c_enough k v m f 0) as (f' & -> & _); [lia|reflexivity].
    - destruct (merge_tor_c_enough k v m f 0) as (f' & -> & _); [lia|reflexivity].
    - destruct (insert_overwrite_c_enough k v m f 0) as (f' & -> & _); [lia|reflexivity].
    - destruct (cut_c_enough q m f 0) as (f' & -> & _); [lia|reflexivity].
  Qed.
  (** A call that returns has done what it does without crash points. *)
  Theorem C69_returning_calls : forall m k v q veq f m',
    (forall r f', cut_c q m f = (m', Val (r, f')) -> cut q m = (m', Val r)) /\
    (forall r f', insert_overwrite_c k v m f = (m', Val (r, f')) -> insert_overwrite k v m = (m', Val r)) /\
    (forall r f', insert_merge_touching_c k v m f = (m', Val (r, f')) -> insert_merge_touching k v m = (m', Val r)) /\
    (forall r f', insert_merge_touching_if_values_equal_c veq k v m f = (m', Val (r, f')) ->
       insert_merge_touching_if_values_equal veq k v m = (m', Val r)) /\
    (forall r f', insert_merge_overlapping_c k v m f = (m', Val (r, f')) -> insert_merge_overlapping k v m = (m', Val r)) /\
    (forall r f', insert_merge_touching_or_overlapping_c k v m f = (m', Val (r, f')) ->
       insert_merge_touching_or_overlapping k v m = (m', Val r)).
  Proof.
    intros m k v q veq f m'. split; [exact (cut_c_val q m f m')|]. split; [exact (insert_overwrite_c_val k v m f m')|].
    split; [exact (merge_touching_c_val k v m f m')|]. split; [exact (merge_if_equal_c_val veq k v m f m')|].
    split; [exact (merge_overlapping_c_val k v m f m')|exact (merge_tor_c_val k v m f m')].
  Qed.
  (** A [cut] interrupted at the entry [(k0, v0)]: everything before it is cut,
      everything behind it untouched, and of the entry itself no part inside [q]
      is left. *)
  Theorem C69_interrupted_cut : forall m q f m', reachable m -> valid q -> cut_c q m f = (m', Panic) ->
    (forall e, In e (iter m) -> ~ overlap (fst e) q -> In e (iter m')) /\
    exists k0 v0, In (k0, v0) (iter m) /\ overlap k0 q /\
      (forall p v, plt p (istart k0) -> (maps_to m' p v <-> maps_to m p v /\ ~ covers q p)) /\
      (forall p v, plt (iend k0) p -> (maps_to m' p v <-> maps_to m p v)) /\
      (forall p v, covers k0 p -> maps_to m' p v -> v = v0 /\ ~ covers q p).
  Proof. intros m q f m' R. apply cut_c_stopped, reachable_WF, R. Qed.
  (** An interrupted [insert_overwrite] has not inserted, and is an interrupted
      [cut]. *)
  Theorem C69_interrupted_overwrite : forall m k v f m', reachable m -> valid k -> insert_overwrite_c k v m f = (m', Panic) ->
    (forall e, In e (iter m) -> ~ overlap (fst e) k -> In e (iter m')) /\
    exists k0 v0, In (k0, v0) (iter m) /\ overlap k0 k /\
      (forall p v, plt p (istart k0) -> (maps_to m' p v <-> maps_to m p v /\ ~ covers k p)) /\
      (forall p v, plt (iend k0) p -> (maps_to m' p v <-> maps_to m p v)) /\
      (forall p v, covers k0 p -> maps_to m' p v -> v = v0 /\ ~ covers k p).
  Proof.
    intros m k v f m' R Vk E. apply insert_overwrite_c_panic in E. destruct E as [[_ N]|[_ E]]; [contradiction|].
    apply (cut_c_stopped k m f m' (reachable_WF m R) Vk E).
  Qed.
  (** No interrupted call makes a point map to a value it did not map to. *)
  Theorem C69_no_new_values : forall m k v q veq f m', reachable m ->
    cut_c q m f = (m', Panic) \/ insert_overwrite_c k v m f = (m', Panic) \/
    insert_merge_touching_c k v m f = (m', Panic) \/ insert_merge_touching_if_values_equal_c veq k v m f = (m', Panic) \/
    insert_merge_overlapping_c k v m f = (m', Panic) \/ insert_merge_touching_or_overlapping_c k v m f = (m', Panic) ->
    forall p w, maps_to m' p w -> maps_to m p w.
  Proof.
    intros m k v q veq f m' R E p w M. pose proof (reachable_WF m R) as W. destruct E as [E|[E|[E|[E|[E|E]]]]].
    - destruct (valid_dec q) as [Vq|Nq].
      + destruct (cut_c_stopped q m f m' W Vq E) as (_ & k0 & v0 & S). apply (stopped_old _ _ _ _ _ _ _ S M).
      + rewrite cut_c_invalid in E by exact Nq. injection E as <-. exact M.
    - apply insert_overwrite_c_panic in E. destruct E as [[-> _]|[Vk E]]; [exact M|].
      destruct (cut_c_stopped k m f m' W Vk E) as (_ & k0 & v0 & S). apply (stopped_old _ _ _ _ _ _ _ S M).
    - apply merge_touching_c_panic in E; [|exact W]. subst m'. exact M.
    - apply merge_if_equal_c_panic in E; [|exact W]. destruct E as [->|(k0 & v0 & _ & _ & _ & _ & S)]; [exact M|].
      destruct M as (k' & Hi & Hc). exists k'. split; [apply (proj1 (sub_in _ _ _ S _) Hi)|exact Hc].
    - apply merge_overlapping_c_panic in E; [|exact W]. subst m'. exact M.
    - apply merge_tor_c_panic in E; [|exact W]. subst m'. exact M.
  Qed.

  (** ** C70 *)
  (** Full statement: a call that panics in user code leaves the map as it was.
      It holds for three of the merging inserts (their only user code, the
      conversion [K::from], runs before anything is removed), ... *)
  Theorem C70_merging_inserts_unchanged_partial : forall m k v f m', reachable m ->
    insert_merge_touching_c k v m f = (m', Panic) \/ insert_merge_overlapping_c k v m f = (m', Panic) \/
    insert_merge_touching_or_overlapping_c k v m f = (m', Panic) -> m' = m.
  Proof.
    intros m k v f m' R [E|[E|E]]; pose proof (reachable_WF m R) as W.
    - apply (merge_touching_c_panic _ _ _ _ _ W E).
    - apply (merge_overlapping_c_panic _ _ _ _ _ W E).
    - apply (merge_tor_c_panic _ _ _ _ _ W E).
  Qed.
  (** ... and for [insert_merge_touching_if_values_equal] up to one entry: the
      touching left neighbour with an equal value may be lost. *)
  Theorem C70_if_values_equal_partial : forall m k v veq f m', reachable m ->
    insert_merge_touching_if_values_equal_c veq k v m f = (m', Panic) ->
    m' = m \/ exists k0 v0, In (k0, v0) (iter m) /\ touch k0 k /\ before k0 k /\ veq v0 v = true /\
      sub (fun e => e <> (k0, v0)) (iter m) (iter m').
  Proof. intros m k v veq f m' R. apply merge_if_equal_c_panic, reachable_WF, R. Qed.
End Nodit.

(** The full statement is false for [cut], [insert_overwrite] and
    [insert_merge_touching_if_values_equal]. *)
Definition C70_ops : list (op u8 (Interval u8) nat) :=
  [OpInsertStrict (2 --> 4) 1; OpInsertStrict (6 --> 9) 2; OpInsertStrict (10 --> 12) 3].
Definition C70_map : NoditMap (Interval u8) nat := run C70_ops.
(** The second piece of [6,9] is being built: [2,4] is cut, [6,9] has lost the
    part from 8 on, [10,12] is untouched. *)
Theorem C70_cut_refuted : exists (m : NoditMap (Interval u8) nat) (q : Interval u8) f m',
  reachable m /\ valid q /\ cut_c q m f = (m', Panic) /\
  iter m = [(2 --> 4, 1); (6 --> 9, 2); (10 --> 12, 3)] /\ iter m' = [(2 --> 2, 1); (10 --> 12, 3)].
Proof.
  exists C70_map, (3 --> 7), 3, (fst (cut_c (3 --> 7 : Interval u8) C70_map 3)).
  split; [exists C70_ops; reflexivity|]. split; [apply ex_valid; reflexivity|]. vm_compute. repeat split; reflexivity.
Qed.
Theorem C70_overwrite_refuted : exists (m : NoditMap (Interval u8) nat) (k : Interval u8) v f m',
  reachable m /\ valid k /\ insert_overwrite_c k v m f = (m', Panic) /\
  iter m = [(2 --> 4, 1); (6 --> 9, 2); (10 --> 12, 3)] /\ iter m' = [(2 --> 2, 1); (10 --> 12, 3)].
Proof.
  exists C70_map, (3 --> 7), 9, 3, (fst (insert_overwrite_c (3 --> 7 : Interval u8) 9 C70_map 3)).
  split; [exists C70_ops; reflexivity|]. split; [apply ex_valid; reflexivity|]. vm_compute. repeat split; reflexivity.
Qed.
Theorem C70_if_values_equal_refuted : exists (m : NoditMap (Interval u8) nat) (k : Interval u8) v f m',
  reachable m /\ valid k /\ insert_merge_touching_if_values_equal_c Nat.eqb k v m f = (m', Panic) /\
  iter m = [(2 --> 4, 1); (6 --> 9, 2); (10 --> 12, 3)] /\ iter m' = [(6 --> 9, 2); (10 --> 12, 3)].
Proof.
  exists C70_map, (5 --> 5), 1, 4, (fst (insert_merge_touching_if_values_equal_c Nat.eqb (5 --> 5 : Interval u8) 1 C70_map 4)).
  split; [exists C70_ops; reflexivity|]. split; [apply ex_valid; reflexivity|]. vm_compute. repeat split; reflexivity.
Qed.

Section Zosdit.
  Context {I : Type} `{PL : PointLaws I}.
  Context {K : Type} {IK : InclusiveInterval I K} {IL : IntervalLaws I K}.
  Context {Q : Type} {IQ : InclusiveInterval I Q}.
  Context {V : Type}.
  Implicit Types (z : ZosditMap K V) (k : K) (q : Q) (v : V) (p : I) (os : list (zop I K V * nat)).

  (** ** C71 *)
  Theorem C71_entries_ascending_zero_overlap : forall os, let l := map fst (zosdit_iter (zrun_c os)) in
    Forall valid l /\ StronglySorted up_to l /\
    StronglySorted (fun a b => ple (istart a) (istart b) /\ ple (iend a) (iend b)) l /\
    ForallOrdPairs zero_overlap l.
  Proof. intros os. apply iter_sorted, zrun_c_ZWF. Qed.
  Theorem C71_queries_still_correct : forall os q, valid q ->
    (exists b, is_zero_overlap (zrun_c os) q = Val b /\
       (b = true <-> forall e, In e (zosdit_iter (zrun_c os)) -> zero_overlap (fst e) q)) /\
    (exists l, zosdit_overlapping (zrun_c os) q = Val l /\ sub (fun e => overlap (fst e) q) (zosdit_iter (zrun_c os)) l) /\
    zosdit_first_key_value (zrun_c os) = hd_error (zosdit_iter (zrun_c os)) /\
    zosdit_last_key_value (zrun_c os) = hd_error (rev (zosdit_iter (zrun_c os))).
  Proof.
    intros os q Vq. pose proof (zrun_c_ZWF os) as W. split; [apply zero_overlap_decides; assumption|].
    split; [apply overlapping_lists; assumption|]. destruct (first_last _ W) as (E1 & E2 & _). auto.
  Qed.
  (** An interrupted [cut]: the entries [l1] have been cut, the entries [o] of the
      interval being cut are replaced by some of their parts outside [q], all
      others are as before. *)
  Theorem C71_interrupted_cut : forall os q f z', valid q -> zosdit_cut_c q (zrun_c os) f = (z', Panic) ->
    exists l0 l1 o l2 ls r, zosdit_iter (zrun_c os) = l0 ++ l1 ++ o ++ l2 /\ zosdit_iter z' = l0 ++ concat ls ++ r ++ l2 /\
      Forall2 (leaves q) l1 ls /\ Forall (fun e => overlap (fst e) q) (l1 ++ o) /\
      (exists k0, Forall (fun e => fst e = k0) o) /\
      (forall e, In e r -> exists e0, In e0 o /\ snd e = snd e0 /\ forall p, covers (fst e) p -> covers (fst e0) p /\ ~ covers q p).
  Proof. intros os q f z' Vq E. apply (zcut_c_interrupted q _ f z' (zrun_c_ZWF os) Vq E). Qed.
  Theorem C71_returning_cut : forall z q f z' r, zosdit_cut_c q z f = (z', Val r) -> zosdit_cut q z = (z', Val r).
  Proof. intros z q f z' r. apply zcut_c_val. Qed.
  Theorem C71_no_panic_no_difference : forall os q, exists n, forall f, n <= f ->
    zosdit_cut_c q (zrun_c os) f = zosdit_cut q (zrun_c os).
  Proof.
    intros os q. exists (5 * length (zosdit_iter (zrun_c os))). intros f L. apply zcut_c_enough; [exact L|]. apply zrun_c_ZWF.
  Qed.

  (** ** C74 *)
  (** Full statement: [len()] is the number of entries of [iter()] also after a
      caught panic (in histories without [remove_last_value_at_point], see C41). *)
  Theorem C74_len_never_too_small_partial : forall os, length (zosdit_iter (zrun_c os)) <= zosdit_len (zrun_c os).
  Proof.
    intros os. pose proof (zrun_c_ZWF os) as (_ & _ & L). exact L.
  Qed.
End Zosdit.

Definition C74_ops : list (zop u8 (Interval u8) nat * nat) :=
  [(ZInsertStrictBack (4 --> 8) 1, 0); (ZInsertStrictBack (8 --> 8) 2, 0); (ZInsertStrictBack (8 --> 12) 3, 0);
   (ZCut (6 --> 9 : Interval u8), 1)].
Theorem C74_len_refuted : exists os : list (zop u8 (Interval u8) nat * nat),
  Forall (fun of => not_remove (fst of)) os /\
  zosdit_len (zrun_c os) = 3 /\ zosdit_iter (zrun_c os) = [(8 --> 8, 2); (8 --> 12, 3)].
Proof. exists C74_ops. split; [repeat constructor|]. vm_compute. split; reflexivity. Qed.
Example C74_example : length (zosdit_iter (zrun_c C74_ops)) = 2 /\ zosdit_len (zrun_c C74_ops) = 3 /\
  length (zosdit_iter (zrun_c (removelast C74_ops))) = 3 /\ zosdit_len (zrun_c (removelast C74_ops)) = 3.
Proof. vm_compute. repeat split; reflexivity. Qed.

Section Gqdit.
  Context {I : Type} `{PL : PointLaws I}.
  Context {K : Type} {IK : InclusiveInterval I K} {IL : IntervalLaws I K}.
  Context {Q : Type} {IQ : InclusiveInterval I Q}.
  Context {D : Type} {OD : Ord D} {OL : OrdLaws D}.
  Implicit Types (g : Gqdit K D) (k : K) (q : Q) (p : I) (d : D) (os : list (gop I K D * nat)) (ids : list D).

  (** ** C72 *)
  (** [Gqdit] is a [NoditMap] inside: its entries never overlap. *)
  Theorem C72_entries_ascending_disjoint : forall os,
    ascending (map fst (iter (grun_c os))) /\ Forall valid (map fst (iter (grun_c os))).
  Proof. intros os. apply ascending_WF, grun_c_WF. Qed.
  (** After an interrupted call every point has the identifiers it had, those it
      would have had, or none; outside of [k] and one run [j] of points with the
      same identifiers, nothing has changed. *)
  Theorem C72_interrupted_insert : forall os ids k f, let g := grun_c os in let g' := fst (gqdit_insert_c (collect ids) k g f) in
    (forall p, identifiers_at_point g' p = identifiers_at_point g p \/ identifiers_at_point g' p = Val [] \/
       covers k p /\ exists s s', identifiers_at_point g p = Val s /\ identifiers_at_point g' p = Val s' /\
         forall d, In d s' <-> In d s \/ In d ids) /\
    exists j : Interval I,
      (forall p p', covers j p -> covers j p' -> ~ covers k p -> ~ covers k p' -> identifiers_at_point g p = identifiers_at_point g p') /\
      (forall p, ~ covers k p -> ~ covers j p -> identifiers_at_point g' p = identifiers_at_point g p).
  Proof.
    intros os ids k f g g'. destruct (partly_ids _ _ g g' (grun_c_WF os) (insert_c_any (collect ids) k g f (grun_c_WF os))) as (H1 & H2).
    split; [|exact H2]. intros p. destruct (H1 p) as [E|[E|(C & s & E1 & E2)]]; [auto..|right; right].
    split; [exact C|]. exists s, (bset_extend s (collect ids)). split; [exact E1|]. split; [exact E2|].
    intros d. rewrite extend_in, collect_in. reflexivity.
  Qed.
  Theorem C72_interrupted_cut_with_identifiers : forall os ids q f,
    let g := grun_c os in let g' := fst (cut_with_identifiers_c (collect ids) q g f) in
    (forall p, identifiers_at_point g' p = identifiers_at_point g p \/ identifiers_at_point g' p = Val [] \/
       covers q p /\ exists s s', identifiers_at_point g p = Val s /\ identifiers_at_point g' p = Val s' /\
         forall d, In d s' <-> In d s /\ ~ In d ids) /\
    exists j : Interval I,
      (forall p p', covers j p -> covers j p' -> ~ covers q p -> ~ covers q p' -> identifiers_at_point g p = identifiers_at_point g p') /\
      (forall p, ~ covers q p -> ~ covers j p -> identifiers_at_point g' p = identifiers_at_point g p).
  Proof.
    intros os ids q f g g'. destruct (partly_ids _ _ g g' (grun_c_WF os) (cut_with_c_any (collect ids) q g f (grun_c_WF os))) as (H1 & H2).
    split; [|exact H2]. intros p. destruct (H1 p) as [E|[E|(C & s & E1 & E2)]]; [auto..|right; right].
    split; [exact C|]. exists s, (bset_retain (fun i => negb (bset_contains (collect ids) i)) s). split; [exact E1|]. split; [exact E2|].
    intros d. rewrite retain_in, negb_true_iff, <- not_true_iff_false, contains_in, collect_in. reflexivity.
  Qed.
  Theorem C72_interrupted_cut_all_identifiers : forall os q f,
    let g := grun_c os in let g' := fst (cut_all_identifiers_c q g f) in
    (forall p, identifiers_at_point g' p = identifiers_at_point g p \/ identifiers_at_point g' p = Val []) /\
    exists j : Interval I,
      (forall p p', covers j p -> covers j p' -> ~ covers q p -> ~ covers q p' -> identifiers_at_point g p = identifiers_at_point g p') /\
      (forall p, ~ covers q p -> ~ covers j p -> identifiers_at_point g' p = identifiers_at_point g p).
  Proof.
    intros os q f g g'. destruct (partly_ids _ _ g g' (grun_c_WF os) (cut_all_c_any q g f (grun_c_WF os))) as (H1 & H2).
    split; [|exact H2]. intros p. destruct (H1 p) as [E|[E|(C & s & E1 & E2)]]; [auto..|right; exact E2].
  Qed.
  Theorem C72_interrupted_append : forall os other f p d,
    has_id (fst (append_c (grun_c os) (grun other) f)) p d -> has_id (grun_c os) p d \/ has_id (grun other) p d.
  Proof. intros os other f. apply append_c_any; [apply grun_c_WF|apply grun_GWF]. Qed.
  Theorem C72_returning_calls : forall g ids k q other f g' f',
    (gqdit_insert_c (collect ids) k g f = (g', Val f') -> gqdit_insert (collect ids) k g = (g', Val tt)) /\
    (cut_with_identifiers_c (collect ids) q g f = (g', Val f') -> cut_with_identifiers (collect ids) q g = (g', Val tt)) /\
    (cut_all_identifiers_c q g f = (g', Val f') -> cut_all_identifiers q g = (g', Val tt)) /\
    (append_c g other f = (g', Val f') -> exists other', append g other = (g', other', Val tt)).
  Proof.
    intros g ids k q other f g' f'. split; [apply insert_c_val|]. split; [apply cut_with_c_val|].
    split; [apply cut_all_c_val|apply append_c_val].
  Qed.
  Theorem C72_no_panic_no_difference : forall g ids k q other, exists n, forall f, n <= f ->
    fst (gqdit_insert_c (collect ids) k g f) = fst (gqdit_insert (collect ids) k g) /\
    fst (cut_with_identifiers_c (collect ids) q g f) = fst (cut_with_identifiers (collect ids) q g) /\
    fst (cut_all_identifiers_c q g f) = fst (cut_all_identifiers q g) /\
    fst (append_c g other f) = fst (fst (append g other)).
  Proof.
    intros g ids k q other. destruct (insert_c_enough (collect ids) k g 0) as (n1 & H1).
    destruct (cut_with_c_enough (collect ids) q g 0) as (n2 & H2). destruct (cut_all_c_enough q g 0) as (n3 & H3).
    assert (exists n4, forall f, n4 <= f -> fst (append_c g other f) = fst (fst (append g other))) as (n4 & H4).
    { unfold append_c, append. destruct uu as [u|]; [|exists 0; reflexivity].
      destruct (remove_overlapping u other) as [o' [l|]]; [|exists 0; reflexivity].
      destruct (append_loop_c_enough l 0 g) as (n4 & H4). exists n4. intros f L. destruct (H4 f L) as (f4 & -> & _).
      destruct (append_loop l g); reflexivity. }
    exists (n1 + n2 + n3 + n4). intros f L.
    destruct (H1 f) as (f1 & -> & _); [lia|]. destruct (H2 f) as (f2 & -> & _); [lia|]. destruct (H3 f) as (f3 & -> & _); [lia|].
    rewrite (H4 f) by lia. repeat split.
  Qed.

  (** ** C73 *)
  (** Full statement: also after a caught panic, an [insert] that returns has
      added its identifiers to every point of its interval.  It has so at the
      points some stored interval still contains, and changed no others. *)
  Theorem C73_insert_after_panic_partial : forall os ids k, valid k -> exists g',
    gqdit_insert (collect ids) k (grun_c os) = (g', Val tt) /\
    forall p d, has_id g' p d <-> has_id (grun_c os) p d \/ covers k p /\ In d ids /\ covered (iter (grun_c os)) p.
  Proof.
    intros os ids k Vk. destruct (insert_WF (collect ids) k (grun_c os) (grun_c_WF os) Vk) as (g' & E & _ & M).
    exists g'. split; [exact E|]. intros p d. rewrite (proj2 (M p) d), collect_in. reflexivity.
  Qed.
End Gqdit.

(** The panic (in the first [clone] of the identifiers, during the reinsertion)
    takes the points 3 to 7 out of the structure; the identifier 2 a later
    [insert] is given never gets there, and no gap query reports the hole. *)
Definition C73_ops : list (gop u8 (Interval u8) u8 * nat) := [(GInsert ['1] (3 --> 7), 5)].
Theorem C73_insert_after_panic_refuted : exists (os : list (gop u8 (Interval u8) u8 * nat)) ids k g' p d,
  valid k /\ gqdit_insert (collect ids) k (grun_c os) = (g', Val tt) /\ covers k p /\ In d ids /\ ~ has_id g' p d.
Proof.
  exists C73_ops, ['2], (3 --> 7), (fst (gqdit_insert (collect ['2]) (3 --> 7) (grun_c C73_ops))), '5, '2.
  split; [apply ex_valid; reflexivity|]. split; [vm_compute; reflexivity|].
  split; [split; vm_compute; discriminate|]. split; [left; reflexivity|].
  intros (s & E & Hi). vm_compute in E. injection E as <-. contradiction Hi.
Qed.

(** ** Examples: the hypotheses are met, non-trivially. *)
(** A [cut] is interrupted, then the damaged map is used further. *)
Example C69_example :
  iter (run_c (map (fun o => (o, 0)) C70_ops ++ [(OpCut (3 --> 7 : Interval u8), 3); (OpInsertOverwrite (1 --> 10) 7, 7)])) =
    [(1 --> 10, 7); (11 --> 12, 3)].
Proof. vm_compute. reflexivity. Qed.
Example C69_interrupted_example : let c f := cut_c (3 --> 11 : Interval u8) C70_map f in
  iter C70_map = [(2 --> 4, 1); (6 --> 9, 2); (10 --> 12, 3)] /\
  c 1 = ([(6 --> 9, 2); (10 --> 12, 3)], Panic) /\ c 3 = ([(2 --> 2, 1); (10 --> 12, 3)], Panic) /\
  c 4 = ([(2 --> 2, 1)], Panic) /\ c 6 = ([(2 --> 2, 1); (12 --> 12, 3)], Panic) /\
  c 7 = ([(2 --> 2, 1); (12 --> 12, 3)], Val ([(3 --> 4, 1); (6 --> 9, 2); (10 --> 11, 3)], 0)) /\
  insert_overwrite_c (3 --> 11) 9 C70_map 4 = ([(2 --> 2, 1)], Panic).
Proof. vm_compute. repeat split; reflexivity. Qed.
Example C70_example :
  insert_merge_touching_or_overlapping_c (5 --> 5) 9 C70_map 0 = (C70_map, Panic) /\
  insert_merge_overlapping_c (8 --> 11) 9 C70_map 0 = (C70_map, Panic) /\
  insert_merge_touching_c (5 --> 5) 9 C70_map 0 = (C70_map, Panic).
Proof. vm_compute. repeat split; reflexivity. Qed.
Example C71_example : let z := zrun (map fst (firstn 3 C74_ops)) in
  zosdit_iter z = [(4 --> 8, 1); (8 --> 8, 2); (8 --> 12, 3)] /\
  zosdit_cut_c (6 --> 9 : Interval u8) z 1 = (mkZosdit 3 [(8 --> 8, [2]); (8 --> 12, [3])], Panic) /\
  zosdit_cut_c (6 --> 9 : Interval u8) z 3 = (mkZosdit 2 [(4 --> 5, [1]); (8 --> 12, [3])], Panic) /\
  zosdit_cut_c (6 --> 9 : Interval u8) z 5 = (mkZosdit 3 [(4 --> 5, [1])], Panic).
Proof. vm_compute. repeat split; reflexivity. Qed.
(** [insert] interrupted while [8,255] is being cut: the points 10 to 255 are
    lost too ([j] is [8,255]). *)
Example C72_example :
  iter (grun_c [(GInsert ['1] (3 --> 7), 40); (GInsert ['2] (5 --> 9), 4)] : Gqdit (Interval u8) u8) = [(0 --> 2, []); (3 --> 4, ['1])] /\
  iter (grun_c [(GInsert ['1] (3 --> 7), 40); (GInsert ['2] (5 --> 9), 9)] : Gqdit (Interval u8) u8) =
    [(0 --> 2, []); (3 --> 4, ['1]); (5 --> 7, ['1; '2]); (10 --> 255, [])].
Proof. vm_compute. split; reflexivity. Qed.
Example C73_example : iter (grun_c C73_ops) = [(0 --> 2, []); (8 --> 255, [])] /\
  iter (fst (gqdit_insert (collect ['2]) (2 --> 7) (grun_c C73_ops))) = [(0 --> 1, []); (2 --> 2, ['2]); (8 --> 255, [])].
Proof. vm_compute. split; reflexivity. Qed.
Print Assumptions C69_entries_ascending_disjoint.
Print Assumptions C69_reachable_without_panics.
Print Assumptions C69_no_panic_no_difference.
Print Assumptions C69_returning_calls.
Print Assumptions C69_interrupted_cut.
Print Assumptions C69_interrupted_overwrite.
Print Assumptions C69_no_new_values.
Print Assumptions C70_merging_inserts_unchanged_partial.
Print Assumptions C70_if_values_equal_partial.
Print Assumptions C70_cut_refuted.
Print Assumptions C70_overwrite_refuted.
Print Assumptions C70_if_values_equal_refuted.
Print Assumptions C71_entries_ascending_zero_overlap.
Print Assumptions C71_queries_still_correct.
Print Assumptions C71_interrupted_cut.
Print Assumptions C71_returning_cut.
Print Assumptions C71_no_panic_no_difference.
Print Assumptions C74_len_never_too_small_partial.
Print Assumptions C74_len_refuted.
Print Assumptions C72_entries_ascending_disjoint.
Print Assumptions C72_interrupted_insert.
Print Assumptions C72_interrupted_cut_with_identifiers.
Print Assumptions C72_interrupted_cut_all_identifiers.
Print Assumptions C72_interrupted_append.
Print Assumptions C72_returning_calls.
Print Assumptions C72_no_panic_no_difference.
Print Assumptions C73_insert_after_panic_partial.
Print Assumptions C73_insert_after_panic_refuted.
