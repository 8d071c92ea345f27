(** * PropsEffectBulk: filling a map from a source that is user code, and writing it to a sink
      that is user code (C159). *)
From Coq Require Import List ZArith Bool Arith Permutation Lia.
From Verif Require Import Base BTree UtilsModel IntervalModel NoditModel NoditOps ZosditModel ZosditOps InstancesModel Instances Spec TreeShape
  NoditFacts NoditInv ZosditFacts ZosditProofs TreeProofs LooksMoreFacts EffectModel EffectOps EffectZosditModel EffectZosditOps EffectFacts EffectZosditFacts EffectRight EffectZosditRight
  EffectBulkModel EffectBulkFacts PropsEffect PropsEffectZosdit.
Import ListNotations.
Open Scope nat_scope.

(** ** C159 *)
(** *** Whatever the user's code does *)
Section Any.
  Context {W I K V E : Type}.
  Context (P : point_code W I) (ik : interval_code W I K).
  Implicit Types (w : W) (l : list (K * V)) (next : user W (option (K * V))) (access : user W (result (option (K * V)) E)) (custom : user W E).

  (** Each value drawn is in the map or was lost (only comparisons that give wrong answers
      lose any, see below); the value that comes back is the last drawn. *)
  Theorem C159_any_from_iter_strict : forall (T : nat -> nat -> BTreeMap K V -> tree K V) next fuel w r l w', (forall i, faithful (T i)) ->
    from_iter_strict_e P ik T next fuel w = (r, l, w') ->
    match r with
    | LDone m => exists lost, Permutation (map snd l) (map snd (iter m) ++ lost)
    | LRefused v => exists l0 k, l = l0 ++ [(k, v)]
    | LFailed _ => False
    | _ => True
    end.
  Proof.
    intros T next fuel w r l w' TF X. unfold from_iter_strict_e in X. destruct r as [m|v|e| |]; trivial.
    - apply (load_keeps _ _ (fun m l => exists lost, Permutation (map snd l) (map snd m ++ lost))) with (l0 := []) in X; [exact X| |exists []; reflexivity].
      intros i k v m0 w0 m1 u w1 l0 Y (lost & PM). apply (insert_any P ik (T i) (TF i)) in Y. apply put_perm in Y. destruct Y as (d & Y). exists (lost ++ d).
      rewrite map_app, PM. cbn [map snd]. rewrite <- app_assoc, (Permutation_app_comm lost [v]), app_assoc, Y, <- !app_assoc. apply Permutation_app_head, Permutation_app_comm.
    - apply (load_refused _ _ (fun v e => e = v)) in X.
      + destruct X as (l0 & k & v' & -> & ->). exists l0, k. reflexivity.
      + intros i k v0 m0 w0 m1 e w1 Y. apply (insert_any P ik (T i) (TF i)) in Y. apply Y.
    - revert X. generalize 0. generalize (@new K V). revert w l. induction fuel as [|fuel IH]; intros w l m i X; [discriminate X|]. rewrite load_step in X. unfold iterator, ubind, uret in X.
      destruct (next w) as [[[[k v]|]|] w1]; try discriminate X. destruct (insert_strict_e P ik (T i) k v m w1) as [[m1 [[u|e']|]] w2]; try discriminate X.
      destruct (load_e _ _ fuel (S i) m1 w2) as [[r' l'] w3] eqn:Y. inversion X; subst. exact (IH _ _ _ _ Y).
  Qed.
  Theorem C159_any_visit_seq : forall (T : nat -> nat -> BTreeMap K V -> tree K V) custom access fuel w r l w', (forall i, faithful (T i)) ->
    visit_seq_e P ik T custom access fuel w = (r, l, w') ->
    match r with
    | LDone m => exists lost, Permutation (map snd l) (map snd (iter m) ++ lost)
    | LRefused e => l <> [] /\ exists w1 w2, custom w1 = (Val e, w2)
    | _ => True
    end.
  Proof.
    intros T custom access fuel w r l w' TF X. unfold visit_seq_e in X. destruct r as [m|e|e| |]; trivial.
    - apply (load_keeps _ _ (fun m l => exists lost, Permutation (map snd l) (map snd m ++ lost))) with (l0 := []) in X; [exact X| |exists []; reflexivity].
      intros i k v m0 w0 m1 u w1 l0 Y (lost & PM). apply or_custom_inv in Y. destruct Y as (o' & w2 & Y & ->). apply (insert_any P ik (T i) (TF i)) in Y. apply put_perm in Y. destruct Y as (d & Y). exists (lost ++ d).
      rewrite map_app, PM. cbn [map snd]. rewrite <- app_assoc, (Permutation_app_comm lost [v]), app_assoc, Y, <- !app_assoc. apply Permutation_app_head, Permutation_app_comm.
    - apply (load_refused _ _ (fun _ e => exists w1 w2, custom w1 = (Val e, w2))) in X.
      + destruct X as (l0 & k & v' & -> & w1 & w2 & C). split; [destruct l0; discriminate|]. exists w1, w2. exact C.
      + intros i k v0 m0 w0 m1 e0 w1. destruct (insert_strict_e P ik (T i) k v0 m0 w0) as [[m2 [r|]] w2]; cbn [or_custom]; [|discriminate].
        destruct (custom w2) as [[e1|] w3] eqn:C; [|discriminate]. intros Y. destruct r; [discriminate Y|]. exists w2, w3. rewrite C. congruence.
  Qed.
  (** No value is lost, and [len] is right. *)
  Theorem C159_any_from_iter_strict_back : forall (T : nat -> BTreeMap K (list V) -> tree K (list V)) next fuel w r l w', faithful T ->
    from_iter_strict_back_e P ik T next fuel w = (r, l, w') ->
    match r with
    | LDone z => Permutation (map snd l) (map snd (zosdit_iter z)) /\ zosdit_len z = length l
    | LRefused v => exists l0 k, l = l0 ++ [(k, v)]
    | LFailed _ => False
    | _ => True
    end.
  Proof.
    intros T next fuel w r l w' TF X. unfold from_iter_strict_back_e in X. destruct r as [m|v|e| |]; trivial.
    - apply (load_keeps _ _ (fun z l => Permutation (map snd l) (map snd (zosdit_iter z)) /\ zosdit_len z = length l)) with (l0 := []) in X; [exact X| |split; reflexivity].
      intros i k v z0 w0 z1 u w1 l0 Y (PM & L). apply zinsert_any in Y. destruct Y as [L1 Y]. rewrite TF in Y. apply zput_perm in Y. unfold zosdit_len, zosdit_iter in *. rewrite map_app, PM, L1, L, app_length. auto.
    - apply (load_refused _ _ (fun v e => e = v)) in X.
      + destruct X as (l0 & k & v' & -> & ->). exists l0, k. reflexivity.
      + intros i k v0 m0 w0 m1 e w1 Y. apply zinsert_any in Y. apply Y.
    - revert X. generalize 0. generalize (@z_new K V). revert w l. induction fuel as [|fuel IH]; intros w l m i X; [discriminate X|]. rewrite load_step in X. unfold iterator, ubind, uret in X.
      destruct (next w) as [[[[k v]|]|] w1]; try discriminate X. destruct (insert_strict_back_e P ik k v (z_len m) (T i (z_inner m)) w1) as [[m1 [[u|e']|]] w2]; try discriminate X.
      destruct (load_e _ _ fuel (S i) m1 w2) as [[r' l'] w3] eqn:Y. inversion X; subst. exact (IH _ _ _ _ Y).
  Qed.
  Theorem C159_any_visit_seq_back : forall (T : nat -> BTreeMap K (list V) -> tree K (list V)) custom access fuel w r l w', faithful T ->
    zosdit_visit_seq_e P ik T custom access fuel w = (r, l, w') ->
    match r with
    | LDone z => Permutation (map snd l) (map snd (zosdit_iter z)) /\ zosdit_len z = length l
    | LRefused e => l <> [] /\ exists w1 w2, custom w1 = (Val e, w2)
    | _ => True
    end.
  Proof.
    intros T custom access fuel w r l w' TF X. unfold zosdit_visit_seq_e in X. destruct r as [m|e|e| |]; trivial.
    - apply (load_keeps _ _ (fun z l => Permutation (map snd l) (map snd (zosdit_iter z)) /\ zosdit_len z = length l)) with (l0 := []) in X; [exact X| |split; reflexivity].
      intros i k v z0 w0 z1 u w1 l0 Y (PM & L). apply or_custom_inv in Y. destruct Y as (o' & w2 & Y & ->). apply zinsert_any in Y. destruct Y as [L1 Y]. rewrite TF in Y. apply zput_perm in Y.
      unfold zosdit_len, zosdit_iter in *. rewrite map_app, PM, L1, L, app_length. auto.
    - apply (load_refused _ _ (fun _ e => exists w1 w2, custom w1 = (Val e, w2))) in X.
      + destruct X as (l0 & k & v' & -> & w1 & w2 & C). split; [destruct l0; discriminate|]. exists w1, w2. exact C.
      + intros i k v0 m0 w0 m1 e0 w1. destruct (insert_strict_back_e P ik k v0 (z_len m0) (T i (z_inner m0)) w0) as [[m2 [r|]] w2]; cbn [or_custom]; [|discriminate].
        destruct (custom w2) as [[e1|] w3] eqn:C; [|discriminate]. intros Y. destruct r; [discriminate Y|]. exists w2, w3. rewrite C. congruence.
  Qed.
  (** The error for a refused element is made for every element, also for accepted ones: if
      that panics, only empty sequences are read. *)
  Theorem C159_any_custom_panics : forall (T : nat -> nat -> BTreeMap K V -> tree K V) (Tz : nat -> BTreeMap K (list V) -> tree K (list V)) custom access fuel w l w',
    (forall w, fst (custom w) = Panic) ->
    (forall m, visit_seq_e P ik T custom access fuel w = (LDone m, l, w') -> l = [] /\ iter m = []) /\
    (forall z, zosdit_visit_seq_e P ik Tz custom access fuel w = (LDone z, l, w') -> l = [] /\ zosdit_iter z = []).
  Proof.
    intros T Tz custom access fuel w l w' CP. split.
    - intros m X. apply (load_keeps _ _ (fun m l => l = [] /\ iter m = [])) with (l0 := []) in X; [exact X| |split; reflexivity].
      intros i k v m0 w0 m1 u w1 l0 Y. destruct (insert_strict_e P ik (T i) k v m0 w0) as [[m2 [r|]] w2]; cbn [or_custom] in Y; [|discriminate Y].
      specialize (CP w2). destruct (custom w2) as [[e|] w3]; [discriminate CP|discriminate Y].
    - intros m X. apply (load_keeps _ _ (fun z l => l = [] /\ zosdit_iter z = [])) with (l0 := []) in X; [exact X| |split; reflexivity].
      intros i k v m0 w0 m1 u w1 l0 Y. destruct (insert_strict_back_e P ik k v (z_len m0) (Tz i (z_inner m0)) w0) as [[m2 [r|]] w2]; cbn [or_custom] in Y; [|discriminate Y].
      specialize (CP w2). destruct (custom w2) as [[e|] w3]; [discriminate CP|discriminate Y].
  Qed.
  (** A run for at most [fuel] elements that has ended is the whole run; one that has not
      has drawn as many. *)
  Theorem C159_any_fuel : forall {M} (insert : nat -> K -> V -> M -> W -> (M * outcome (result unit E)) * W) access fuel i m w r l w',
    load_e access insert fuel i m w = (r, l, w') ->
    length l <= fuel /\ (r = LRunning -> length l = fuel) /\ (r <> LRunning -> forall more, load_e access insert (fuel + more) i m w = (r, l, w')).
  Proof.
    intros M insert access fuel i m w r l w' X. destruct (load_running _ _ _ _ _ _ _ _ _ X) as [A B]. split; [exact A|]. split; [exact B|]. intros N more. exact (load_fuel _ _ _ more _ _ _ _ _ _ X N).
  Qed.
End Any.

(** The sink is told the length and then the entries in order, until it fails, panics, or
    has got them all. *)
Section Sink.
  Context {W I K V A E : Type} `{DiscreteFinite I}.
  Context (announce : nat -> user W (result unit E)) (element : K * V -> user W (result unit E)) (finish : user W (result A E)).
  Theorem C159_any_serialize : forall (m : NoditMap K V) w o n told w', map_serialize_e announce element finish m w = (o, (n, told), w') ->
    n = length (iter m) /\ exists rest, iter m = told ++ rest /\ (match o with Val (Ok _) => rest = [] | _ => True end).
  Proof. intros m w o n told w' X. apply serialize_inv in X. exact X. Qed.
  (** For a [ZosditMap] the announced length may be too big (C41), but never too small,
      whatever the code of its points, intervals and values does. *)
  Theorem C159_any_zosdit_serialize : forall {W0} (P : point_code W0 I) ik (C : entry_code W0 I K V) kc overlaps_k below T cs w0 z seen w1,
    faithful T -> zehistory C P ik kc overlaps_k below T cs z_new w0 = (z, seen, w1) ->
    forall w o n told w', zosdit_serialize_e announce element finish z w = (o, (n, told), w') ->
    n = zosdit_len z /\ length told <= n /\
    (exists rest, zosdit_iter z = told ++ rest /\ (match o with Val (Ok _) => rest = [] | _ => True end)) /\
    (forall a, o = Val (Ok a) -> flat_map took seen = [] -> (forall q, ~ In (SStopped (CCut q)) seen) -> length told = n).
  Proof.
    intros W0 P ik C kc overlaps_k below T cs w0 z seen w1 TF HE w o n told w' X. apply serialize_inv in X. destruct X as (-> & rest & R & N).
    destruct (C158_any_len P ik C kc overlaps_k below T cs w0 z seen w1 TF HE) as (L & L2 & _). split; [reflexivity|].
    assert (S := f_equal (@length _) R). rewrite app_length in S. split; [lia|]. split; [exists rest; auto|].
    intros a -> Tk Ct. specialize (L2 Ct). rewrite Tk in L2. subst rest. cbn [length] in *. lia.
  Qed.
End Sink.

(** *** Any source, but comparisons with the right answers *)
Section Right.
  Context {W I : Type} `{PL : PointLaws I}.
  Context {K : Type} {IK : InclusiveInterval I K} {IL : IntervalLaws I K}.
  Context {V E : Type}.
  Context (P : point_code W I) (RP : right_points P) (ik : interval_code W I K) (RK : right_intervals ik).
  Implicit Types (w : W) (l : list (K * V)) (next : user W (option (K * V))) (access : user W (result (option (K * V)) E)) (custom : user W E).

  (** What the call returns is what it returns for a list of the elements drawn. *)
  Theorem C159_right_from_iter_strict : forall (T : nat -> nat -> BTreeMap K V -> tree K V) next fuel w r l w', (forall i, faithful (T i)) ->
    from_iter_strict_e P ik T next fuel w = (r, l, w') ->
    match r with
    | LDone m => from_iter_strict l = Val (Ok m)
    | LRefused v => from_iter_strict l = Val (Err v)
    | LStopped false => from_iter_strict l = Panic
    | LFailed _ | LStopped true | LRunning => exists m, from_iter_strict l = Val (Ok m)
    end.
  Proof.
    intros T next fuel w r l w' TF X. apply (load_right _ _ (fun v => v) WF insert_strict) in X.
    - unfold from_iter_strict. rewrite <- loop_strict. exact X.
    - intros i k v m w1 Wm. rewrite (r_insert_strict P RP ik RK (T i) (TF i) m k v Wm w1). unfold erring. destruct (insert_strict k v m) as [m1 [[[]|e]|]]; reflexivity.
    - intros k v m Wm. exact (step_WF m (OpInsertStrict k v) Wm).
    - apply reachable_WF. exists []. reflexivity.
  Qed.
  Theorem C159_right_visit_seq : forall (T : nat -> nat -> BTreeMap K V -> tree K V) custom access fuel w r l w', (forall i, faithful (T i)) -> calm custom ->
    visit_seq_e P ik T custom access fuel w = (r, l, w') ->
    match r with
    | LDone m => deserialize (map Some l) = Val (Ok m)
    | LRefused _ => deserialize (map Some l) = Val (Err DeOverlap)
    | LStopped false => deserialize (map Some l) = Panic
    | LFailed _ => deserialize (map Some l ++ [None]) = Val (Err DeElement)
    | LStopped true | LRunning => exists m, deserialize (map Some l) = Val (Ok m)
    end.
  Proof.
    intros T custom access fuel w r l w' TF CC X. apply (load_right _ _ (fun _ => DeOverlap) WF (custom_ins insert_strict DeOverlap)) in X.
    - unfold deserialize. rewrite loop_visit in X. destruct r as [m|e|e|[]|]; trivial. destruct X as (m & X). exact (visit_fails _ _ _ X).
    - intros i k v m w1 Wm. rewrite (or_custom_right custom _ CC). rewrite (r_insert_strict P RP ik RK (T i) (TF i) m k v Wm w1). reflexivity.
    - intros k v m Wm. exact (step_WF m (OpInsertStrict k v) Wm).
    - apply reachable_WF. exists []. reflexivity.
  Qed.
  (** Reading back what [serialize] wrote gives the map; no element is refused. *)
  Theorem C159_right_read_back : forall (T : nat -> nat -> BTreeMap K V -> tree K V) custom access fuel w r m w', (forall i, faithful (T i)) -> calm custom -> reachable m ->
    visit_seq_e P ik T custom access fuel w = (r, iter m, w') -> match r with LDone m' => m' = m | LRefused _ | LStopped false => False | _ => True end.
  Proof.
    intros T custom access fuel w r m w' TF CC R X. apply C159_right_visit_seq in X; [|exact TF|exact CC].
    assert (Y : deserialize (map Some (iter m)) = Val (Ok m)) by (exact (visit_seq_rebuild m [] (reachable_WF m R))).
    destruct r as [m'|e|e|[]|]; trivial; congruence.
  Qed.
  Theorem C159_right_from_iter_strict_back : forall (T : nat -> BTreeMap K (list V) -> tree K (list V)) next fuel w r l w', faithful T ->
    from_iter_strict_back_e P ik T next fuel w = (r, l, w') ->
    match r with
    | LDone z => from_iter_strict_back l = Val (Ok z)
    | LRefused v => from_iter_strict_back l = Val (Err v)
    | LStopped false => from_iter_strict_back l = Panic
    | LFailed _ | LStopped true | LRunning => exists z, from_iter_strict_back l = Val (Ok z)
    end.
  Proof.
    intros T next fuel w r l w' TF X. apply (load_right _ _ (fun v => v) (fun z => ZWF z /\ ZD (z_inner z)) insert_strict_back) in X.
    - unfold from_iter_strict_back. rewrite <- loop_strict_back. exact X.
    - intros i k v z w1 [Wz Dz]. rewrite (r_strict_back P RP ik RK z (T i (z_inner z)) k v Wz Dz (TF _ _) w1). unfold erring. destruct (insert_strict_back k v z) as [z1 [[[]|e]|]]; reflexivity.
    - intros k v z [Wz Dz]. split; [exact (insert_ZWF z k v Wz)|exact (zstep_ZD z (ZInsertStrictBack k v) Wz Dz Logic.I)].
    - split; [apply new_ZWF|constructor].
  Qed.
  Theorem C159_right_visit_seq_back : forall (T : nat -> BTreeMap K (list V) -> tree K (list V)) custom access fuel w r l w', faithful T -> calm custom ->
    zosdit_visit_seq_e P ik T custom access fuel w = (r, l, w') ->
    match r with
    | LDone z => zosdit_deserialize (map Some l) = Val (Ok z)
    | LRefused _ => zosdit_deserialize (map Some l) = Val (Err DeOverlap)
    | LStopped false => zosdit_deserialize (map Some l) = Panic
    | LFailed _ => zosdit_deserialize (map Some l ++ [None]) = Val (Err DeElement)
    | LStopped true | LRunning => exists z, zosdit_deserialize (map Some l) = Val (Ok z)
    end.
  Proof.
    intros T custom access fuel w r l w' TF CC X. apply (load_right _ _ (fun _ => DeOverlap) (fun z => ZWF z /\ ZD (z_inner z)) (custom_ins insert_strict_back DeOverlap)) in X.
    - unfold zosdit_deserialize. rewrite loop_visit_back in X. destruct r as [m|e|e|[]|]; trivial. destruct X as (m & X). exact (zvisit_fails _ _ _ X).
    - intros i k v z w1 [Wz Dz]. rewrite (or_custom_right custom _ CC). rewrite (r_strict_back P RP ik RK z (T i (z_inner z)) k v Wz Dz (TF _ _) w1). reflexivity.
    - intros k v z [Wz Dz]. split; [exact (insert_ZWF z k v Wz)|exact (zstep_ZD z (ZInsertStrictBack k v) Wz Dz Logic.I)].
    - split; [apply new_ZWF|constructor].
  Qed.
End Right.

(** *** Examples: [u8], the world counts the questions *)
(** A source that gives other intervals as the world goes on, and says [last] once it is at [n]. *)
Definition ex_source {A} (some : Interval u8 * nat -> A) (n : nat) (last : outcome A) : user nat A := fun w =>
  (if Nat.leb n w then last else Val (some (if Nat.leb w 5 then 11 --> 19 else if Nat.leb w 20 then 31 --> 39 else 3 --> 4, w)), S w).
(** A source that gives the same interval for ever. *)
Definition ex_same {A} (some : Interval u8 * nat -> A) : user nat A := fun w => (Val (some ((1 --> 9) : Interval u8, w)), S w).
Definition ex_custom : user nat bool := fun w => (Val true, S w).
Definition ex_shapes {V} : nat -> nat -> BTreeMap (Interval u8) V -> tree (Interval u8) V := fun i => some_shapes.
(** A sink that takes the elements until the world is at [n]. *)
Definition ex_element (n : nat) : Interval u8 * nat -> user nat (result unit bool) := fun _ w => (Val (if Nat.leb n w then Err false else Ok tt), S w).
Example C159_example :
  (forall i, faithful (ex_shapes (V := nat) i)) /\ faithful (some_shapes (K := Interval u8) (V := list nat)) /\
  right_points counting /\ right_intervals counting_i /\ calm ex_custom /\
  from_iter_strict_e counting counting_i ex_shapes (ex_source Some 34 (Val None)) 20 0 =
    (LDone [(3 --> 4, 23); (11 --> 19, 0); (31 --> 39, 6)], [(11 --> 19, 0); (31 --> 39, 6); (3 --> 4, 23)], 37) /\
  from_iter_strict_e counting counting_i ex_shapes (ex_source Some 34 (Val None)) 2 0 = (LRunning, [(11 --> 19, 0); (31 --> 39, 6)], 23) /\
  from_iter_strict_e counting counting_i ex_shapes (ex_source Some 15 Panic) 20 0 = (LStopped true, [(11 --> 19, 0); (31 --> 39, 6)], 24) /\
  (** an endless source *)
  from_iter_strict_e counting counting_i ex_shapes (ex_same Some) 20 0 = (LRefused 6, [(1 --> 9, 0); (1 --> 9, 6)], 20) /\
  (** a liar loses values, though not in a [ZosditMap] *)
  from_iter_strict_e lying counting_i ex_shapes (ex_source Some 30 (Val None)) 20 9 =
    (LDone [(31 --> 39, 28)], [(31 --> 39, 9); (31 --> 39, 15); (3 --> 4, 28)], 42) /\
  from_iter_strict_back_e lying counting_i some_shapes (ex_source Some 60 (Val None)) 20 9 =
    (LDone (mkZosdit 3 [(31 --> 39, [9; 14; 37])]), [(31 --> 39, 9); (31 --> 39, 14); (3 --> 4, 37)], 61) /\
  from_iter_strict_back_e counting counting_i some_shapes (ex_source Some 60 (Val None)) 20 9 =
    (LRefused 14, [(31 --> 39, 9); (31 --> 39, 14)], 31) /\
  visit_seq_e counting counting_i ex_shapes ex_custom (ex_source (fun e => Ok (Some e)) 30 (Val (Err false))) 20 0 =
    (LFailed false, [(11 --> 19, 0); (31 --> 39, 7); (3 --> 4, 25)], 40) /\
  visit_seq_e counting counting_i ex_shapes ex_custom (ex_same (fun e => Ok (Some e))) 20 0 = (LRefused true, [(1 --> 9, 0); (1 --> 9, 7)], 22) /\
  visit_seq_e counting counting_i ex_shapes (fun w => (@Panic bool, w)) (ex_source (fun e => Ok (Some e)) 5 (Val (Ok None))) 20 0 =
    (LStopped false, [(11 --> 19, 0)], 6) /\
  deserialize [Some (11 --> 19 : Interval u8, 0)] = Val (Ok [(11 --> 19, 0)]) /\
  zosdit_visit_seq_e counting counting_i some_shapes ex_custom (ex_source (fun e => Ok (Some e)) 60 (Val (Ok None))) 20 0 =
    (LDone (mkZosdit 3 [(3 --> 4, [38]); (11 --> 19, [0]); (31 --> 39, [6])]), [(11 --> 19, 0); (31 --> 39, 6); (3 --> 4, 38)], 63) /\
  map_serialize_e (fun n => tick (Val (Ok tt))) (ex_element 2) (tick (Val (Ok 5))) [(1 --> 2 : Interval u8, 7); (4 --> 5, 8); (9 --> 9, 6)] 0 =
    (Val (Err false), (3, [(1 --> 2, 7); (4 --> 5, 8)]), 3).
Proof.
  split; [intros i j l; apply some_shapes_good|]. split; [intros j l; apply some_shapes_good|].
  split; [split; intros; repeat split; intros w; reflexivity|]. split; [intros x; repeat split; intros w; reflexivity|]. split; [intros w; discriminate|].
  repeat match goal with |- _ /\ _ => split; [vm_compute; reflexivity|] end. vm_compute. reflexivity.
Qed.

Print Assumptions C159_any_from_iter_strict.
Print Assumptions C159_any_visit_seq.
Print Assumptions C159_any_from_iter_strict_back.
Print Assumptions C159_any_visit_seq_back.
Print Assumptions C159_any_custom_panics.
Print Assumptions C159_any_fuel.
Print Assumptions C159_any_serialize.
Print Assumptions C159_any_zosdit_serialize.
Print Assumptions C159_right_from_iter_strict.
Print Assumptions C159_right_visit_seq.
Print Assumptions C159_right_read_back.
Print Assumptions C159_right_from_iter_strict_back.
Print Assumptions C159_right_visit_seq_back.
