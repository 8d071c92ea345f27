(** * CloneProofs: histories with any [Clone] (C115, C116). *)
From Coq Require Import List ZArith Bool Lia ZifyBool Sorting.Sorted.
From Verif Require Import Base BTree UtilsModel IntervalModel NoditModel NoditOps NoditSetOps ZosditModel ZosditOps CloneModel CloneOps
  Spec PointFacts IntervalFacts ListFacts NoditFacts NoditNatural NoditInv NoditMutations ZosditFacts ZosditMut ZosditProofs CloneFacts CloneZosdit CloneZosditExact.
Import ListNotations.
Open Scope Z_scope.

Section Proofs.
  Context {I : Type} {OI : Ord I} {DI : DiscreteFinite I} {PL : PointLaws I}.
  Context {K : Type} {IK : InclusiveInterval I K} {IL : IntervalLaws I K}.
  Context {V W : Type} (clone : W -> V -> V * W).
  Let u : V -> unit := fun _ => tt.

  (** The invariants only depend on the intervals. *)
  Lemma WF_unit (m : NoditMap K V) : WF (mapv u m) <-> WF m.
  Proof.
    unfold WF. assert (F : forall (P : K -> Prop) (m : NoditMap K V), Forall (fun e => P (fst e)) (mapv u m) <-> Forall (fun e => P (fst e)) m).
    { intros P l. unfold mapv. rewrite Forall_map. reflexivity. }
    unfold okv, elo, ehi. rewrite (F (fun k => lo k <= hi k)). 
    assert (S : StronglySorted lt_entry (mapv u m) <-> StronglySorted lt_entry m); [|rewrite S; reflexivity].
    induction m as [|e m IH]; [split; constructor|]. change (mapv u (e :: m)) with (mape u e :: mapv u m). unfold lt_entry, elo, ehi in *.
    split; intros X; apply StronglySorted_inv in X; destruct X as [X1 X2]; constructor.
    - apply IH, X1.
    - apply (F (fun k => hi (fst e) < lo k)). exact X2.
    - apply IH, X1.
    - apply (F (fun k => hi (fst e) < lo k)) in X2. exact X2.
  Qed.
  Lemma step_w_WF (s : NoditMap K V * W) o : WF (fst s) -> WF (fst (step_w clone s o)).
  Proof.
    destruct s as [m w]. cbn [fst]. intros Wf. destruct o; try (cbn [step_w fst snd]; apply step_WF, Wf).
    - pose proof (insert_overwrite_w_obs clone u (fun _ _ => eq_refl) k v m w) as E. cbn [step_w fst snd].
      pose proof (step_WF (mapv u m) (OpInsertOverwrite k (u v)) (proj2 (WF_unit m) Wf)) as X. cbn [step] in X. rewrite E in X. unfold mapr in X.
      destruct (insert_overwrite_w clone k v m w) as [[m' r] w']. cbn [fst snd] in *. apply WF_unit, X.
    - pose proof (cut_w_obs clone u (fun _ _ => eq_refl) q m w) as E. cbn [step_w fst snd].
      pose proof (step_WF (mapv u m) (OpCut q) (proj2 (WF_unit m) Wf)) as X. cbn [step] in X. rewrite E in X. unfold mapr in X.
      destruct (cut_w clone q m w) as [[m' r] w']. cbn [fst snd] in *. apply WF_unit, X.
  Qed.
  Lemma fold_w_WF os : forall s : NoditMap K V * W, WF (fst s) -> WF (fst (fold_left (step_w clone) os s)).
  Proof. induction os as [|o os IH]; intros s Ws; [exact Ws|]. cbn [fold_left]. apply IH, step_w_WF, Ws. Qed.
  Lemma run_w_WF w os : WF (fst (run_w clone w os)).
  Proof. apply fold_w_WF. apply WF_nil. Qed.

  Lemma ZWF_unit (z : ZosditMap K V) : ZWF (zmap u z) <-> ZWF z.
  Proof.
    unfold ZWF, zmap. cbn [z_inner z_len].
    assert (F : forall (P : K -> Prop) (m : BTreeMap K (list V)), Forall (fun e => P (fst e)) (mapv (map u) m) <-> Forall (fun e => P (fst e)) m).
    { intros P l. unfold mapv. rewrite Forall_map. reflexivity. }
    assert (S : ZS (mapv (map u) (z_inner z)) <-> ZS (z_inner z)).
    { induction (z_inner z) as [|e m IH]; [change (mapv (map u) []) with (@nil (K * list unit)); split; intros _; split; constructor|]. change (mapv (map u) (e :: m)) with (mape (map u) e :: mapv (map u) m). rewrite !ZS_cons, IH. unfold okv, elo, ehi. 
      rewrite (F (fun k => hi (fst e) <= lo k)). reflexivity. }
    rewrite S.
    assert (O : Forall okstore (mapv (map u) (z_inner z)) <-> Forall okstore (z_inner z)).
    { unfold mapv. rewrite Forall_map. rewrite !Forall_forall. assert (FI : forall (P Q : K * list V -> Prop) l, (forall e, P e <-> Q e) -> ((forall e, In e l -> P e) <-> (forall e, In e l -> Q e))) by (intros P Q l X; split; intros Y e He; apply X, Y, He). apply FI. intros [k vs]. unfold okstore, mape, elo, ehi. cbn [fst snd].
      destruct vs as [|v [|v2 vs]]; cbn [map].
      - split; intros [X _]; exfalso; apply X; reflexivity.
      - split; intros _; (split; [discriminate|intros _; eexists; reflexivity]).
      - split; intros [_ X]; (split; [discriminate|intros L; exfalso; destruct (X L) as [x Y]; discriminate]). }
    rewrite O.
    assert (C : count (mapv (map u) (z_inner z)) = count (z_inner z)).
    { unfold count. change (mapv (map u) (z_inner z)) with (mapv (map u) (z_inner z)). pose proof (flatten_map u (z_inner z)) as E. etransitivity; [apply (f_equal (@length _)); exact E|]. apply map_length. }
    rewrite C. reflexivity.
  Qed.
  Lemma zstep_w_ZWF (s : ZosditMap K V * W) o : ZWF (fst s) -> ZWF (fst (zstep_w clone s o)).
  Proof.
    destruct s as [z w]. cbn [fst]. intros Wf. destruct o; try (cbn [zstep_w fst snd]; apply zstep_ZWF, Wf).
    pose proof (zcut_w_obs u clone (fun _ _ => eq_refl) q z w) as E. cbn [zstep_w fst snd].
    pose proof (zstep_ZWF (zmap u z) (ZCut q) (proj2 (ZWF_unit z) Wf)) as X. cbn [zstep] in X. rewrite E in X. unfold zmapr in X.
    destruct (zosdit_cut_w clone q z w) as [[z' r] w']. cbn [fst snd] in *. apply ZWF_unit, X.
  Qed.
  Lemma zfold_w_ZWF os : forall s : ZosditMap K V * W, ZWF (fst s) -> ZWF (fst (fold_left (zstep_w clone) os s)).
  Proof. induction os as [|o os IH]; intros s Ws; [exact Ws|]. cbn [fold_left]. apply IH, zstep_w_ZWF, Ws. Qed.
  Lemma zrun_w_ZWF w os : ZWF (fst (zrun_w clone w os)).
  Proof. apply zfold_w_ZWF. apply (zreachable_ZWF z_new). exists []. reflexivity. Qed.

  (** The value given to [insert_overwrite] is stored as it is. *)
  Lemma overwrite_w_exact k v (m : NoditMap K V) w : WF m -> valid k -> exists l1 l2 out w',
    cut_w clone k m w = (l1 ++ l2, Val out, w') /\ insert_overwrite_w clone k v m w = (l1 ++ (k, v) :: l2, Val out, w').
  Proof.
    intros Wf Vk. destruct (insert_overwrite_facts (mapv u m) k tt (proj2 (WF_unit m) Wf) Vk) as (a1 & a2 & o & E1 & _ & Wi).
    pose proof (cut_w_obs clone u (fun _ _ => eq_refl) k m w) as E. rewrite E1 in E. unfold mapr in E.
    unfold insert_overwrite_w. rewrite (iip_valid _ Vk). destruct (cut_w clone k m w) as [[m' r] w']. cbn [fst snd] in E. injection E as Em Er.
    destruct r as [out|]; [|discriminate]. unfold mapv in Em. symmetry in Em. apply map_eq_app in Em. destruct Em as (l1 & l2 & -> & <- & <-).
    exists l1, l2, out, w'. split; [reflexivity|]. f_equal. f_equal.
    apply WF_app in Wi. destruct Wi as ([_ V1] & Wi & H1). apply WF_cons in Wi. destruct Wi as (V0 & [_ V2] & H2). apply insert_unchecked_split; rewrite Forall_forall in *; intros x Hx.
    - specialize (H1 (mape u x) (k, tt) (in_map _ _ _ Hx) (or_introl eq_refl)). specialize (V1 _ (in_map _ _ _ Hx)). unfold okv, mape, elo, ehi in *. cbn [fst] in *. lia.
    - specialize (H2 _ (in_map _ _ _ Hx)). unfold mape, elo, ehi in *. cbn [fst] in *. apply valid_rk in Vk. lia.
  Qed.
End Proofs.

(** ** How many values are cloned *)
Section Tally.
  Context {I : Type} {OI : Ord I} {DI : DiscreteFinite I} {PL : PointLaws I}.
  Context {K : Type} {IK : InclusiveInterval I K} {IL : IntervalLaws I K}.
  Context {V W : Type} (clone : W -> V -> V * W).
  Notation count_clones := (counted clone).

  Lemma clone_all_counted vs : forall w n, snd (snd (clone_all count_clones (w, n) vs)) = (n + length vs)%nat.
  Proof.
    induction vs as [|v vs IH]; intros w n; [cbn; lia|]. cbn [clone_all]. unfold counted at 1. cbn [fst snd]. destruct (clone w v) as [v' w1].
    specialize (IH w1 (S n)). destruct (clone_all count_clones (w1, S n) vs) as [vs' s]. cbn [snd length] in *. lia.
  Qed.
  Lemma step_w_counted (s : NoditMap K V * (W * nat)) o : WF (fst s) ->
    (snd (snd (step_w count_clones s o)) <= snd (snd s) + 2 * calls_cut o)%nat.
  Proof.
    destruct s as [m [w n]]. cbn [fst snd]. intros Wf.
    assert (C : forall {Q} {IQ : InclusiveInterval I Q} (q : Q), (snd (snd (cut_w count_clones q m (w, n))) <= n + 2)%nat).
    { intros Q IQ q. destruct (valid_dec q) as [Vq|Vq].
      - destruct (cut_w_exact count_clones q m (w, n) Wf Vq) as (A & out & B & bs & fs & _ & _ & _ & _ & L1 & L2 & _ & E).
        apply (f_equal snd) in E. cbn [snd] in E. rewrite E, clone_all_counted, app_length, !map_length. lia.
      - unfold cut_w. rewrite (iip_invalid _ Vq). cbn. lia. }
    destruct o; cbn [step_w fst snd calls_cut]; try lia.
    - destruct (valid_dec k) as [Vk|Vk].
      + destruct (overwrite_w_exact count_clones k v m (w, n) Wf Vk) as (l1 & l2 & out & w' & E1 & E2). rewrite E2. specialize (C _ _ k). rewrite E1 in C. cbn [snd] in *. lia.
      + unfold insert_overwrite_w. rewrite (iip_invalid _ Vk). cbn. lia.
    - specialize (C _ _ q). destruct (cut_w count_clones q m (w, n)) as [[m' r] w']. cbn [snd] in *. lia.
  Qed.
  Lemma run_w_counted w os : (snd (snd (run_w count_clones (w, O) os)) <= 2 * list_sum (map calls_cut os))%nat.
  Proof.
    unfold run_w. assert (G : forall (s : NoditMap K V * (W * nat)), WF (fst s) ->
      (snd (snd (fold_left (step_w count_clones) os s)) <= snd (snd s) + 2 * list_sum (map calls_cut os))%nat).
    { induction os as [|o os IH]; intros s Ws; [cbn; lia|]. cbn [fold_left]. specialize (IH _ (step_w_WF count_clones s o Ws)). pose proof (step_w_counted s o Ws).
      change (list_sum (map calls_cut (o :: os))) with (calls_cut o + list_sum (map calls_cut os))%nat. lia. }
    apply (G (new, (w, O))). apply WF_nil.
  Qed.
  Lemma zstep_w_counted (s : ZosditMap K V * (W * nat)) o : ZWF (fst s) ->
    (snd (snd (zstep_w count_clones s o)) <= snd (snd s) + 2 * zcalls_cut o)%nat.
  Proof.
    destruct s as [z [w n]]. cbn [fst snd]. intros Wf. destruct o; cbn [zstep_w fst snd zcalls_cut]; try lia.
    destruct (valid_dec q) as [Vq|Vq].
    - destruct (zcut_w_exact count_clones q z (w, n) Wf Vq) as (A & M & B & out & ans & bs & fs & _ & _ & _ & _ & _ & _ & _ & L1 & L2 & _ & E).
      apply (f_equal snd) in E. cbn [snd] in E. pose proof (clone_all_counted (map snd bs ++ map snd fs) w n) as N. rewrite <- E, app_length, !map_length in N.
      destruct (zosdit_cut_w count_clones q z (w, n)) as [[z' r] w']. cbn [snd] in *. lia.
    - unfold zosdit_cut_w. rewrite (iip_invalid _ Vq). cbn. lia.
  Qed.
  Lemma zrun_w_counted w os : (snd (snd (zrun_w count_clones (w, O) os)) <= 2 * list_sum (map zcalls_cut os))%nat.
  Proof.
    unfold zrun_w. assert (G : forall (s : ZosditMap K V * (W * nat)), ZWF (fst s) ->
      (snd (snd (fold_left (zstep_w count_clones) os s)) <= snd (snd s) + 2 * list_sum (map zcalls_cut os))%nat).
    { induction os as [|o os IH]; intros s Ws; [cbn; lia|]. cbn [fold_left]. specialize (IH _ (zstep_w_ZWF count_clones s o Ws)). pose proof (zstep_w_counted s o Ws).
      change (list_sum (map zcalls_cut (o :: os))) with (zcalls_cut o + list_sum (map zcalls_cut os))%nat. lia. }
    apply (G (z_new, (w, O))). apply (zreachable_ZWF z_new). exists []. reflexivity.
  Qed.
End Tally.

(** ** The state is handed from call to call *)
Section Snoc.
  Context {I : Type} {OI : Ord I} {DI : DiscreteFinite I}.
  Context {K : Type} {IK : InclusiveInterval I K}.
  Context {V W : Type} (clone : W -> V -> V * W).
  Lemma run_w_snoc w (os : list (op I K V)) : let (m, w') := run_w clone w os in
    (forall {Q} {IQ : InclusiveInterval I Q} (q : Q), run_w clone w (os ++ [OpCut q]) = (fst (fst (cut_w clone q m w')), snd (cut_w clone q m w'))) /\
    (forall k v, run_w clone w (os ++ [OpInsertOverwrite k v]) = (fst (fst (insert_overwrite_w clone k v m w')), snd (insert_overwrite_w clone k v m w'))) /\
    (forall o, calls_cut o = O -> run_w clone w (os ++ [o]) = (step m o, w')).
  Proof.
    unfold run_w. destruct (fold_left (step_w clone) os (new, w)) as [m w'] eqn:E. split; [|split].
    - intros Q IQ q. rewrite fold_left_app, E. cbn. destruct (cut_w clone q m w') as [[m2 r] w2]. reflexivity.
    - intros k v. rewrite fold_left_app, E. cbn. destruct (insert_overwrite_w clone k v m w') as [[m2 r] w2]. reflexivity.
    - intros o Ho. rewrite fold_left_app, E. destruct o; try discriminate; reflexivity.
  Qed.
  Lemma zrun_w_snoc w (os : list (zop I K V)) : let (z, w') := zrun_w clone w os in
    (forall {Q} {IQ : InclusiveInterval I Q} (q : Q), zrun_w clone w (os ++ [ZCut q]) = (fst (fst (zosdit_cut_w clone q z w')), snd (zosdit_cut_w clone q z w'))) /\
    (forall o, zcalls_cut o = O -> zrun_w clone w (os ++ [o]) = (zstep z o, w')).
  Proof.
    unfold zrun_w. destruct (fold_left (zstep_w clone) os (z_new, w)) as [z w'] eqn:E. split.
    - intros Q IQ q. rewrite fold_left_app, E. cbn. destruct (zosdit_cut_w clone q z w') as [[m2 r] w2]. reflexivity.
    - intros o Ho. rewrite fold_left_app, E. destruct o; try discriminate; reflexivity.
  Qed.
End Snoc.

(** ** A clone that returns the value it is given *)
Section Faithful.
  Context {I : Type} {OI : Ord I} {DI : DiscreteFinite I}.
  Context {K : Type} {IK : InclusiveInterval I K}.
  Context {V W : Type} (clone : W -> V -> V * W).
  Hypothesis faithful : forall w v, fst (clone w v) = v.
  Let i : V -> V := fun v => v.

  Lemma mapv_i (m : list (K * V)) : mapv i m = m.
  Proof. unfold mapv. rewrite <- (map_id m) at 2. apply map_ext. intros [k v]. reflexivity. Qed.
  Lemma mapr_i (x : NoditMap K V * outcome (list (K * V))) : mapr i (mapv i) x = x.
  Proof. destruct x as [m [r|]]; unfold mapr; cbn [fst snd omap]; rewrite ?mapv_i; reflexivity. Qed.
  Lemma cut_w_faithful {Q} {IQ : InclusiveInterval I Q} (q : Q) (m : NoditMap K V) w : fst (cut_w clone q m w) = cut q m.
  Proof. pose proof (cut_w_obs clone i faithful q m w) as E. rewrite mapr_i, mapv_i in E. symmetry. exact E. Qed.
  Lemma overwrite_w_faithful k v (m : NoditMap K V) w : fst (insert_overwrite_w clone k v m w) = insert_overwrite k v m.
  Proof. pose proof (insert_overwrite_w_obs clone i faithful k v m w) as E. rewrite mapr_i, mapv_i in E. symmetry. exact E. Qed.
  Lemma run_w_faithful w os : fst (run_w clone w os) = run os.
  Proof.
    unfold run, run_w. assert (G : forall s, fst (fold_left (step_w clone) os s) = fold_left step os (fst s)).
    { induction os as [|o os IH]; intros s; [reflexivity|]. cbn [fold_left]. rewrite IH. f_equal. destruct s as [m w0]. destruct o; try reflexivity; cbn [step_w step fst snd].
      - pose proof (overwrite_w_faithful k v m w0) as E. destruct (insert_overwrite_w clone k v m w0) as [[m' r] w']. cbn [fst] in *. rewrite <- E. reflexivity.
      - pose proof (cut_w_faithful q m w0) as E. destruct (cut_w clone q m w0) as [[m' r] w']. cbn [fst] in *. rewrite <- E. reflexivity. }
    apply (G (new, w)).
  Qed.
  Lemma zmap_i (z : ZosditMap K V) : zmap i z = z.
  Proof.
    destruct z as [n l]. unfold zmap. cbn [z_len z_inner]. f_equal. unfold mapv. rewrite <- (map_id l) at 2. apply map_ext. intros [k vs]. unfold mape. cbn. f_equal. apply map_id.
  Qed.
  Lemma zmapr_i (x : ZosditMap K V * outcome (list (K * V))) : zmapr i (map (image i)) x = x.
  Proof. destruct x as [m [r|]]; unfold zmapr; cbn [fst snd omap]; rewrite zmap_i; [|reflexivity]. do 2 f_equal. rewrite <- (map_id r) at 2. apply map_ext. intros [k v]. reflexivity. Qed.
  Lemma zcut_w_faithful {Q} {IQ : InclusiveInterval I Q} (q : Q) (z : ZosditMap K V) w : fst (zosdit_cut_w clone q z w) = zosdit_cut q z.
  Proof. pose proof (zcut_w_obs i clone faithful q z w) as E. rewrite zmapr_i, zmap_i in E. symmetry. exact E. Qed.
  Lemma zrun_w_faithful w os : fst (zrun_w clone w os) = zrun os.
  Proof.
    unfold zrun, zrun_w. assert (G : forall s, fst (fold_left (zstep_w clone) os s) = fold_left zstep os (fst s)).
    { induction os as [|o os IH]; intros s; [reflexivity|]. cbn [fold_left]. rewrite IH. f_equal. destruct s as [m w0]. destruct o; try reflexivity; cbn [zstep_w zstep fst snd].
      pose proof (zcut_w_faithful q m w0) as E. destruct (zosdit_cut_w clone q m w0) as [[m' r] w']. cbn [fst] in *. rewrite <- E. reflexivity. }
    apply (G (z_new, w)).
  Qed.
End Faithful.

(** ** Calls and queries of a ZosditMap whose values are replaced *)
Section Images.
  Context {I : Type} {OI : Ord I} {DI : DiscreteFinite I}.
  Context {K : Type} {IK : InclusiveInterval I K}.
  Context {V X : Type} (g : V -> X).
  Let im := map (image (K := K) g).

  Lemma zrun_image (os : list (zop I K V)) (os' : list (zop I K X)) : Forall2 (zop_image g) os os' -> zrun os' = zmap g (zrun os).
  Proof. intros HF. rewrite (zrun_w_obs g (id_clone (W := unit)) (fun _ _ => eq_refl) tt os os' HF), zrun_id. reflexivity. Qed.
  Lemma ziter_map (z : ZosditMap K V) : zosdit_iter (zmap g z) = im (zosdit_iter z).
  Proof. apply flatten_map. Qed.
  Lemma zqueries_map (z : ZosditMap K V) p {Q} {IQ : InclusiveInterval I Q} (q : Q) :
    zosdit_len (zmap g z) = zosdit_len z /\ zosdit_is_empty (zmap g z) = zosdit_is_empty z /\
    zosdit_iter (zmap g z) = im (zosdit_iter z) /\ zosdit_into_iter (zmap g z) = im (zosdit_into_iter z) /\
    zosdit_first_key_value (zmap g z) = option_map (image g) (zosdit_first_key_value z) /\
    zosdit_last_key_value (zmap g z) = option_map (image g) (zosdit_last_key_value z) /\
    get_last_value_at_point (zmap g z) p = option_map g (get_last_value_at_point z p) /\
    is_zero_overlap (zmap g z) q = is_zero_overlap z q /\
    zosdit_overlapping (zmap g z) q = omap im (zosdit_overlapping z q) /\
    zosdit_serialize (zmap g z) = (fst (zosdit_serialize z), im (snd (zosdit_serialize z))).
  Proof.
    repeat split.
    - apply ziter_map.
    - apply ziter_map.
    - unfold zosdit_first_key_value. change (z_inner (zmap g z)) with (mapv (map g) (z_inner z)). rewrite bt_first_mapv. destruct (bt_first (z_inner z)) as [[k [|v vs]]|]; reflexivity.
    - unfold zosdit_last_key_value. change (z_inner (zmap g z)) with (mapv (map g) (z_inner z)). rewrite bt_last_mapv. destruct (bt_last (z_inner z)) as [[k vs]|]; [|reflexivity].
      cbn [option_map]. unfold mape. cbn [fst snd]. rewrite vec_last_map. destruct (vec_last vs); reflexivity.
    - apply get_last_map.
    - apply is_zero_overlap_map.
    - apply zosdit_overlapping_map.
    - unfold zosdit_serialize. cbn [fst snd]. rewrite ziter_map. reflexivity.
  Qed.
  Lemma zcalls_map (z : ZosditMap K V) k v p {Q} {IQ : InclusiveInterval I Q} (q : Q) :
    snd (insert_strict_back k (g v) (zmap g z)) = omap (image_error g) (snd (insert_strict_back k v z)) /\
    snd (remove_last_value_at_point p (zmap g z)) = omap (option_map g) (snd (remove_last_value_at_point p z)) /\
    snd (zosdit_cut q (zmap g z)) = omap im (snd (zosdit_cut q z)).
  Proof.
    split; [rewrite insert_back_map; reflexivity|]. split; [rewrite remove_last_map; reflexivity|].
    rewrite (zcut_w_obs g (id_clone (W := unit)) (fun _ _ => eq_refl) q z tt), zcut_id. reflexivity.
  Qed.
  Lemma zbuild_map (l : list (K * V)) :
    omap (fun r => match r with Ok z => Ok (zosdit_iter z) | Err x => Err x end) (from_iter_strict_back (im l)) =
    omap (fun r => match r with Ok z => Ok (im (zosdit_iter z)) | Err v => Err (g v) end) (from_iter_strict_back l).
  Proof.
    unfold im, from_iter_strict_back. change (@z_new K X) with (zmap (K := K) g z_new). rewrite extend_back_map.
    destruct (extend_strict_back l z_new) as [[z|v]|]; cbn [omap]; [|reflexivity..]. rewrite ziter_map. reflexivity.
  Qed.
End Images.
