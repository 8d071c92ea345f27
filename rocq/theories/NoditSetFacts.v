(** * NoditSetFacts: NoditSet as a NoditMap with unit values; canonical sets. *)
From Coq Require Import List ZArith Bool Lia ZifyBool Sorting.Sorted Permutation.
From Verif Require Import Base BTree UtilsModel IntervalModel NoditModel NoditSetModel NoditOps NoditSetOps Spec
  PointFacts IntervalFacts ListFacts NoditFacts NoditQueries NoditGaps NoditMutations NoditMerges NoditInv NoditMore
  NoditNatural.
Import ListNotations.
Open Scope Z_scope.

(** ** Histories commute with replacing values *)
Section Images.
  Context {I : Type} `{Ord I} `{DiscreteFinite I}.
  Context {K : Type} `{InclusiveInterval I K}.
  Context {V W : Type} (g : V -> W).

  Lemma step_image (m : NoditMap K V) o o' : op_image g o o' -> step (mapv g m) o' = mapv g (step m o).
  Proof.
    intros Ho. destruct Ho; cbn [step].
    - reflexivity.
    - rewrite insert_strict_mapv. reflexivity.
    - rewrite insert_merge_touching_mapv. reflexivity.
    - rewrite (insert_merge_touching_if_mapv g veq) by assumption. reflexivity.
    - rewrite insert_merge_overlapping_mapv. reflexivity.
    - rewrite insert_merge_tor_mapv. reflexivity.
    - rewrite insert_overwrite_mapv. reflexivity.
    - rewrite remove_overlapping_mapv. reflexivity.
    - rewrite cut_mapv. reflexivity.
    - rewrite (overlapping_mut_mapv g f) by assumption. reflexivity.
    - rewrite (get_at_point_mut_mapv g f) by assumption. reflexivity.
    - unfold iter_mut. apply map_values_mapv. assumption.
    - change (map (image g) l) with (mapv g l). rewrite from_iter_strict_mapv.
      destruct (from_iter_strict l) as [[m'|e]|]; reflexivity.
    - change (map (option_map (image g)) l) with (map (option_map (mape g)) l). rewrite deserialize_mapv.
      destruct (deserialize l) as [[m'|e]|]; reflexivity.
  Qed.
  Lemma run_image (os : list (op I K V)) (os' : list (op I K W)) : Forall2 (op_image g) os os' ->
    run os' = map (image g) (run os).
  Proof.
    intros HF. unfold run. change (new (K := K) (V := W)) with (mapv g (new (K := K) (V := V))). generalize (new (K := K) (V := V)).
    induction HF as [|o o' os os' Ho HF IH]; intros m; cbn [fold_left]; [reflexivity|].
    rewrite (step_image m o o' Ho). apply IH.
  Qed.
End Images.

(** ** NoditSet and NoditMap *)
Section SetMap.
  Context {I : Type} `{Ord I} `{DiscreteFinite I}.
  Context {K : Type} `{InclusiveInterval I K}.

  Definition unit_entry (k : K) : K * unit := (k, tt).
  Lemma set_extend_map l (s : NoditSet K) : set_extend_strict l s = extend_strict (map unit_entry l) s.
  Proof.
    revert s. induction l as [|k r IH]; intros s; [reflexivity|]. cbn. unfold set_insert_strict.
    destruct (insert_strict k tt s) as [s' [[u|e]|]]; cbn; [apply IH|reflexivity..].
  Qed.
  Lemma set_visit_map l (s : NoditSet K) : set_visit_seq l s = visit_seq (map (option_map unit_entry) l) s.
  Proof.
    revert s. induction l as [|[k|] r IH]; intros s; [reflexivity| |reflexivity]. cbn. unfold set_insert_strict.
    destruct (insert_strict k tt s) as [s' [[u|e]|]]; cbn; [apply IH|reflexivity..].
  Qed.

  Definition op_of_set (o : set_op I K) : op I K unit :=
    match o with
    | SNew => OpNew
    | SInsertStrict k => OpInsertStrict k tt
    | SInsertMergeTouching k => OpInsertMergeTouching k tt
    | SInsertMergeOverlapping k => OpInsertMergeOverlapping k tt
    | SInsertMergeTouchingOrOverlapping k => OpInsertMergeTouchingOrOverlapping k tt
    | SInsertOverwrite k => OpInsertOverwrite k tt
    | SRemoveOverlapping q => OpRemoveOverlapping q
    | SCut q => OpCut q
    | SFromIterStrict l => OpFromIterStrict (map unit_entry l)
    | SDeserialize l => OpDeserialize (map (option_map unit_entry) l)
    end.
  Lemma set_step_map s o : set_step s o = step s (op_of_set o).
  Proof.
    destruct o; cbn; try reflexivity.
    - unfold set_insert_overwrite. destruct (insert_overwrite k tt s); reflexivity.
    - unfold set_remove_overlapping. destruct (remove_overlapping q s); reflexivity.
    - unfold set_cut. destruct (cut q s); reflexivity.
    - unfold set_from_iter_strict. rewrite set_extend_map. reflexivity.
    - unfold set_deserialize. rewrite set_visit_map. reflexivity.
  Qed.
  Lemma set_run_map os : set_run os = run (map op_of_set os).
  Proof.
    unfold set_run, run. change (set_new (K := K)) with (new (K := K) (V := unit)). generalize (new (K := K) (V := unit)).
    induction os as [|o os IH]; intros s; cbn [fold_left map]; [reflexivity|]. rewrite set_step_map. apply IH.
  Qed.

  Context {V : Type}.
  Lemma forget_mapv (m : NoditMap K V) : forget m = mapv (fun _ => tt) m.
  Proof. reflexivity. Qed.
  Lemma lifts_image o (o' : op I K V) : lifts o o' -> op_image (fun _ => tt) o' (op_of_set o).
  Proof.
    intros Ho. destruct Ho; cbn; try (constructor; fail).
    - replace (map unit_entry (map fst l)) with (map (image (fun _ : V => tt)) l) by (rewrite map_map; reflexivity).
      constructor.
    - replace (map (option_map unit_entry) (map (option_map fst) l)) with (map (option_map (image (fun _ : V => tt))) l).
      + constructor.
      + rewrite map_map. apply map_ext. intros [e|]; reflexivity.
  Qed.
  Lemma run_lifts os (os' : list (op I K V)) : Forall2 lifts os os' -> set_run os = forget (run os').
  Proof.
    intros HF. rewrite set_run_map. apply (run_image (fun _ : V => tt) os'). induction HF; cbn; constructor; [apply lifts_image|]; assumption.
  Qed.
End SetMap.

Section Points.
  Context {I : Type} `{PL : PointLaws I}.
  Context {K : Type} {IK : InclusiveInterval I K} {IL : IntervalLaws I K} {FI : FromInvalid I K}.
  Notation entry := (K * unit)%type.
  Implicit Types (s : NoditSet K) (k : K) (p : I).

  Lemma set_run_WF os : WF (set_run (I := I) (K := K) os).
  Proof. rewrite set_run_map. apply run_WF. Qed.
  Lemma set_reachable_WF s : set_reachable s -> WF s.
  Proof. intros [os ->]. apply set_run_WF. Qed.

  Lemma in_set_iter s k : In k (set_iter s) <-> In (k, tt) s.
  Proof.
    unfold set_iter, iter. rewrite in_map_iff. split.
    - intros ([k' []] & E & Hi). cbn in E. subst. exact Hi.
    - intros Hi. exists (k, tt). split; [reflexivity|exact Hi].
  Qed.
  Lemma in_set_covered s p : in_set s p <-> covered s p.
  Proof.
    unfold in_set, covered. split.
    - intros (k & Hi & Hc). apply in_set_iter in Hi. exists k, tt. auto.
    - intros (k & [] & Hi & Hc). exists k. rewrite in_set_iter. auto.
  Qed.
  Lemma in_set_maps s p : in_set s p <-> maps_to s p tt.
  Proof. rewrite in_set_covered, covered_maps_to. split; [intros ([] & X); exact X|intros X; exists tt; exact X]. Qed.
  Lemma set_iter_fst s : set_iter s = map fst s.
  Proof. unfold set_iter, iter. apply map_ext. intros [k []]; reflexivity. Qed.
  Lemma set_contains_point_spec s p : WF s ->
    (set_contains_point s p = Val true <-> in_set s p) /\ (set_contains_point s p = Val false <-> ~ in_set s p).
  Proof.
    intros W. unfold set_contains_point. rewrite in_set_covered.
    destruct (map_contains_point_spec s p W) as (b & -> & Hb). destruct b; split; split; intros X; try congruence.
    - apply Hb; reflexivity.
    - exfalso. apply X, Hb. reflexivity.
    - apply Hb in X. discriminate.
    - intros Y. apply Hb in Y. discriminate.
  Qed.

  (** Effects on points. *)
  Lemma absorbs_points (P : entry -> Prop) k s s' r : (forall e, In e s -> P e \/ ~ P e) -> absorbs P k tt s s' r ->
    forall p, in_set s' p <-> in_set s p \/ covers k p.
  Proof.
    intros dec (Hr & (l1 & l2 & Hs & ->) & _) p. rewrite !in_set_covered.
    assert (X : covered (l1 ++ (r, tt) :: l2) p <-> covers r p \/ covered (l1 ++ l2) p).
    { rewrite !covered_app. change ((r, tt) :: l2) with ([(r, tt)] ++ l2). rewrite covered_app.
      assert (Y : covered [(r, tt)] p <-> covers r p); [|rewrite Y; tauto].
      split; [intros (k' & v' & [E|[]] & Hc); injection E as -> _; exact Hc|].
      intros Hc. exists r, tt. split; [left; reflexivity|exact Hc]. }
    rewrite X, Hr. split.
    - intros [[Hk|(e & Hi & _ & Hc)]|(k' & v' & Hi & Hc)]; [right; exact Hk|left..].
      + exists (fst e), (snd e). rewrite <- surjective_pairing. auto.
      + exists k', v'. apply (sub_in _ _ _ Hs) in Hi. split; [apply Hi|exact Hc].
    - intros [(k' & v' & Hi & Hc)|Hk]; [|left; left; exact Hk].
      destruct (dec (k', v') Hi) as [HP|HP].
      + left. right. exists (k', v'). auto.
      + right. exists k', v'. split; [|exact Hc]. apply (sub_in _ _ _ Hs). auto.
  Qed.

  Lemma overlap_dec1 {A B} {IA : InclusiveInterval I A} {IB : InclusiveInterval I B} (a : A) (b : B) :
    overlap a b \/ ~ overlap a b.
  Proof. rewrite overlap_rk. lia. Qed.
  Lemma covers_dec1 {A} {IA : InclusiveInterval I A} (a : A) p : covers a p \/ ~ covers a p.
  Proof. rewrite covers_rk. lia. Qed.
  Lemma load_unit (ks : list K) : disjoint_intervals ks ->
    exists m, deserialize (map (option_map unit_entry) (map Some ks)) = Val (Ok m).
  Proof.
    intros Hd. replace (map (option_map unit_entry) (map Some ks)) with (map Some (map unit_entry ks))
      by (rewrite !map_map; reflexivity).
    rewrite deserialize_all. destruct (loadable_ok (map unit_entry ks)) as (m & E & _).
    - unfold loadable. rewrite map_map. cbn. rewrite map_id. exact Hd.
    - exists m. rewrite E. reflexivity.
  Qed.
  Lemma touch_dec s k (e : entry) : WF s -> valid k -> In e s -> touch (fst e) k \/ ~ touch (fst e) k.
  Proof.
    intros W Vk Hi. pose proof (WF_okv _ _ W Hi) as Ve. apply valid_rk in Vk.
    rewrite touch_rk by assumption. lia.
  Qed.

  Lemma strict_points s k : WF s -> valid k ->
    (forall e, In e s -> ~ overlap (fst e) k) ->
    exists s', set_insert_strict k s = (s', Val (Ok tt)) /\ WF s' /\
      forall p, in_set s' p <-> in_set s p \/ covers k p.
  Proof.
    intros W Vk Hn. destruct (insert_strict_done s k tt W Vk) as (l1 & l2 & Es & E & W').
    { intros k' v' Hi. apply (Hn _ Hi). }
    eexists. split; [exact E|]. split; [exact W'|]. intros p. rewrite !in_set_covered. subst s.
    change ((k, tt) :: l2) with ([(k, tt)] ++ l2). rewrite !covered_app.
    assert (X : covered [(k, tt)] p <-> covers k p).
    { split; [intros (k' & v' & [X|[]] & Hc); injection X as -> _; exact Hc|].
      intros Hc. exists k, tt. split; [left; reflexivity|exact Hc]. }
    rewrite X. tauto.
  Qed.
  Lemma strict_refused s k : WF s -> valid k -> (exists e, In e s /\ overlap (fst e) k) ->
    set_insert_strict k s = (s, Val (Err tt)).
  Proof. intros W Vk ([k' v'] & Hi & Ho). apply insert_strict_refused; eauto. Qed.
  Lemma free_points s k : (forall p, covers k p -> ~ in_set s p) <-> (forall e, In e s -> ~ overlap (fst e) k).
  Proof.
    split.
    - intros Hf [k' v'] Hi (p & P1 & P2). apply (Hf p P2), in_set_covered. exists k', v'. auto.
    - intros Hf p Hc Hs. apply in_set_covered in Hs. destruct Hs as (k' & v' & Hi & Hp).
      apply (Hf _ Hi). exists p. auto.
  Qed.
  Lemma clash_dec s k : (exists e, In e s /\ overlap (fst e) k) \/ (forall e, In e s -> ~ overlap (fst e) k).
  Proof.
    induction s as [|e s IH]; [right; intros e []|].
    destruct (overlap_dec1 (fst e) k) as [O|O]; [left; exists e; split; [left; reflexivity|exact O]|].
    destruct IH as [(e' & Hi & Ho)|Hn]; [left; exists e'; split; [right; exact Hi|exact Ho]|].
    right. intros e' [<-|Hi]; [exact O|apply Hn, Hi].
  Qed.
  Lemma touching_points s k : WF s -> valid k -> (forall e, In e s -> ~ overlap (fst e) k) ->
    exists s' r, set_insert_merge_touching k s = (s', Val (Ok r)) /\ WF s' /\
      absorbs (fun e => touch (fst e) k) k tt s s' r /\
      forall p, in_set s' p <-> in_set s p \/ covers k p.
  Proof.
    intros W Vk Hn. destruct (insert_merge_touching_done s k tt W Vk) as (s' & r & E & W' & Ha).
    { intros k' v' Hi. apply (Hn _ Hi). }
    exists s', r. split; [exact E|]. split; [exact W'|]. split; [exact Ha|].
    eapply absorbs_points; [|exact Ha]. intros e Hi. apply (touch_dec s); assumption.
  Qed.
  Lemma touching_refused s k : WF s -> valid k -> (exists e, In e s /\ overlap (fst e) k) ->
    set_insert_merge_touching k s = (s, Val (Err tt)).
  Proof. intros W Vk ([k' v'] & Hi & Ho). apply insert_merge_touching_refused; eauto. Qed.
  Lemma overlapping_points s k : WF s -> valid k ->
    exists s' r, set_insert_merge_overlapping k s = (s', Val r) /\ WF s' /\
      absorbs (fun e => overlap (fst e) k) k tt s s' r /\
      forall p, in_set s' p <-> in_set s p \/ covers k p.
  Proof.
    intros W Vk. destruct (insert_merge_overlapping_spec s k tt W Vk) as (s' & r & E & W' & Ha).
    exists s', r. split; [exact E|]. split; [exact W'|]. split; [exact Ha|].
    eapply absorbs_points; [|exact Ha]. intros e Hi. apply overlap_dec1.
  Qed.
  Lemma tor_points s k : WF s -> valid k ->
    exists s' r, set_insert_merge_touching_or_overlapping k s = (s', Val r) /\ WF s' /\
      absorbs (fun e => touch (fst e) k \/ overlap (fst e) k) k tt s s' r /\
      forall p, in_set s' p <-> in_set s p \/ covers k p.
  Proof.
    intros W Vk. destruct (insert_merge_touching_or_overlapping_spec s k tt W Vk) as (s' & r & E & W' & Ha).
    exists s', r. split; [exact E|]. split; [exact W'|]. split; [exact Ha|].
    eapply absorbs_points; [|exact Ha]. intros e Hi.
    destruct (overlap_dec1 (fst e) k), (touch_dec s k e W Vk Hi); tauto.
  Qed.
  Lemma first_fst (l : list entry) : map first l = map fst l.
  Proof. apply map_ext. intros [? ?]; reflexivity. Qed.
  Lemma overwrite_points s k : WF s -> valid k ->
    exists s' out, set_insert_overwrite k s = (s', Val out) /\ WF s' /\ In k (set_iter s') /\
      forall p, in_set s' p <-> in_set s p \/ covers k p.
  Proof.
    intros W Vk. destruct (insert_overwrite_spec s k tt W Vk) as (s' & out & E & _ & W' & Hi & _ & Hp).
    exists s', (map first out). split; [unfold set_insert_overwrite; rewrite E; reflexivity|].
    split; [exact W'|]. split; [apply in_set_iter, Hi|]. intros p. rewrite !in_set_maps, Hp.
    destruct (covers_dec1 k p) as [Hc|Hc]; tauto.
  Qed.
  Lemma cut_points {Q} {IQ : InclusiveInterval I Q} s (q : Q) : WF s -> valid q ->
    exists s' out, set_cut q s = (s', Val out) /\ WF s' /\
      (forall p, in_set s' p <-> in_set s p /\ ~ covers q p) /\
      (forall p, (exists k, In k out /\ covers k p) <-> in_set s p /\ covers q p).
  Proof.
    intros W Vq. destruct (cut_full s q W Vq) as (s' & out & E & W' & _ & Ho & _ & Hp).
    exists s', (map first out). split; [unfold set_cut; rewrite E; reflexivity|]. split; [exact W'|].
    split; [intros p; rewrite !in_set_maps; apply Hp|]. intros p. rewrite first_fst. split.
    - intros (k & Hi & Hc). apply in_map_iff in Hi. destruct Hi as ([k' v'] & Ek & Hi). cbn in Ek. subst k'.
      apply Ho in Hi. destruct Hi as (_ & k0 & Hi & _ & Hk). apply Hk in Hc.
      split; [apply in_set_covered; exists k0, v'; tauto|tauto].
    - intros [Hs Hc]. apply in_set_covered in Hs. destruct Hs as (k0 & v & Hi & Hk).
      destruct (proj2 (cut_out_maps s q s' out W Vq E p v)) as (k & Hk' & Hp'); [split; [exists k0; auto|exact Hc]|].
      exists k. split; [|exact Hp']. apply in_map_iff. exists (k, v). auto.
  Qed.
  Lemma remove_points {Q} {IQ : InclusiveInterval I Q} s (q : Q) : WF s -> valid q ->
    exists s' out, set_remove_overlapping q s = (s', Val out) /\ WF s' /\
      sub (fun k => ~ overlap k q) (set_iter s) (set_iter s') /\ sub (fun k => overlap k q) (set_iter s) out.
  Proof.
    intros W Vq. destruct (remove_overlapping_spec s q W Vq) as (s' & out & E & S1 & S2 & W').
    exists s', (map first out). split; [unfold set_remove_overlapping; rewrite E; reflexivity|]. split; [exact W'|].
    rewrite (set_iter_fst s), (set_iter_fst s'), (first_fst out). split.
    - clear -S2. induction S2; cbn; constructor; assumption.
    - clear -S1. induction S1; cbn; constructor; assumption.
  Qed.
  Lemma loads_spec (l : list (option K)) s : WF s ->
    let s' := match set_deserialize l with Val (Ok s') => s' | _ => s end in
    WF s' /\ loads_points l (in_set s) (in_set s').
  Proof.
    intros W. unfold set_deserialize. rewrite set_visit_map. change (visit_seq ?l set_new) with (deserialize l). cbn zeta.
    assert (Inv : forall m, deserialize (map (option_map unit_entry) l) = Val (Ok m) ->
              exists ks, l = map Some ks /\ disjoint_intervals ks /\ WF m /\ forall p, in_set m p <-> exists k, In k ks /\ covers k p).
    { intros m Em. pose proof (visit_seq_WF _ _ _ WF_nil Em) as Wm.
      apply deserialize_Ok in Em. destruct Em as (es & Ees & Hd & Hp & _).
      exists (map fst es). split; [|split; [exact Hd|split; [exact Wm|]]].
      - clear -Ees. revert l Ees. induction es as [|[k []] es IH]; intros [|[k'|] l] Ees; cbn in *; try discriminate; [reflexivity|].
        injection Ees as -> Ees. f_equal. apply IH, Ees.
      - intros p. rewrite in_set_covered. split.
        + intros (k & v & Hi & Hc). exists k. split; [|exact Hc]. apply in_map_iff. exists (k, v). split; [reflexivity|].
          eapply Permutation_in; [symmetry; exact Hp|exact Hi].
        + intros (k & Hi & Hc). apply in_map_iff in Hi. destruct Hi as ([k' v'] & Ek & Hi). cbn in Ek. subst k'.
          exists k, v'. split; [|exact Hc]. eapply Permutation_in; [exact Hp|exact Hi]. }
    destruct (deserialize (map (option_map unit_entry) l)) as [[m|e]|] eqn:E.
    - destruct (Inv m eq_refl) as (ks & -> & Hd & Wm & Hp). split; [exact Wm|]. split.
      + intros ks' Ek _. assert (ks' = ks) as ->; [|exact Hp].
        clear -Ek. revert ks' Ek. induction ks as [|k ks IH]; intros [|k' ks'] Ek; try discriminate; [reflexivity|].
        injection Ek as -> Ek. f_equal. apply IH, Ek.
      + intros Hn. exfalso. apply Hn. exists ks. auto.
    - split; [exact W|]. split; [|intros _ p; reflexivity]. intros ks -> Hd. exfalso.
      destruct (load_unit ks Hd) as (m & Em). congruence.
    - split; [exact W|]. split; [|intros _ p; reflexivity]. intros ks -> Hd. exfalso.
      destruct (load_unit ks Hd) as (m & Em). congruence.
  Qed.
End Points.
