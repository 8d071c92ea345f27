(** * NoditSim: whole histories of NoditMap calls. *)
From Coq Require Import List ZArith Bool Lia ZifyBool Sorting.Sorted Permutation.
From Verif Require Import Base BTree UtilsModel IntervalModel NoditModel NoditOps NoditAbs Spec Instances
  PointFacts IntervalFacts ListFacts NoditFacts NoditQueries NoditGaps NoditMutations NoditMerges NoditInv NoditMore.
Import ListNotations.
Open Scope Z_scope.

Lemma run_snoc {I} `{Ord I} `{DiscreteFinite I} {K} `{InclusiveInterval I K} {V} (os : list (op I K V)) o :
  run (os ++ [o]) = step (run os) o.
Proof. unfold run. rewrite fold_left_app. reflexivity. Qed.

Section Sim.
  Context {I : Type} `{PL : PointLaws I}.
  Context {K : Type} {IK : InclusiveInterval I K} {IL : IntervalLaws I K}.
  Context {V : Type}.
  Notation entry := (K * V)%type.
  Implicit Types (m : NoditMap K V).

  (** ** Functions on points *)
  Definition agrees m (f : I -> option V) : Prop := forall p v, maps_to m p v <-> f p = Some v.

  Lemma agrees_get m f p : WF m -> agrees m f -> get_at_point m p = Val (f p).
  Proof.
    intros W A. destruct (f p) as [v|] eqn:E.
    - apply get_at_point_Some; [exact W|]. apply A, E.
    - apply get_at_point_None; [exact W|]. rewrite covered_maps_to. intros (v & Hv). apply A in Hv. congruence.
  Qed.

  Lemma covers_dec {Q} {IQ : InclusiveInterval I Q} (q : Q) p : covers q p \/ ~ covers q p.
  Proof. rewrite covers_rk. lia. Qed.

  Lemma free_iff m f (k : K) : agrees m f ->
    ((forall p, covers k p -> f p = None) <-> forall k' v', In (k', v') m -> ~ overlap k' k).
  Proof.
    intros A. split.
    - intros Hf k' v' Hin (p & P1 & P2). specialize (Hf p P2).
      assert (X : maps_to m p v') by (exists k'; auto). apply A in X. congruence.
    - intros Hn p Hp. destruct (f p) as [v|] eqn:E; [exfalso|reflexivity].
      apply A in E. destruct E as (k' & Hin & Hk). apply (Hn k' v Hin). exists p. auto.
  Qed.

  Lemma agrees_sets m m' f f' (k : K) v : agrees m f -> sets k (Some v) f f' ->
    (forall p w, maps_to m' p w <-> (covers k p /\ w = v) \/ (~ covers k p /\ maps_to m p w)) -> agrees m' f'.
  Proof.
    intros A HS HM p w. destruct (HS p) as [S1 S2]. rewrite HM. destruct (covers_dec k p) as [C|C].
    - rewrite (S1 C). split; [intros [[_ ->]|[N _]]; [reflexivity|contradiction]|].
      intros E. injection E as ->. auto.
    - rewrite (S2 C), <- (A p w). tauto.
  Qed.

  Lemma agrees_invalid m f f' (k : K) x : ~ valid k -> agrees m f -> sets k x f f' -> agrees m f'.
  Proof.
    intros Nk A HS p w. destruct (HS p) as [_ S2]. rewrite S2; [apply A|].
    intros C. apply Nk. exists p. exact C.
  Qed.

  Lemma insert_strict_points m (k : K) v m' l1 l2 : WF m -> m = l1 ++ l2 -> m' = l1 ++ (k, v) :: l2 ->
    (forall k' v', In (k', v') m -> ~ overlap k' k) ->
    forall p w, maps_to m' p w <-> (covers k p /\ w = v) \/ (~ covers k p /\ maps_to m p w).
  Proof.
    intros W -> -> Hn p w. unfold maps_to. split.
    - intros (k' & Hin & Hp). rewrite in_app_iff in Hin. cbn in Hin.
      destruct Hin as [Hin|[E|Hin]].
      + right. split; [|exists k'; rewrite in_app_iff; auto]. intros C. apply (Hn k' w); [apply in_app_iff; auto|exists p; auto].
      + injection E as -> ->. auto.
      + right. split; [|exists k'; rewrite in_app_iff; auto]. intros C. apply (Hn k' w); [apply in_app_iff; auto|exists p; auto].
    - intros [[C ->]|[_ (k' & Hin & Hp)]].
      + exists k. rewrite in_app_iff. cbn. auto.
      + exists k'. rewrite in_app_iff in *. cbn. tauto.
  Qed.

  Lemma absorbs_equal_points m m' (k r : K) v (veq : V -> V -> bool) :
    (forall x y, veq x y = true <-> x = y) -> WF m -> valid k ->
    (forall k' v', In (k', v') m -> ~ overlap k' k) ->
    absorbs (fun e => touch (fst e) k /\ veq (snd e) v = true) k v m m' r ->
    forall p w, maps_to m' p w <-> (covers k p /\ w = v) \/ (~ covers k p /\ maps_to m p w).
  Proof.
    intros Hv W Vk Hn (Hr & (l1 & l2 & HS & ->) & _) p w. apply valid_rk in Vk.
    pose proof (sub_in _ _ _ HS) as Hin.
    assert (Free : forall k' v', In (k', v') m -> covers k' p -> ~ covers k p).
    { intros k' v' Hi C1 C2. apply (Hn k' v' Hi). exists p. auto. }
    assert (D : forall k' v', In (k', v') m ->
              (touch k' k /\ veq v' v = true) \/ ~ (touch k' k /\ veq v' v = true)).
    { intros k' v' Hi. rewrite touch_rk; [|apply (WF_okv m (k', v')); assumption|exact Vk].
      destruct (veq v' v); [|right; intros [_ X]; discriminate]. lia. }
    assert (Hin' : forall e, In e (l1 ++ (r, v) :: l2) <-> e = (r, v) \/ In e (l1 ++ l2)).
    { intros e. rewrite !in_app_iff. cbn. intuition congruence. }
    split.
    - intros (k' & Hi & Hp). apply Hin' in Hi. destruct Hi as [E|Hi].
      + injection E as -> ->. apply Hr in Hp. destruct Hp as [C|([k1 v1] & H1 & [_ Hq] & C)]; [auto|].
        cbn in Hq, C. apply Hv in Hq. subst v1. right. split; [apply (Free k1 v); assumption|]. exists k1. auto.
      + apply Hin in Hi. destruct Hi as [Hi _]. right. split; [apply (Free k' w); assumption|]. exists k'. auto.
    - intros [[C ->]|[Nk (k' & Hi & Hp)]].
      + exists r. rewrite Hin', Hr. auto.
      + destruct (D k' w Hi) as [D1|D1].
        * exists r. rewrite Hin', Hr. destruct D1 as [D1 D2]. pose proof D2 as D3. apply Hv in D3. subst w.
          split; [auto|]. right. exists (k', v). auto.
        * exists k'. rewrite Hin'. split; [|exact Hp]. right. apply Hin. auto.
  Qed.

  Lemma pstep_agrees m f f' (o : pop I K V) : WF m -> agrees m f -> pstep o f f' -> agrees (step m (op_of_pop o)) f'.
  Proof.
    intros W A. destruct o as [|k v|veq Hv k v|k v|Q IQ q|g]; cbn [pstep op_of_pop step].
    - intros Hf p v. rewrite Hf. split; [|discriminate]. intros (k & [] & _).
    - intros [Hfree Hbusy]. destruct (valid_dec k) as [Vk|Vk].
      + pose proof (free_iff m f k A) as Fr. destruct (overlap_dec m k W Vk) as [Ho|Hn].
        * rewrite insert_strict_refused by assumption. cbn [fst].
          assert (X : ~ (forall p, covers k p -> f p = None)).
          { rewrite Fr. intros Y. destruct Ho as (k' & v' & Hi & Ho). apply (Y k' v' Hi Ho). }
          specialize (Hbusy X). intros p w. rewrite Hbusy. apply A.
        * destruct (insert_strict_done m k v W Vk Hn) as (l1 & l2 & E1 & E2 & _). rewrite E2. cbn [fst].
          apply (agrees_sets m _ f f' k v A); [apply Hfree, Fr, Hn|].
          apply (insert_strict_points m k v _ l1 l2); auto.
      + rewrite insert_strict_invalid by exact Vk. cbn [fst].
        apply (agrees_invalid m f f' k (Some v) Vk A). apply Hfree. intros p Hp. destruct Vk. exists p. exact Hp.
    - intros [Hfree Hbusy]. destruct (valid_dec k) as [Vk|Vk].
      + pose proof (free_iff m f k A) as Fr. destruct (overlap_dec m k W Vk) as [Ho|Hn].
        * rewrite insert_merge_touching_if_equal_refused by assumption. cbn [fst].
          assert (X : ~ (forall p, covers k p -> f p = None)).
          { rewrite Fr. intros Y. destruct Ho as (k' & v' & Hi & Ho). apply (Y k' v' Hi Ho). }
          specialize (Hbusy X). intros p w. rewrite Hbusy. apply A.
        * destruct (insert_merge_touching_if_equal_done veq m k v W Vk Hn) as (m' & r & E & _ & Ha).
          rewrite E. cbn [fst]. apply (agrees_sets m _ f f' k v A); [apply Hfree, Fr, Hn|].
          apply (absorbs_equal_points m m' k r v veq); assumption.
      + rewrite insert_merge_touching_if_equal_invalid by exact Vk. cbn [fst].
        apply (agrees_invalid m f f' k (Some v) Vk A). apply Hfree. intros p Hp. destruct Vk. exists p. exact Hp.
    - intros HS. destruct (valid_dec k) as [Vk|Vk].
      + destruct (insert_overwrite_spec m k v W Vk) as (m' & out & E & _ & _ & _ & _ & HM). rewrite E. cbn [fst].
        apply (agrees_sets m m' f f' k v A HS HM).
      + rewrite insert_overwrite_invalid by exact Vk. apply (agrees_invalid m f f' k (Some v) Vk A HS).
    - intros HS. destruct (valid_dec q) as [Vq|Vq].
      + destruct (cut_entries m q W Vq) as (m' & out & E & _ & _ & _ & _ & HM). rewrite E. cbn [fst].
        intros p v. rewrite HM. destruct (HS p) as [S1 S2]. destruct (covers_dec q p) as [C|C].
        * rewrite (S1 C). split; [intros [_ N]; contradiction|discriminate].
        * rewrite (S2 C), <- (A p v). tauto.
      + rewrite cut_invalid by exact Vq. cbn [fst]. intros p v. destruct (HS p) as [_ S2].
        rewrite S2; [apply A|]. intros C. apply Vq. exists p. exact C.
    - intros Hf p v. rewrite Hf. unfold iter_mut, map_values. split.
      + intros (k & Hin & Hp). apply in_map_iff in Hin. destruct Hin as ([k0 v0] & E & Hin). injection E as -> <-.
        assert (X : maps_to m p v0) by (exists k; auto). apply A in X. rewrite X. reflexivity.
      + destruct (f p) as [v0|] eqn:E; cbn; [|discriminate]. intros E'. injection E' as <-.
        apply A in E. destruct E as (k & Hin & Hp). exists k. split; [|exact Hp].
        apply in_map_iff. exists (k, v0). auto.
  Qed.

  Lemma prun_agrees (os : list (pop I K V)) f : prun os f -> agrees (run (map op_of_pop os)) f.
  Proof.
    induction 1 as [f Hf|os o f f' HR IH HS].
    - intros p v. rewrite Hf. split; [intros (k & [] & _)|discriminate].
    - rewrite map_app. cbn [map]. rewrite run_snoc. eapply pstep_agrees; [apply run_WF|exact IH|exact HS].
  Qed.

  (** Every history describes a function: the one computed by the map itself. *)
  Lemma agrees_exists m : WF m -> exists f, agrees m f.
  Proof.
    intros W. exists (fun p => match get_at_point m p with Val o => o | Panic => None end).
    intros p v. destruct (get_at_point_cases m p W) as [(v' & Hv & E & _)|(Hn & E & _)]; rewrite E.
    - split; [intros Hm; f_equal; symmetry; eapply maps_to_fun; eassumption|]. intros X. injection X as <-. exact Hv.
    - split; [|discriminate]. intros Hm. apply maps_to_covered in Hm. contradiction.
  Qed.

  Lemma sets_exists {Q} {IQ : InclusiveInterval I Q} (q : Q) x (f : I -> option V) : exists f', sets q x f f'.
  Proof.
    exists (fun p => if leb (istart q) p && leb p (iend q) then x else f p). intros p.
    rewrite !leb_rk. rewrite covers_rk. unfold lo, hi. split; intros C.
    - replace (_ && _) with true by lia. reflexivity.
    - replace (_ && _) with false by lia. reflexivity.
  Qed.

  Lemma free_dec m f (k : K) : WF m -> agrees m f ->
    (forall p, covers k p -> f p = None) \/ ~ (forall p, covers k p -> f p = None).
  Proof.
    intros W A. destruct (valid_dec k) as [Vk|Vk].
    - rewrite (free_iff m f k A). destruct (overlap_dec m k W Vk) as [(k' & v' & Hi & Ho)|Hn]; [right|left; exact Hn].
      intros Y. apply (Y k' v' Hi Ho).
    - left. intros p Hp. destruct Vk. exists p. exact Hp.
  Qed.

  Lemma prun_total (os : list (pop I K V)) : exists f, prun os f.
  Proof.
    induction os as [|o os [f IH]] using rev_ind; [exists (fun _ => None); constructor; reflexivity|].
    assert (W := run_WF (map op_of_pop os)). assert (A := prun_agrees os f IH).
    assert (X : exists f', pstep o f f').
    { assert (SF : forall (k : K) v, exists f', sets_if_free k v f f').
      { intros k v. destruct (free_dec _ f k W A) as [Fr|Fr].
        - destruct (sets_exists k (Some v) f) as (f' & HS). exists f'. split; [auto|]. intros N. contradiction.
        - exists f. split; [intros N; contradiction|reflexivity]. }
      destruct o as [|k v|veq Hv k v|k v|Q IQ q|g]; cbn [pstep]; try apply SF; try apply sets_exists.
      - exists (fun _ => None). reflexivity.
      - exists (fun p => option_map g (f p)). reflexivity. }
    destruct X as (f' & HS). exists f'. econstructor; eassumption.
  Qed.

  (** ** Sets of entries *)
  Definition contents m : @eset K V := fun e => In e m.

  Lemma built_from (k : K) : built k <-> from_interval k.
  Proof.
    unfold built, from_interval. split; intros (i & Vi & ->); exists i; (split; [|reflexivity]);
      [apply valid_rk, Vi|apply valid_rk in Vi; exact Vi].
  Qed.

  Lemma meets_none_iff {Q} {IQ : InclusiveInterval I Q} m (k : Q) : meets_none k (contents m) <-> forall k' v', In (k', v') m -> ~ overlap k' k.
  Proof.
    unfold meets_none, contents. split; intros X; [intros k' v' Hi; apply (X (k', v') Hi)|intros [k' v'] Hi; apply (X k' v' Hi)].
  Qed.

  Lemma absorbs_merges m m' (P : entry -> Prop) (k r : K) v : absorbs P k v m m' r ->
    merges P k v (contents m) (contents m').
  Proof.
    intros (Hr & (l1 & l2 & HS & ->) & He). exists r. split; [exact Hr|]. split; [exact He|].
    intros e. unfold contents. rewrite <- (sub_in _ _ _ HS e), !in_app_iff. cbn. intuition congruence.
  Qed.

  Lemma cuts_spec {OL : OrdLaws I} {Q} {IQ : InclusiveInterval I Q} m (q : Q) : WF m -> valid q ->
    cuts q (contents m) (contents (fst (cut q m))).
  Proof.
    intros W Vq. destruct (cut_full_eq m q W Vq) as (m' & out & E & _ & _ & _ & HM & _). rewrite E.
    intros k' v. cbn [fst]. unfold contents. rewrite HM.
    setoid_rewrite built_from. reflexivity.
  Qed.

  Lemma Forall2_revalues m m' (P : K -> Prop) f : (forall k v, In (k, v) m -> P k \/ ~ P k) ->
    Forall2 (fun e e' => fst e' = fst e /\ (P (fst e) -> snd e' = f (fst e) (snd e)) /\
                         (~ P (fst e) -> snd e' = snd e)) m m' ->
    revalues P f (contents m) (contents m').
  Proof.
    intros D HF k v'. unfold contents. split.
    - intros Hin. destruct (Forall2_in_r _ _ _ _ HF Hin) as ([k0 v0] & H1 & E & H2 & H3). cbn in *. subst k0.
      exists v0. auto.
    - intros (v & Hin & H2 & H3). destruct (Forall2_in_l _ _ _ _ HF Hin) as ([k1 v1] & H1 & E & H4 & H5). cbn in *. subst k1.
      destruct (D k v Hin) as [Pk|Pk].
      + rewrite (H2 Pk), <- (H4 Pk). exact H1.
      + rewrite (H3 Pk), <- (H5 Pk). exact H1.
  Qed.

  Lemma refused_or_intro {Q} {IQ : InclusiveInterval I Q} (q : Q) m m' (R : Prop) :
    (~ valid q -> m' = m) -> (valid q -> R) -> refused_or q (contents m) (contents m') R.
  Proof. intros H1 H2. split; [|exact H2]. intros N e. rewrite (H1 N). reflexivity. Qed.

  Lemma strict_intro m m' (k : K) (R : Prop) : WF m -> valid k ->
    ((exists k' v', In (k', v') m /\ overlap k' k) -> m' = m) ->
    ((forall k' v', In (k', v') m -> ~ overlap k' k) -> R) ->
    strict k (contents m) (contents m') R.
  Proof.
    intros W Vk H1 H2. split; rewrite meets_none_iff; [|exact H2]. intros N e.
    destruct (overlap_dec m k W Vk) as [Ho|Hn]; [rewrite (H1 Ho); reflexivity|contradiction].
  Qed.

  Lemma loads_spec m (l : list (option entry)) :
    loads l (contents m) (contents (match deserialize l with Val (Ok m') => m' | _ => m end)).
  Proof.
    split.
    - intros es -> HL e. destruct (loadable_ok es HL) as (m' & E & W & P).
      rewrite deserialize_all, E. unfold contents. split; apply Permutation_in; [apply Permutation_sym|]; exact P.
    - intros Hn e. destruct (deserialize l) as [[m'|e']|] eqn:E; [exfalso|reflexivity|reflexivity].
      apply deserialize_Ok in E. destruct E as (es & -> & HL & _). apply Hn. eauto.
  Qed.

  Lemma step_astep {OL : OrdLaws I} m (o : op I K V) : WF m -> astep o (contents m) (contents (step m o)).
  Proof.
    intros W. destruct o as [|k v|k v|veq k v|k v|k v|k v|Q IQ q|Q IQ q|Q IQ f q|f p|f|l|l]; cbn [astep step].
    - intros e [].
    - apply refused_or_intro; [intros N; rewrite insert_strict_invalid by exact N; reflexivity|].
      intros Vk. apply strict_intro; try assumption.
      + intros Ho. rewrite insert_strict_refused by assumption. reflexivity.
      + intros Hn. destruct (insert_strict_done m k v W Vk Hn) as (l1 & l2 & E1 & E2 & _). rewrite E2. cbn [fst].
        intros e. unfold contents. rewrite E1, !in_app_iff. cbn. intuition congruence.
    - apply refused_or_intro; [intros N; rewrite insert_merge_touching_invalid by exact N; reflexivity|].
      intros Vk. apply strict_intro; try assumption.
      + intros Ho. rewrite insert_merge_touching_refused by assumption. reflexivity.
      + intros Hn. destruct (insert_merge_touching_done m k v W Vk Hn) as (m' & r & E & _ & Ha). rewrite E.
        eapply absorbs_merges, Ha.
    - apply refused_or_intro; [intros N; rewrite insert_merge_touching_if_equal_invalid by exact N; reflexivity|].
      intros Vk. apply strict_intro; try assumption.
      + intros Ho. rewrite insert_merge_touching_if_equal_refused by assumption. reflexivity.
      + intros Hn. destruct (insert_merge_touching_if_equal_done veq m k v W Vk Hn) as (m' & r & E & _ & Ha). rewrite E.
        eapply absorbs_merges, Ha.
    - apply refused_or_intro; [intros N; rewrite insert_merge_overlapping_invalid by exact N; reflexivity|].
      intros Vk. destruct (insert_merge_overlapping_spec m k v W Vk) as (m' & r & E & _ & Ha). rewrite E.
      eapply absorbs_merges, Ha.
    - apply refused_or_intro; [intros N; rewrite insert_merge_tor_invalid by exact N; reflexivity|].
      intros Vk. destruct (insert_merge_touching_or_overlapping_spec m k v W Vk) as (m' & r & E & _ & Ha). rewrite E.
      eapply absorbs_merges, Ha.
    - apply refused_or_intro; [intros N; rewrite insert_overwrite_invalid by exact N; reflexivity|].
      intros Vk. destruct (insert_overwrite_spec m k v W Vk) as (m' & out & E & _ & _ & _ & HM & _). rewrite E.
      exists (contents (fst (cut k m))). split; [apply cuts_spec; assumption|]. exact HM.
    - apply refused_or_intro; [intros N; rewrite remove_overlapping_invalid by exact N; reflexivity|].
      intros Vq. destruct (remove_overlapping_spec m q W Vq) as (m' & out & E & _ & HS & _). rewrite E.
      intros e. apply (sub_in _ _ _ HS).
    - apply refused_or_intro; [intros N; rewrite cut_invalid by exact N; reflexivity|].
      intros Vq. apply cuts_spec; assumption.
    - apply refused_or_intro; [intros N; rewrite overlapping_mut_invalid by exact N; reflexivity|].
      intros Vq. destruct (overlapping_mut_spec f q m W Vq) as (m' & E & HF). rewrite E.
      apply Forall2_revalues; [|exact HF]. intros k v _. rewrite overlap_rk. lia.
    - destruct (get_at_point_mut_spec f p m W) as (m' & o & E & _ & HF). rewrite E.
      apply (Forall2_revalues m m' (fun k => covers k p) (fun _ => f)); [|exact HF]. intros k v _. apply covers_dec.
    - apply Forall2_revalues; [auto|]. unfold iter_mut, map_values. clear W.
      induction m as [|[k v] m IH]; cbn; constructor; [tauto|exact IH].
    - pose proof (loads_spec m (map Some l)) as HL. rewrite deserialize_all in HL.
      destruct (from_iter_strict l) as [[m'|e]|]; exact HL.
    - apply loads_spec.
  Qed.

  Lemma run_arun {OL : OrdLaws I} (os : list (op I K V)) : arun os (contents (run os)).
  Proof.
    induction os as [|o os IH] using rev_ind; [constructor; intros e []|].
    econstructor; [exact IH|]. rewrite run_snoc. apply step_astep, run_WF.
  Qed.
End Sim.

(** With [K = Interval I] the relation is a function: the history determines the
    entries. *)
Section Det.
  Context {I : Type} `{PL : PointLaws I} {OL : OrdLaws I}.
  Context {V : Type}.
  Notation K := (Interval I).
  Notation entry := (K * V)%type.
  Implicit Types (m : NoditMap K V) (E : @eset K V).

  Definition eqv E E' := forall e, E e <-> E' e.

  Lemma det_interval (a b : K) : valid a -> (forall p, covers a p <-> covers b p) -> a = b.
  Proof.
    intros Va S. assert (Vb : valid b) by (destruct Va as (p & Hp); exists p; apply S, Hp).
    apply valid_rk in Va, Vb. assert (X : same_points a b) by exact S. apply same_points_rk in X; [|assumption..].
    destruct a as [a1 a2], b as [b1 b2]. unfold lo, hi in X. cbn in X. destruct X.
    f_equal; apply rk_inj; assumption.
  Qed.

  Lemma det_merges P (k : K) v E1 E2 E1' E2' : valid k -> eqv E1 E2 ->
    merges P k v E1 E1' -> merges P k v E2 E2' -> eqv E1' E2'.
  Proof.
    intros Vk HE (r1 & R1 & _ & M1) (r2 & R2 & _ & M2) e.
    assert (r1 = r2).
    { apply det_interval.
      - destruct Vk as (p & Hp). exists p. apply R1. auto.
      - intros p. rewrite R1, R2. setoid_rewrite (fun e => HE e). reflexivity. }
    subst r2. rewrite M1, M2, (HE e). reflexivity.
  Qed.
  Lemma det_cuts {Q} {IQ : InclusiveInterval I Q} (q : Q) E1 E2 E1' E2' : eqv E1 E2 ->
    cuts q E1 E1' -> cuts q E2 E2' -> eqv E1' E2'.
  Proof.
    intros HE H1 H2 [k v]. rewrite (H1 k v), (H2 k v). setoid_rewrite (fun e => HE e). reflexivity.
  Qed.
  Lemma det_refused {Q} {IQ : InclusiveInterval I Q} (q : Q) E1 E2 E1' E2' (R1 R2 : Prop) : eqv E1 E2 ->
    (valid q -> R1 -> R2 -> eqv E1' E2') ->
    refused_or q E1 E1' R1 -> refused_or q E2 E2' R2 -> eqv E1' E2'.
  Proof.
    intros HE HR [A1 A2] [B1 B2]. destruct (valid_dec q) as [Vq|Vq]; [apply HR; auto|].
    intros e. rewrite (A1 Vq e), (B1 Vq e). apply HE.
  Qed.
  Lemma det_strict m (k : K) E1 E1' E2' (R1 R2 : Prop) : WF m -> valid k -> eqv E1 (contents m) ->
    (R1 -> R2 -> eqv E1' E2') ->
    strict k E1 E1' R1 -> strict k (contents m) E2' R2 -> eqv E1' E2'.
  Proof.
    intros W Vk HE HR [A1 A2] [B1 B2].
    assert (X : meets_none k E1 <-> meets_none k (contents m)).
    { unfold meets_none. setoid_rewrite (fun e => HE e). reflexivity. }
    destruct (overlap_dec m k W Vk) as [(k' & v' & Hi & Ho)|Hn].
    - assert (Y : ~ meets_none k (contents m)) by (rewrite meets_none_iff; intros Y; apply (Y k' v' Hi Ho)).
      assert (Z : ~ meets_none k E1) by (rewrite X; exact Y).
      intros e. rewrite (A1 Z e), (B1 Y e). apply HE.
    - assert (Y : meets_none k (contents m)) by (rewrite meets_none_iff; exact Hn).
      apply HR; [apply A2, X, Y|apply B2, Y].
  Qed.
  Lemma det_revalues P f E1 E2 E1' E2' : eqv E1 E2 -> revalues P f E1 E1' -> revalues P f E2 E2' -> eqv E1' E2'.
  Proof.
    intros HE H1 H2 [k v]. rewrite (H1 k v), (H2 k v). setoid_rewrite (fun e => HE e). reflexivity.
  Qed.
  Lemma disjoint_dec (l : list entry) : disjoint_intervals (map fst l) \/ ~ disjoint_intervals (map fst l).
  Proof.
    change (loadable l \/ ~ loadable l). rewrite <- from_iter_strict_Ok. destruct (from_iter_strict l) as [[m|e]|]; [left; eauto|right..]; intros (m & X); discriminate.
  Qed.
  Lemma det_loads l E1 E2 E1' E2' : eqv E1 E2 -> loads l E1 E1' -> loads l E2 E2' -> eqv E1' E2'.
  Proof.
    intros HE [A1 A2] [B1 B2].
    assert (D : (exists es, l = map Some es /\ disjoint_intervals (map fst es)) \/
                ~ (exists es, l = map Some es /\ disjoint_intervals (map fst es))).
    { destruct (elements_cases l) as [(es & ->)|(es & l' & ->)].
      - destruct (disjoint_dec es) as [D|D]; [left; eauto|right]. intros (es' & X & D').
        apply map_Some_inj in X. subst. contradiction.
      - right. intros (es' & X & _). symmetry in X. apply map_Some_app_inv in X. destruct X as (e & l2 & X & _). discriminate. }
    destruct D as [(es & -> & D)|D]; intros e.
    - rewrite (A1 es eq_refl D e), (B1 es eq_refl D e). reflexivity.
    - rewrite (A2 D e), (B2 D e). apply HE.
  Qed.

  Lemma astep_det m (o : op I K V) E E' E'' : WF m -> eqv E (contents m) ->
    astep o E E' -> astep o (contents m) E'' -> eqv E' E''.
  Proof.
    intros W HE. destruct o as [|k v|k v|veq k v|k v|k v|k v|Q IQ q|Q IQ q|Q IQ f q|f p|f|l|l]; cbn [astep].
    - intros H1 H2 e. split; intros X; [destruct (H1 e X)|destruct (H2 e X)].
    - apply det_refused; [exact HE|]. intros Vk. apply (det_strict m); try assumption.
      intros H1 H2 e. rewrite (H1 e), (H2 e), (HE e). reflexivity.
    - apply det_refused; [exact HE|]. intros Vk. apply (det_strict m); try assumption. apply det_merges; assumption.
    - apply det_refused; [exact HE|]. intros Vk. apply (det_strict m); try assumption. apply det_merges; assumption.
    - apply det_refused; [exact HE|]. intros Vk. apply det_merges; assumption.
    - apply det_refused; [exact HE|]. intros Vk. apply det_merges; assumption.
    - apply det_refused; [exact HE|]. intros Vk (E1 & C1 & A1) (E2 & C2 & A2) e.
      rewrite (A1 e), (A2 e), (det_cuts k _ _ _ _ HE C1 C2 e). reflexivity.
    - apply det_refused; [exact HE|]. intros Vk H1 H2 e. rewrite (H1 e), (H2 e), (HE e). reflexivity.
    - apply det_refused; [exact HE|]. intros Vk. apply det_cuts, HE.
    - apply det_refused; [exact HE|]. intros Vk. apply det_revalues, HE.
    - apply det_revalues, HE.
    - apply det_revalues, HE.
    - apply det_loads, HE.
    - apply det_loads, HE.
  Qed.

  Lemma arun_det (os : list (op I K V)) E : arun os E -> forall e, In e (run os) <-> E e.
  Proof.
    induction 1 as [E HE|os o E E' HR IH HS]; intros e.
    - split; [intros []|intros X; destruct (HE e X)].
    - rewrite run_snoc. symmetry. apply (astep_det (run os) o E E' (contents (step (run os) o))).
      + apply run_WF.
      + intros x. symmetry. apply IH.
      + exact HS.
      + apply step_astep, run_WF.
  Qed.
End Det.
