(** * PropsRebuild: putting the entries of a container into a new one, one by one (C126). *)
From Coq Require Import List ZArith Bool Lia Permutation.
From Verif Require Import Base BTree UtilsModel IntervalModel NoditModel NoditOps GqditModel GqditOps Spec InstancesModel Instances
  ListFacts PointFacts IntervalFacts NoditFacts NoditInv NoditQueries NoditMutations NoditMerges NoditMore NoditCoherence GqditFacts GqditProofs PropsGqdit.
Import ListNotations.
Open Scope nat_scope.

Section Rebuild.
  Context {I : Type} `{PL : PointLaws I}.
  Context {K : Type} {IK : InclusiveInterval I K} {IL : IntervalLaws I K}.
  Context {V : Type}.
  Context (veq : V -> V -> bool).
  Implicit Types (m : NoditMap K V) (k : K) (v : V).

  (** The six insertions of a NoditMap. *)
  Inductive how := Strict | Overwrite | MergeOverlapping | MergeTouchingIfValuesEqual | MergeTouching | MergeTouchingOrOverlapping.
  Definition insert_how (h : how) k v m : NoditMap K V :=
    match h with
    | Strict => fst (insert_strict k v m)
    | Overwrite => fst (insert_overwrite k v m)
    | MergeOverlapping => fst (insert_merge_overlapping k v m)
    | MergeTouchingIfValuesEqual => fst (insert_merge_touching_if_values_equal veq k v m)
    | MergeTouching => fst (insert_merge_touching k v m)
    | MergeTouchingOrOverlapping => fst (insert_merge_touching_or_overlapping k v m)
    end.
  (** Which neighbours the insertion would merge with. *)
  Definition unites (h : how) (k : K) (v : V) (e : K * V) : Prop :=
    match h with
    | Strict | Overwrite | MergeOverlapping => False
    | MergeTouchingIfValuesEqual => touch (fst e) k /\ veq (snd e) v = true
    | MergeTouching | MergeTouchingOrOverlapping => touch (fst e) k
    end.

  Lemma absorbs_none P k v m m' r : absorbs P k v m m' r -> (forall e, In e m -> ~ P e) -> WF m' -> forall e, In e m' <-> e = (k, v) \/ In e m.
  Proof.
    intros (_ & (l1 & l2 & S & ->) & R) N W e. specialize (R N). subst r. pose proof (sub_in _ _ _ S e) as X.
    rewrite in_app_iff in *. cbn [In]. specialize (N e). intuition.
  Qed.
  Lemma insert_how_apart h k v m : WF m -> valid k -> (forall e, In e m -> ~ overlap (fst e) k) -> (forall e, In e m -> ~ unites h k v e) ->
    WF (insert_how h k v m) /\ forall e, In e (insert_how h k v m) <-> e = (k, v) \/ In e m.
  Proof.
    intros W Vk N U. assert (N' : forall k' v', In (k', v') m -> ~ overlap k' k) by (intros k' v' Hi; apply (N (k', v') Hi)).
    destruct h; cbn [insert_how unites] in *.
    - destruct (insert_strict_done m k v W Vk N') as (l1 & l2 & -> & -> & W'). cbn [fst]. split; [exact W'|].
      intros e. rewrite !in_app_iff. cbn [In]. intuition.
    - destruct (insert_overwrite_spec m k v W Vk) as (m' & out & E & _ & W' & _ & M & _). rewrite E in *. cbn [fst]. split; [exact W'|].
      rewrite cut_nothing in M by assumption. exact M.
    - destruct (insert_merge_overlapping_spec m k v W Vk) as (m' & r & -> & W' & A). cbn [fst]. split; [exact W'|]. apply (absorbs_none _ _ _ _ _ _ A); assumption.
    - destruct (insert_merge_touching_if_equal_done veq m k v W Vk N') as (m' & r & -> & W' & A). cbn [fst]. split; [exact W'|]. apply (absorbs_none _ _ _ _ _ _ A); assumption.
    - destruct (insert_merge_touching_done m k v W Vk N') as (m' & r & -> & W' & A). cbn [fst]. split; [exact W'|]. apply (absorbs_none _ _ _ _ _ _ A); assumption.
    - destruct (insert_merge_touching_or_overlapping_spec m k v W Vk) as (m' & r & -> & W' & A). cbn [fst]. split; [exact W'|].
      apply (absorbs_none _ _ _ _ _ _ A); [|assumption]. intros e He [T|O]; [exact (U e He T)|exact (N e He O)].
  Qed.

  (** ** C126 *)
  Theorem C126_any_order_any_insertion : forall m (l : list (how * (K * V))), reachable m -> Permutation (map snd l) (iter m) ->
    (forall h k v e, In (h, (k, v)) l -> In e (iter m) -> ~ unites h k v e) ->
    fold_left (fun m' x => insert_how (fst x) (fst (snd x)) (snd (snd x)) m') l new = m.
  Proof.
    intros m l R P U. apply reachable_WF in R. unfold iter in *.
    assert (X : forall l0 (m0 : NoditMap K V), WF m0 -> (forall e, In e m0 -> In e m) -> (forall x, In x l0 -> In x l) ->
      NoDup (map snd l0) -> (forall e, In e (map snd l0) -> ~ In e m0) ->
      let m' := fold_left (fun m' x => insert_how (fst x) (fst (snd x)) (snd (snd x)) m') l0 m0 in
      WF m' /\ forall e, In e m' <-> In e m0 \/ In e (map snd l0)).
    { induction l0 as [|[h [k v]] l0 IH]; intros m0 W0 Hm Hl ND Fr; cbn [fold_left map fst snd In]; [split; [exact W0|tauto]|].
      cbn [map snd] in ND. inversion ND as [|? ? Hnot ND']; subst.
      assert (Hkv : In (k, v) m). { apply (Permutation_in _ P). apply (in_map snd l (h, (k, v))). apply Hl. left. reflexivity. }
      assert (Vk : valid k) by (apply valid_rk; pose proof (WF_okv _ _ R Hkv) as O; exact O).
      assert (N : forall e, In e m0 -> ~ overlap (fst e) k).
      { intros [k' v'] He (p & C1 & C2). assert (E : (k', v') = (k, v)) by exact (covers_unique m p k' v' k v R (Hm _ He) Hkv C1 C2).
        rewrite E in He. exact (Fr (k, v) (or_introl eq_refl) He). }
      assert (U' : forall e, In e m0 -> ~ unites h k v e).
      { intros e He. apply U; [apply Hl; left; reflexivity|apply Hm, He]. }
      destruct (insert_how_apart h k v m0 W0 Vk N U') as [W1 E1].
      destruct (IH (insert_how h k v m0) W1) as [W2 E2].
      - intros e He. apply E1 in He. destruct He as [->|He]; [exact Hkv|apply Hm, He].
      - intros x Hx. apply Hl. right. exact Hx.
      - exact ND'.
      - intros e He He'. apply E1 in He'. destruct He' as [->|He']; [exact (Hnot He)|]. apply (Fr e); [right; exact He|exact He'].
      - split; [exact W2|]. intros e. rewrite E2, E1. intuition. }
    destruct (X l new) as [W E].
    - apply WF_nil.
    - intros e [].
    - auto.
    - apply (Permutation_NoDup (Permutation_sym P)), WF_NoDup, R.
    - intros e _ [].
    - apply WF_perm_eq; [exact W|exact R|]. intros e. rewrite E. split; [intros [[]|Hi]; apply (Permutation_in _ P Hi)|].
      intros Hi. right. apply (Permutation_in _ (Permutation_sym P) Hi).
  Qed.
End Rebuild.

Section Gqdit.
  Context {I : Type} `{PL : PointLaws I} {OLI : OrdLaws I}.
  Context {K : Type} {IK : InclusiveInterval I K} {IL : IntervalLaws I K}.
  Context {D : Type} {OD : Ord D} {OL : OrdLaws D}.
  Theorem C126_gqdit : forall (g : Gqdit K D) l, greachable g -> Permutation l (iter g) ->
    grun (map (fun e => GInsert (snd e) (fst e)) l) = g.
  Proof.
    intros g l G P. apply greachable_GWF in G.
    transitivity (grun (map (fun e : K * BTreeSet D => GInsert (I := I) (snd e) (fst e)) g)).
    - pose proof (C50_permuted_inserts (map (fun e : K * BTreeSet D => (snd e : list D, fst e)) l) (map (fun e : K * BTreeSet D => (snd e : list D, fst e)) g)) as X.
      rewrite !map_map in X. cbn [fst snd] in X. apply X. apply Permutation_map. exact P.
    - apply GWF_ext; [apply grun_GWF|exact G|]. intros p d. rewrite grun_has.
      rewrite (added_inserts g d p), (has_id_iff g p d G). unfold maps_to. split.
      + intros (k & s & Hi & Hc & Hd). exists s. split; [exists k; auto|exact Hd].
      + intros (s & (k & Hi & Hc) & Hd). exists k, s. auto.
  Qed.
End Gqdit.

(** ** Instances of the hypotheses *)
Example C126_used : let m := [(1 --> 3, true); (4 --> 9, false); (11 --> 20, true)] : NoditMap (Interval u8) bool in
  fold_left (fun m' x => insert_how (I := u8) Bool.eqb (fst x) (fst (snd x)) (snd (snd x)) m')
    [(Overwrite, (4 --> 9, false)); (MergeTouching, (11 --> 20, true)); (MergeTouchingIfValuesEqual, (1 --> 3, true))] new = m /\
  fold_left (fun m' x => insert_how (I := u8) Bool.eqb (fst x) (fst (snd x)) (snd (snd x)) m')
    [(Overwrite, (4 --> 9, false)); (MergeTouching, (1 --> 3, true)); (Strict, (11 --> 20, true))] new <> m.
Proof. vm_compute. split; [reflexivity|discriminate]. Qed.
Example C126_gqdit_used : let g := grun [GInsert ['5; '2] (1 --> 5); GInsert ['7] (4 --> 9)] : Gqdit (Interval u8) u8 in
  length (iter g) = 5 /\ grun (map (fun e => GInsert (snd e) (fst e)) (rev (iter g))) = g.
Proof. vm_compute. split; reflexivity. Qed.

Print Assumptions C126_any_order_any_insertion.
Print Assumptions C126_gqdit.
