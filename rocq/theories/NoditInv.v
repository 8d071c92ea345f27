(** * NoditInv: the reachable maps are exactly the sorted, disjoint, valid ones;
      panics, bulk construction and serde. *)
From Coq Require Import List ZArith Bool Lia ZifyBool Sorting.Sorted Permutation.
From Verif Require Import Base BTree UtilsModel IntervalModel NoditModel NoditOps Spec PointFacts IntervalFacts ListFacts NoditFacts NoditQueries NoditGaps NoditMutations NoditMerges.
Import ListNotations.
Open Scope Z_scope.

Section Inv.
  Context {I : Type} `{PL : PointLaws I}.
  Context {K : Type} {IK : InclusiveInterval I K} {IL : IntervalLaws I K}.
  Context {V : Type}.
  Notation entry := (K * V)%type.
  Implicit Types (m A B M : NoditMap K V).

  (** ** Panics leave the map alone *)
  Section Invalid.
    Context (k : K) (v : V) (m : NoditMap K V) (Nk : ~ valid k).
    Lemma insert_strict_invalid : insert_strict k v m = (m, Panic).
    Proof. unfold insert_strict. rewrite (iip_invalid _ Nk). reflexivity. Qed.
    Lemma insert_merge_touching_invalid : insert_merge_touching k v m = (m, Panic).
    Proof. unfold insert_merge_touching. rewrite (iip_invalid _ Nk). reflexivity. Qed.
    Lemma insert_merge_touching_if_equal_invalid veq :
      insert_merge_touching_if_values_equal veq k v m = (m, Panic).
    Proof. unfold insert_merge_touching_if_values_equal. rewrite (iip_invalid _ Nk). reflexivity. Qed.
    Lemma insert_merge_overlapping_invalid : insert_merge_overlapping k v m = (m, Panic).
    Proof. unfold insert_merge_overlapping. rewrite (iip_invalid _ Nk). reflexivity. Qed.
    Lemma insert_merge_tor_invalid : insert_merge_touching_or_overlapping k v m = (m, Panic).
    Proof. unfold insert_merge_touching_or_overlapping. rewrite (iip_invalid _ Nk). reflexivity. Qed.
    Lemma insert_overwrite_invalid : insert_overwrite k v m = (m, Panic).
    Proof. unfold insert_overwrite. rewrite (iip_invalid _ Nk). reflexivity. Qed.
  End Invalid.
  Section InvalidQ.
    Context {Q : Type} {IQ : InclusiveInterval I Q} (q : Q) (m : NoditMap K V) (Nq : ~ valid q).
    Lemma remove_overlapping_invalid : remove_overlapping q m = (m, Panic).
    Proof. unfold remove_overlapping. rewrite (iip_invalid _ Nq). reflexivity. Qed.
    Lemma cut_invalid : cut q m = (m, Panic).
    Proof. unfold cut. rewrite (iip_invalid _ Nq). reflexivity. Qed.
    Lemma overlapping_mut_invalid f : overlapping_mut f q m = (m, Panic).
    Proof. unfold overlapping_mut. rewrite (iip_invalid _ Nq). reflexivity. Qed.
    Lemma overlapping_invalid : overlapping m q = Panic.
    Proof. unfold overlapping. rewrite (iip_invalid _ Nq). reflexivity. Qed.
    Lemma map_overlaps_invalid : map_overlaps m q = Panic.
    Proof. unfold map_overlaps. rewrite (iip_invalid _ Nq). reflexivity. Qed.
    Lemma gaps_untrimmed_invalid : gaps_untrimmed m q = Panic.
    Proof. unfold gaps_untrimmed. rewrite (iip_invalid _ Nq). reflexivity. Qed.
    Lemma gaps_trimmed_invalid : gaps_trimmed m q = Panic.
    Proof. unfold gaps_trimmed. rewrite (iip_invalid _ Nq). reflexivity. Qed.
    Lemma map_contains_interval_invalid : map_contains_interval m q = Panic.
    Proof. unfold map_contains_interval. rewrite (iip_invalid _ Nq). reflexivity. Qed.
  End InvalidQ.

  (** ** Mutable access *)
  Lemma map_values_WF f m : WF m -> WF (map_values f m).
  Proof.
    unfold map_values. induction m as [|[k v] m IH]; intros W; [exact W|].
    cbn. apply WF_cons in W. destruct W as (Vk & W & Hk). apply WF_cons. split; [exact Vk|]. split; [apply IH, W|].
    rewrite Forall_map. eapply Forall_impl; [|exact Hk]. intros [k' v'] Hk'. exact Hk'.
  Qed.
  Lemma same_keys_WF m m' : map fst m = map fst m' -> WF m -> WF m'.
  Proof. rewrite <- !ascending_WF. intros ->. auto. Qed.
  Lemma map_values_keys (f : K -> V -> V) m : map fst (map_values f m) = map fst m.
  Proof. unfold map_values. rewrite map_map. apply map_ext. intros [k v]. reflexivity. Qed.

  Section MutQ.
    Context {Q : Type} {IQ : InclusiveInterval I Q}.
    (** Which entries [overlapping_mut] changes, entry by entry. *)
    Lemma overlapping_mut_spec f (q : Q) m : WF m -> valid q ->
      exists m', overlapping_mut f q m = (m', Val tt) /\
        Forall2 (fun e e' => fst e' = fst e /\
                   (overlap (fst e) q -> snd e' = f (fst e) (snd e)) /\
                   (~ overlap (fst e) q -> snd e' = snd e)) m m'.
    Proof.
      intros W Vq. destruct (split_overlap m q W Vq) as (A & M & B & -> & HA & HM & HB & HS & HK).
      exists (A ++ map_values f M ++ B). split; [apply overlapping_mut_split; assumption|].
      assert (NAB : forall e, In e (A ++ B) -> ~ overlap (fst e) q) by (intros e He; apply (sub_in _ _ _ HK), He).
      assert (YM : forall e, In e M -> overlap (fst e) q) by (intros e He; apply (sub_in _ _ _ HS), He).
      apply Forall2_app; [|apply Forall2_app].
      - clear - NAB. induction A as [|a A IH]; constructor.
        + split; [reflexivity|]. split; [|reflexivity]. intros Ho. exfalso. apply (NAB a); [left; reflexivity|exact Ho].
        + apply IH. intros e He. apply NAB. right. exact He.
      - clear - YM. induction M as [|[k v] M IH]; constructor.
        + split; [reflexivity|]. split; [reflexivity|]. intros Ho. exfalso. apply Ho, YM. left. reflexivity.
        + apply IH. intros e He. apply YM. right. exact He.
      - clear - NAB. induction B as [|a B IH]; constructor.
        + split; [reflexivity|]. split; [|reflexivity]. intros Ho. exfalso.
          apply (NAB a); [apply in_app_iff; right; left; reflexivity|exact Ho].
        + apply IH. intros e He. apply NAB. apply in_app_iff in He. rewrite in_app_iff. cbn. tauto.
    Qed.
  End MutQ.

  Lemma Forall2_fst_keys (P : entry -> entry -> Prop) m m' :
    (forall e e', P e e' -> fst e' = fst e) -> Forall2 P m m' -> map fst m = map fst m'.
  Proof. intros HP. induction 1 as [|e e' m m' He HF IH]; [reflexivity|]. cbn. rewrite IH, (HP _ _ He). reflexivity. Qed.

  Lemma get_at_point_mut_spec f p m : WF m ->
    exists m' o, get_at_point_mut f p m = (m', o) /\
      (forall v, o = Some v <-> maps_to m p v) /\
      Forall2 (fun e e' => fst e' = fst e /\
                 (covers (fst e) p -> snd e' = f (snd e)) /\
                 (~ covers (fst e) p -> snd e' = snd e)) m m'.
  Proof.
    intros W. destruct (split_point m p W) as (A & o & B & -> & HA & Ho & HB).
    do 2 eexists. split; [apply get_at_point_mut_split; assumption|]. split.
    - intros v. destruct o as [[k w]|]; cbn [option_map snd opt_list].
      + inversion Ho as [|? ? Hk _]; subst. unfold meets, elo, ehi in Hk. cbn in Hk.
        assert (Hm : maps_to (A ++ [(k, w)] ++ B) p w).
        { exists k. rewrite covers_rk, !in_app_iff. cbn. split; [auto|lia]. }
        split; [intros E; injection E as <-; exact Hm|].
        intros Hv. f_equal. apply (maps_to_fun _ p _ _ W Hm Hv).
      + split; [discriminate|]. intros Hv. exfalso. apply maps_to_covered in Hv. cbn [app] in Hv.
        apply covered_app in Hv. destruct Hv as [Hv|Hv]; revert Hv.
        * apply (not_covered_left _ _ (rk p)); [lia|exact HA].
        * apply (not_covered_right _ _ (rk p)); [lia|exact HB].
    - apply Forall2_app; [|apply Forall2_app].
      + clear - HA PL. induction HA as [|a A Ha HA IH]; constructor; [|exact IH].
        split; [reflexivity|]. split; [|reflexivity]. intros Hc. exfalso. apply covers_rk in Hc.
        unfold left_of, ehi in Ha. lia.
      + destruct o as [[k w]|]; [|constructor]. constructor; [|constructor].
        inversion Ho as [|? ? Hk _]; subst. unfold meets, elo, ehi in Hk. cbn in Hk.
        split; [reflexivity|]. split; [reflexivity|]. intros Hn. exfalso. apply Hn, covers_rk. cbn. lia.
      + clear - HB PL. induction HB as [|a B Ha HB IH]; constructor; [|exact IH].
        split; [reflexivity|]. split; [|reflexivity]. intros Hc. exfalso. apply covers_rk in Hc.
        unfold right_of, elo in Ha. lia.
  Qed.

  (** ** Bulk construction *)
  (** The listed entry [(k, v)] clashes with an entry of [m] or with an earlier
      listed one. *)
  Definition clashes m (l1 : list entry) (k : K) : Prop :=
    exists k' v', (In (k', v') m \/ In (k', v') l1) /\ overlap k' k.

  Lemma extend_strict_spec l m : WF m -> Forall valid (map fst l) ->
    (exists m', extend_strict l m = Val (Ok m') /\ WF m' /\ Permutation (m ++ l) m' /\
       (forall l1 k v l2, l = l1 ++ (k, v) :: l2 -> ~ clashes m l1 k)) \/
    (exists l1 k v l2, l = l1 ++ (k, v) :: l2 /\ clashes m l1 k /\
       (forall l1' k' v' l2', l1 = l1' ++ (k', v') :: l2' -> ~ clashes m l1' k') /\
       extend_strict l m = Val (Err v)).
  Proof.
    revert m. induction l as [|[k v] l IH]; intros m W HV.
    - left. exists m. split; [reflexivity|]. split; [exact W|]. split; [rewrite app_nil_r; reflexivity|].
      intros l1 k v l2 E. destruct l1; discriminate.
    - inversion HV as [|? ? Vk HV']; subst. cbn [fst] in Vk. cbn [extend_strict].
      destruct (overlap_dec m k W Vk) as [Ho|Hn].
      + right. exists [], k, v, l. rewrite (insert_strict_refused m k v W Vk Ho).
        split; [reflexivity|]. split.
        * destruct Ho as (k' & v' & H1 & H2). exists k', v'. auto.
        * split; [|reflexivity]. intros l1' k' v' l2' E. destruct l1'; discriminate.
      + destruct (insert_strict_done m k v W Vk Hn) as (m1 & m2 & E & -> & W').
        assert (HP : Permutation (m ++ (k, v) :: l) ((m1 ++ (k, v) :: m2) ++ l)).
        { rewrite E, <- !app_assoc. apply Permutation_app_head. cbn. symmetry. apply Permutation_middle. }
        assert (HC : forall l1 k', clashes (m1 ++ (k, v) :: m2) l1 k' <-> clashes m ((k, v) :: l1) k').
        { intros l1 k'. unfold clashes. split.
          - intros (k2 & v2 & Hin & Ho). exists k2, v2. split; [|exact Ho]. rewrite E.
            rewrite !in_app_iff in *. cbn in *. tauto.
          - intros (k2 & v2 & Hin & Ho). exists k2, v2. split; [|exact Ho]. rewrite E in Hin.
            rewrite !in_app_iff in *. cbn in *. tauto. }
        destruct (IH _ W' HV') as [(m' & E' & Wm' & Pm' & Hc)|(l1 & k' & v' & l2 & El & Hc & Hf & E')].
        * left. exists m'. split; [exact E'|]. split; [exact Wm'|]. split; [rewrite HP; exact Pm'|].
          intros l1 k' v' l2 El. destruct l1 as [|[k0 v0] l1]; cbn in El.
          -- injection El as <- <- <-. intros (k2 & v2 & [Hin|[]] & Ho). apply (Hn k2 v2 Hin Ho).
          -- injection El as <- <- El. rewrite <- HC. apply (Hc l1 k' v' l2 El).
        * right. exists ((k, v) :: l1), k', v', l2. split; [rewrite El; reflexivity|].
          split; [apply HC, Hc|]. split; [|exact E'].
          intros l1' k2 v2 l2' El'. destruct l1' as [|[k0 v0] l1']; cbn in El'.
          -- injection El' as <- <- <-. intros (k3 & v3 & [Hin|[]] & Ho). apply (Hn k3 v3 Hin Ho).
          -- injection El' as <- <- El'. rewrite <- HC. apply (Hf l1' k2 v2 l2' El').
  Qed.

  Lemma extend_strict_WF l m m' : WF m -> extend_strict l m = Val (Ok m') -> WF m'.
  Proof.
    revert m. induction l as [|[k v] l IH]; intros m W; cbn [extend_strict].
    - intros E. injection E as <-. exact W.
    - destruct (valid_dec k) as [Vk|Nk].
      + destruct (overlap_dec m k W Vk) as [Ho|Hn].
        * rewrite (insert_strict_refused m k v W Vk Ho). discriminate.
        * destruct (insert_strict_done m k v W Vk Hn) as (m1 & m2 & E & -> & W'). apply IH, W'.
      + rewrite (insert_strict_invalid k v m Nk). discriminate.
  Qed.

  Lemma visit_seq_WF l m m' : WF m -> visit_seq l m = Val (Ok m') -> WF m'.
  Proof.
    revert m. induction l as [|[[k v]|] l IH]; intros m W; cbn [visit_seq].
    - intros E. injection E as <-. exact W.
    - destruct (valid_dec k) as [Vk|Nk].
      + destruct (overlap_dec m k W Vk) as [Ho|Hn].
        * rewrite (insert_strict_refused m k v W Vk Ho). discriminate.
        * destruct (insert_strict_done m k v W Vk Hn) as (m1 & m2 & E & -> & W'). apply IH, W'.
      + rewrite (insert_strict_invalid k v m Nk). discriminate.
    - discriminate.
  Qed.

  (** ** Every operation preserves [WF] *)
  Lemma plain_step_WF m (o : op I K V) : converts_nothing o -> WF m -> WF (step m o).
  Proof.
    intros Po W.
    destruct o as [|k v|k v|veq k v|k v|k v|k v|Q IQ q|Q IQ q|Q IQ f q|f p|f|l|l]; cbn [step]; try contradiction Po.
    - apply WF_nil.
    - destruct (valid_dec k) as [Vk|Nk]; [|rewrite insert_strict_invalid by exact Nk; exact W].
      destruct (overlap_dec m k W Vk) as [Ho|Hn].
      + rewrite (insert_strict_refused m k v W Vk Ho). exact W.
      + destruct (insert_strict_done m k v W Vk Hn) as (m1 & m2 & E & -> & W'). exact W'.
    - destruct (valid_dec q) as [Vq|Nq]; [|rewrite remove_overlapping_invalid by exact Nq; exact W].
      destruct (remove_overlapping_spec m q W Vq) as (kept & rem & -> & _ & _ & W'). exact W'.
    - destruct (valid_dec q) as [Vq|Nq]; [|rewrite overlapping_mut_invalid by exact Nq; exact W].
      destruct (overlapping_mut_spec f q m W Vq) as (m' & -> & HF).
      apply (same_keys_WF m); [|exact W]. eapply Forall2_fst_keys; [|exact HF]. cbn. tauto.
    - destruct (get_at_point_mut_spec f p m W) as (m' & o & -> & _ & HF).
      apply (same_keys_WF m); [|exact W]. eapply Forall2_fst_keys; [|exact HF]. cbn. tauto.
    - apply map_values_WF, W.
    - destruct (from_iter_strict l) as [[m'|e]|] eqn:E; [|exact W|exact W].
      apply (extend_strict_WF l [] m' WF_nil E).
    - destruct (deserialize l) as [[m'|e]|] eqn:E; [|exact W|exact W].
      apply (visit_seq_WF l [] m' WF_nil E).
  Qed.
  Lemma plain_run_WF (ops : list (op I K V)) : Forall converts_nothing ops -> WF (run ops).
  Proof.
    unfold run. assert (W0 : WF (@new K V)) by apply WF_nil. revert W0. generalize (@new K V).
    induction ops as [|o ops IH]; intros m W F; [exact W|]. inversion F; subst. cbn. apply IH; [apply plain_step_WF; assumption|assumption].
  Qed.
  Lemma step_WF m (o : op I K V) : WF m -> WF (step m o).
  Proof.
    intros W.
    destruct o as [|k v|k v|veq k v|k v|k v|k v|Q IQ q|Q IQ q|Q IQ f q|f p|f|l|l]; cbn [step].
    - apply WF_nil.
    - destruct (valid_dec k) as [Vk|Nk]; [|rewrite insert_strict_invalid by exact Nk; exact W].
      destruct (overlap_dec m k W Vk) as [Ho|Hn].
      + rewrite (insert_strict_refused m k v W Vk Ho). exact W.
      + destruct (insert_strict_done m k v W Vk Hn) as (m1 & m2 & E & -> & W'). exact W'.
    - destruct (valid_dec k) as [Vk|Nk]; [|rewrite insert_merge_touching_invalid by exact Nk; exact W].
      destruct (overlap_dec m k W Vk) as [Ho|Hn].
      + rewrite (insert_merge_touching_refused m k v W Vk Ho). exact W.
      + destruct (insert_merge_touching_done m k v W Vk Hn) as (m' & r & -> & W' & _). exact W'.
    - destruct (valid_dec k) as [Vk|Nk]; [|rewrite insert_merge_touching_if_equal_invalid by exact Nk; exact W].
      destruct (overlap_dec m k W Vk) as [Ho|Hn].
      + rewrite (insert_merge_touching_if_equal_refused veq m k v W Vk Ho). exact W.
      + destruct (insert_merge_touching_if_equal_done veq m k v W Vk Hn) as (m' & r & -> & W' & _). exact W'.
    - destruct (valid_dec k) as [Vk|Nk]; [|rewrite insert_merge_overlapping_invalid by exact Nk; exact W].
      destruct (insert_merge_overlapping_spec m k v W Vk) as (m' & r & -> & W' & _). exact W'.
    - destruct (valid_dec k) as [Vk|Nk]; [|rewrite insert_merge_tor_invalid by exact Nk; exact W].
      destruct (insert_merge_touching_or_overlapping_spec m k v W Vk) as (m' & r & -> & W' & _). exact W'.
    - destruct (valid_dec k) as [Vk|Nk]; [|rewrite insert_overwrite_invalid by exact Nk; exact W].
      destruct (insert_overwrite_facts m k v W Vk) as (l1 & l2 & out & _ & -> & W'). exact W'.
    - destruct (valid_dec q) as [Vq|Nq]; [|rewrite remove_overlapping_invalid by exact Nq; exact W].
      destruct (remove_overlapping_spec m q W Vq) as (kept & rem & -> & _ & _ & W'). exact W'.
    - destruct (valid_dec q) as [Vq|Nq]; [|rewrite cut_invalid by exact Nq; exact W].
      destruct (cut_entries m q W Vq) as (m' & out & -> & W' & _). exact W'.
    - destruct (valid_dec q) as [Vq|Nq]; [|rewrite overlapping_mut_invalid by exact Nq; exact W].
      destruct (overlapping_mut_spec f q m W Vq) as (m' & -> & HF).
      apply (same_keys_WF m); [|exact W]. eapply Forall2_fst_keys; [|exact HF]. cbn. tauto.
    - destruct (get_at_point_mut_spec f p m W) as (m' & o & -> & _ & HF).
      apply (same_keys_WF m); [|exact W]. eapply Forall2_fst_keys; [|exact HF]. cbn. tauto.
    - apply map_values_WF, W.
    - destruct (from_iter_strict l) as [[m'|e]|] eqn:E; [|exact W|exact W].
      apply (extend_strict_WF l [] m' WF_nil E).
    - destruct (deserialize l) as [[m'|e]|] eqn:E; [|exact W|exact W].
      apply (visit_seq_WF l [] m' WF_nil E).
  Qed.

  Lemma fold_step_WF (ops : list (op I K V)) m : WF m -> WF (fold_left step ops m).
  Proof. revert m. induction ops as [|o ops IH]; intros m W; [exact W|]. cbn. apply IH, step_WF, W. Qed.
  Lemma run_WF (ops : list (op I K V)) : WF (run ops).
  Proof. apply fold_step_WF, WF_nil. Qed.
  Lemma reachable_WF m : reachable m -> WF m.
  Proof. intros [ops ->]. apply run_WF. Qed.

  (** Inserting the entries of a [WF] map from left to right rebuilds it. *)
  Lemma insert_strict_snoc m k v : WF (m ++ [(k, v)]) -> insert_strict k v m = (m ++ [(k, v)], Val (Ok tt)).
  Proof.
    intros W. apply WF_app in W. destruct W as (W & Wk & HW). apply WF_one in Wk.
    assert (Hl : Forall (left_of (lo k)) m).
    { rewrite Forall_forall. intros x Hx. apply (HW x (k, v) Hx). left. reflexivity. }
    pose proof (insert_strict_split k v m [] []) as E. cbn [app] in E. rewrite app_nil_r in E.
    rewrite E; try assumption; try constructor. apply valid_rk, Wk.
  Qed.
  Lemma extend_strict_rebuild l m : WF (m ++ l) -> extend_strict l m = Val (Ok (m ++ l)).
  Proof.
    revert m. induction l as [|[k v] l IH]; intros m W; cbn [extend_strict].
    - rewrite app_nil_r. reflexivity.
    - assert (E : m ++ (k, v) :: l = (m ++ [(k, v)]) ++ l) by (rewrite <- app_assoc; reflexivity).
      rewrite E in W |- *. rewrite insert_strict_snoc; [apply IH, W|]. apply WF_app in W. apply W.
  Qed.
  Lemma visit_seq_rebuild l m : WF (m ++ l) -> visit_seq (map Some l) m = Val (Ok (m ++ l)).
  Proof.
    revert m. induction l as [|[k v] l IH]; intros m W; cbn [visit_seq map].
    - rewrite app_nil_r. reflexivity.
    - assert (E : m ++ (k, v) :: l = (m ++ [(k, v)]) ++ l) by (rewrite <- app_assoc; reflexivity).
      rewrite E in W |- *. rewrite insert_strict_snoc; [apply IH, W|]. apply WF_app in W. apply W.
  Qed.
  Lemma WF_reachable m : WF m -> reachable m.
  Proof.
    intros W. exists [OpFromIterStrict m]. cbn. unfold from_iter_strict.
    pose proof (extend_strict_rebuild m [] W) as E. cbn [app] in E. unfold new. rewrite E. reflexivity.
  Qed.

  (** Two [WF] maps with the same entries are equal. *)
  Lemma WF_perm_eq m m' : WF m -> WF m' -> (forall e, In e m <-> In e m') -> m = m'.
  Proof.
    revert m'. induction m as [|a m IH]; intros m' W W' HE.
    - destruct m' as [|b m']; [reflexivity|]. destruct (proj2 (HE b)). left. reflexivity.
    - destruct m' as [|b m']; [destruct (proj1 (HE a)); left; reflexivity|].
      apply WF_cons in W. destruct W as (Va & W & Ha). apply WF_cons in W'. destruct W' as (Vb & W' & Hb).
      rewrite Forall_forall in Ha, Hb.
      assert (a = b).
      { destruct (proj1 (HE a) (or_introl eq_refl)) as [E|Hin]; [auto|].
        destruct (proj2 (HE b) (or_introl eq_refl)) as [E|Hin']; [auto|]. exfalso.
        specialize (Hb a Hin). specialize (Ha b Hin'). lia. }
      subst b. f_equal. apply IH; try assumption. intros e. split; intros He.
      + destruct (proj1 (HE e) (or_intror He)) as [E|Hin]; [|exact Hin]. subst e. specialize (Ha a He). lia.
      + destruct (proj2 (HE e) (or_intror He)) as [E|Hin]; [|exact Hin]. subst e. specialize (Hb a He). lia.
  Qed.
End Inv.
