(** * PropsClientSet: the documented effects determine what NoditSet does, and all
      implementations of it that do what is documented are indistinguishable (C133). *)
From Coq Require Import List ZArith Bool Lia.
From Verif Require Import Base BTree UtilsModel IntervalModel NoditModel NoditSetModel NoditOps NoditSetOps Spec CompleteOps ClientSetOps InstancesModel Instances
  PointFacts IntervalFacts ListFacts NoditFacts NoditQueries NoditMutations NoditInv NoditMore NoditSetFacts NoditSetProofs CompleteProofs PropsNodit PropsSet PropsClient.
Import ListNotations.
Open Scope nat_scope.

Section Props.
  Context {I : Type} `{PL : PointLaws I}.
  Context {K : Type} {IK : InclusiveInterval I K} {IL : IntervalLaws I K} {FI : FromInvalid I K}.
  Context (D : determined_by_points I K).
  Implicit Types (s : NoditSet K) (l : list K).

  Definition units l : list (K * unit) := map (fun k => (k, tt)) l.
  Lemma fst_units l : map fst (units l) = l.
  Proof. unfold units. rewrite map_map. cbn. apply map_id. Qed.
  Lemma units_fst (m : list (K * unit)) : units (map fst m) = m.
  Proof. unfold units. rewrite map_map. rewrite <- (map_id m) at 2. apply map_ext. intros [k []]. reflexivity. Qed.
  Lemma units_iter s : units (set_iter s) = s.
  Proof. rewrite set_iter_fst. apply units_fst. Qed.
  Lemma units_inj l l' : units l = units l' <-> l = l'.
  Proof. split; [|congruence]. intros E. rewrite <- (fst_units l), <- (fst_units l'), E. reflexivity. Qed.
  Lemma in_units (e : K * unit) l : In e (units l) <-> In (fst e) l.
  Proof.
    unfold units. rewrite in_map_iff. split; [intros (k & <- & A); exact A|]. intros A. exists (fst e). split; [destruct e as [k []]; reflexivity|exact A].
  Qed.
  Lemma all_units (P : K * unit -> Prop) : (forall e, P e) <-> forall k, P (k, tt).
  Proof. split; [auto|]. intros A [k []]. apply A. Qed.
  Lemma ex_units (P : K * unit -> Prop) : (exists e, P e) <-> exists k, P (k, tt).
  Proof. split; [intros ([k []] & A); eauto|]. intros (k & A). eauto. Qed.
  Lemma covered_units l p : covered (units l) p <-> holds l p.
  Proof.
    unfold covered, holds. split.
    - intros (k & v & A & B). apply in_units in A. eauto.
    - intros (k & A & B). exists k, tt. rewrite in_units. auto.
  Qed.
  Lemma sub_units (P : K * unit -> Prop) l out : sub P (units l) (units out) <-> sub (fun k => P (k, tt)) l out.
  Proof.
    split.
    - revert out. induction l as [|k l IH]; intros out A; inversion A as [E1|x l1 l2 Px A' E1 E2|x l1 l2 Px A' E1 E2]; subst.
      + destruct out; [constructor|discriminate].
      + destruct out as [|k' out]; [discriminate|]. injection E2 as <- ->. constructor; auto.
      + constructor 3; auto.
    - induction 1; constructor; auto.
  Qed.
  Lemma clash_units {Q} {IQ : InclusiveInterval I Q} (q : Q) l : clash q (units l) <-> hits q l.
  Proof.
    unfold clash, hits. rewrite ex_units. split; intros (k & A & B); exists k; [apply in_units in A|rewrite in_units]; auto.
  Qed.
  Lemma rest_units {Q} {IQ : InclusiveInterval I Q} (q : Q) l g : left_over q (units l) (g, tt) <-> rest q l g.
  Proof.
    unfold left_over, rest. split; intros (k & A & B); exists k; (split; [|exact B]); [apply in_units in A|rewrite in_units]; exact A.
  Qed.
  Lemma parts_units {Q} {IQ : InclusiveInterval I Q} (q : Q) l out : cut_out q (units l) (units out) <-> parts q l out.
  Proof.
    unfold cut_out, parts. split.
    - intros (m & A & B). exists (map fst m). rewrite <- (units_fst m) in A, B. apply sub_units in A. split; [exact A|].
      clear A. revert out B. induction (map fst m) as [|k l' IH]; intros [|k' out] B; inversion B; subst; constructor.
      + apply H4.
      + apply IH. assumption.
    - intros (l' & A & B). exists (units l'). split; [apply sub_units, A|]. clear A. induction B; constructor; auto.
  Qed.
  Lemma joined_units (P : K * unit -> Prop) k l l' r : merged P k tt (units l) (units l') r <-> joined (fun j => P (j, tt)) k l l' r.
  Proof.
    unfold merged, joined. rewrite all_units.
    assert (A : forall p, (exists e, In e (units l) /\ P e /\ covers (fst e) p) <-> exists j, In j l /\ P (j, tt) /\ covers j p).
    { intros p. rewrite ex_units. split; intros (j & X & Y); exists j; (split; [|exact Y]); [apply in_units in X|apply in_units]; exact X. }
    assert (B : forall j, (In (j, tt) (units l') <-> (j, tt) = (r, tt) \/ In (j, tt) (units l) /\ ~ P (j, tt)) <->
                          (In j l' <-> j = r \/ In j l /\ ~ P (j, tt))).
    { intros j. rewrite !in_units, pair_iff. cbn. intuition congruence. }
    split; intros [X Y]; (split; [intros p; rewrite X, A; reflexivity|intros j; apply B, Y]).
  Qed.
  Lemma runs_ext {P P' : I -> Prop} (f : Interval I -> Prop) (l : list K) : (forall p, P p <-> P' p) -> lists_max_runs P f l <-> lists_max_runs P' f l.
  Proof.
    assert (X : forall P P' : I -> Prop, (forall p, P p <-> P' p) -> lists_max_runs P f l -> lists_max_runs P' f l).
    { clear. intros P P' E (A & B & C). split; [exact A|]. split.
      - intros g Hg. destruct (B g Hg) as [X Y]. split; [eapply max_run_ext; [exact E|exact X]|exact Y].
      - intros j Y Z. apply C; [|exact Z]. eapply (max_run_ext (K := Interval I)); [|exact Y]. intros p. symmetry. apply E. }
    intros E. split; apply X; [exact E|]. intros p. symmetry. apply E.
  Qed.

  Lemma modifies_units {Q} {IQ : InclusiveInterval I Q} {A B} (g : A -> B) (q : Q) l l' (o : outcome A) (right : A -> Prop) right' :
    (forall a, right' (units l') (g a) <-> right a) ->
    modifies q l l' o right <-> changes q (units l) (units l', omap g o) right'.
  Proof.
    intros E. unfold modifies, changes. rewrite !pair_iff, units_inj.
    assert (X : (Forall valid l' /\ ascending l' /\ exists a, o = Val a /\ right a) <->
      exists m' b, (units l', omap g o) = (m', Val b) /\ Forall valid (map fst m') /\ ascending (map fst m') /\ right' m' b).
    { split.
      - intros (A1 & A2 & a & -> & A3). exists (units l'), (g a). rewrite fst_units, E. auto.
      - intros (m' & b & E1 & A1 & A2 & A3). destruct o as [a|]; [|discriminate]. injection E1 as <- <-. rewrite fst_units in A1, A2.
        apply E in A3. eauto 6. }
    rewrite X. destruct o; cbn; intuition congruence.
  Qed.
  Lemma outcome_units {A B} (g : A -> B) (h : B -> A) : (forall a, h (g a) = a) -> (forall b, g (h b) = b) ->
    forall l' (o : outcome A) m (r : outcome B), (units l', omap g o) = (m, r) <-> (l', o) = (map fst m, omap h r).
  Proof.
    intros Hg Hh l' o m r. rewrite !pair_iff. split.
    - intros [<- <-]. rewrite fst_units. split; [reflexivity|]. destruct o; cbn; congruence.
    - intros [-> ->]. rewrite units_fst. split; [reflexivity|]. destruct r; cbn; congruence.
  Qed.
  Lemma pair_surj {A B} (x : A * B) : x = (fst x, snd x).
  Proof. destruct x; reflexivity. Qed.
  Lemma omap_id {A} (o : outcome A) : omap (fun a => a) o = o.
  Proof. destruct o; reflexivity. Qed.
  Lemma answers_ext {R A} {IR : InclusiveInterval I R} (q : R) (o : outcome A) (P P' : A -> Prop) :
    (forall a, P a <-> P' a) -> answers q o P <-> answers q o P'.
  Proof. intros E. unfold answers. split; intros [X Y]; (split; [|exact Y]); intros Vq; destruct (X Vq) as (a & -> & Z); exists a; split; auto; apply E, Z. Qed.


  Lemma set_perform_iff s (c : scall I K) : WF s -> forall l' a,
    set_documented c (set_iter s) l' a <-> l' = set_iter (fst (set_perform c s)) /\ a = snd (set_perform c s).
  Proof.
    intros W l' a. pose proof (units_iter s) as U. set (l := set_iter s) in *.
    assert (Hf : first = @fst K unit) by reflexivity.
    assert (Li : forall (o : outcome (list K)) (m : NoditMap K unit) r, (units l', omap units o) = (m, r) <-> l' = set_iter m /\ o = omap (map first) r).
    { intros o m r. rewrite (outcome_units units (map fst) fst_units units_fst), pair_iff, set_iter_fst. reflexivity. }
    assert (Id : forall {A} (o : outcome A) (m : NoditMap K unit) r, (units l', omap (fun a => a) o) = (m, r) <-> l' = set_iter m /\ o = r).
    { intros A o m r. rewrite (outcome_units (fun a => a) (fun a => a)) by reflexivity. rewrite pair_iff, set_iter_fst, omap_id. reflexivity. }
    destruct c as [| | | | |p|p|Q IQ q|Q IQ q|Q IQ q|Q IQ q|Q IQ q|Q IQ q|Q IQ q|k|k|k|k|k];
      cbn [set_documented set_perform sanswer fst snd] in *; fold l.
    - apply and_iff_compat_l. unfold set_len, len. rewrite <- U. unfold units. rewrite map_length. reflexivity.
    - apply and_iff_compat_l. unfold set_is_empty. assert (X : is_empty s = true <-> l = []).
      { rewrite <- U. destruct l; cbn; split; congruence. }
      rewrite <- X. destruct a, (is_empty s); intuition congruence.
    - reflexivity.
    - apply and_iff_compat_l. apply options. intros k. unfold set_first, first_key_value. rewrite <- U. destruct l as [|x r]; cbn.
      + split; [discriminate|]. intros (r & X). discriminate.
      + split; [intros X; injection X as ->; eauto|]. intros (r' & X). injection X as -> _. reflexivity.
    - apply and_iff_compat_l. apply options. intros k. unfold set_last. split.
      + intros X. destruct (last_key_value s) as [[k' []]|] eqn:E; [|discriminate]. injection X as ->. apply last_iff in E.
        destruct E as (m & E). exists (map fst m). unfold l. rewrite set_iter_fst, E, map_app. reflexivity.
      + intros (r & X). assert (E : exists m, s = m ++ [(k, tt)]) by (exists (units r); rewrite <- U, X; unfold units; apply map_app).
        apply last_iff in E. rewrite E. reflexivity.
    - apply and_iff_compat_l. unfold set_get_at_point. destruct (get_key_value_iff D s p W (get_key_value_at_point s p)) as [_ X].
      assert (Y : forall r, doc_get_key_value_at_point p s (Val r) <-> Val r = get_key_value_at_point s p) by (intros r; apply (get_key_value_iff D s p W)).
      specialize (X eq_refl). destruct X as (r & E & X). rewrite E in *. cbn [obind].
      assert (Z : forall g, max_run (fun x => ~ holds l x) g <-> max_run (fun x => ~ covered s x) g).
      { intros g. rewrite <- U. split; apply max_run_ext; intros x; rewrite covered_units; reflexivity. }
      split.
      + intros [(k & -> & A & B)|(g & -> & A & B)].
        * assert (F : Val (Ok (k, tt)) = Val r) by (apply Y; exists (Ok (k, tt)); split; [reflexivity|]; cbn; rewrite <- U, in_units; auto).
          injection F as <-. reflexivity.
        * assert (F : Val (Err g) = Val r) by (apply Y; exists (Err g); split; [reflexivity|]; split; [exact A|apply Z, B]).
          injection F as <-. reflexivity.
      + intros ->. destruct r as [[k []]|g]; cbn in X.
        * left. exists k. split; [reflexivity|]. rewrite <- U, in_units in X. exact X.
        * right. exists g. split; [reflexivity|]. split; [apply X|apply Z, X].
    - apply and_iff_compat_l. rewrite <- (contains_point_iff s p W). unfold doc_contains_point. rewrite <- U.
      split; intros (b & A & B); exists b; (split; [exact A|]); rewrite B, covered_units; reflexivity.
    - apply and_iff_compat_l. unfold set_overlapping. transitivity (omap units a = overlapping s q).
      + rewrite <- (overlapping_iff s q W). unfold doc_overlapping, answers. rewrite <- U. split; intros [X Y]; split.
        * intros Vq. destruct (X Vq) as (b & -> & Z). exists (units b). split; [reflexivity|apply sub_units, Z].
        * intros Nq. rewrite (Y Nq). reflexivity.
        * intros Vq. destruct (X Vq) as (b & E & Z). destruct a as [a|]; [|discriminate]. injection E as <-. apply sub_units in Z. eauto.
        * intros Nq. specialize (Y Nq). destruct a; [discriminate|reflexivity].
      + split; [intros <-|intros ->].
        * destruct a as [a|]; cbn; [|reflexivity]. f_equal. symmetry. apply fst_units.
        * destruct (overlapping s q) as [m|]; cbn; [|reflexivity]. f_equal. apply units_fst.
    - apply and_iff_compat_l. unfold set_overlaps. rewrite <- (overlaps_iff s q W). apply answers_ext. intros b. rewrite <- U, clash_units. reflexivity.
    - apply and_iff_compat_l. unfold set_contains_interval. rewrite <- (contains_interval_iff s q W). apply answers_ext. intros b. rewrite <- U.
      split; intros X; rewrite X; split; intros Y p Hp; apply covered_units, Y, Hp.
    - apply and_iff_compat_l. unfold set_gaps_untrimmed. rewrite <- (gaps_untrimmed_iff D s q W). apply answers_ext. intros b. rewrite <- U.
      apply runs_ext. intros p. rewrite covered_units. reflexivity.
    - apply and_iff_compat_l. unfold set_gaps_trimmed. rewrite <- (gaps_trimmed_iff D s q W). apply answers_ext. intros b. rewrite <- U.
      apply runs_ext. intros p. rewrite covered_units. reflexivity.
    - unfold set_remove_overlapping. rewrite (modifies_units units q l l' a _ (fun m' out =>
        sub (fun e => overlap (fst e) q) (units l) out /\ (forall e, In e m' <-> In e (units l) /\ ~ overlap (fst e) q))).
      + rewrite U. pose proof (remove_overlapping_iff s q W (units l', omap units a)) as X. unfold doc_remove_overlapping in X. rewrite X.
        destruct (remove_overlapping q s) as [m r]. cbn [fst snd]. apply Li.
      + intros out. rewrite sub_units, all_units. split; intros [X Y]; (split; [exact X|]); intros j; specialize (Y j); rewrite !in_units in *; exact Y.
    - unfold set_cut. rewrite (modifies_units units q l l' a _ (fun m' out => cut_out q (units l) out /\ forall e, In e m' <-> left_over q (units l) e)).
      + rewrite U. pose proof (cut_iff D s q W (units l', omap units a)) as X. unfold doc_cut in X. rewrite X.
        destruct (cut q s) as [m r]. cbn [fst snd]. apply Li.
      + intros out. rewrite parts_units, all_units. split; intros [X Y]; (split; [exact X|]); intros j; specialize (Y j); rewrite in_units, rest_units in *; exact Y.
    - unfold set_insert_strict. rewrite (modifies_units (fun a => a) k l l' a _ (fun m' a =>
        (clash k (units l) /\ a = Err tt /\ m' = units l) \/ (~ clash k (units l) /\ a = Ok tt /\ forall e, In e m' <-> e = (k, tt) \/ In e (units l)))).
      + rewrite U. pose proof (insert_strict_iff s k tt W (units l', omap (fun a => a) a)) as X. unfold doc_insert_strict in X. rewrite X.
        destruct (insert_strict k tt s) as [m r]. cbn [fst snd]. apply Id.
      + intros b. rewrite clash_units, units_inj, all_units.
        assert (X : (forall j, In (j, tt) (units l') <-> (j, tt) = (k, tt) \/ In (j, tt) (units l)) <-> (forall j, In j l' <-> j = k \/ In j l)).
        { split; intros Y j; specialize (Y j); rewrite !in_units, pair_iff in *; cbn in *; intuition congruence. }
        rewrite X. reflexivity.
    - unfold set_insert_overwrite. rewrite (modifies_units units k l l' a _ (fun m' out => cut_out k (units l) out /\ forall e, In e m' <-> e = (k, tt) \/ left_over k (units l) e)).
      + rewrite U. pose proof (insert_overwrite_iff D s k tt W (units l', omap units a)) as X. unfold doc_insert_overwrite in X. rewrite X.
        destruct (insert_overwrite k tt s) as [m r]. cbn [fst snd]. apply Li.
      + intros out. rewrite parts_units, all_units.
        assert (P : forall j, (j, tt) = (k, tt) <-> j = k) by (intros j; rewrite pair_iff; intuition congruence).
        split; intros [X Y]; (split; [exact X|]); intros j; specialize (Y j); rewrite in_units, rest_units, P in *; exact Y.
    - unfold set_insert_merge_touching. rewrite (modifies_units (fun a => a) k l l' a _ (fun m' o =>
        (clash k (units l) /\ o = Err tt /\ m' = units l) \/
        (~ clash k (units l) /\ exists r, o = Ok r /\ merged (fun e => touch (fst e) k) k tt (units l) m' r))).
      + rewrite U. pose proof (insert_merge_touching_iff D s k tt W (units l', omap (fun a => a) a)) as X. unfold doc_insert_merge_touching in X. rewrite X.
        destruct (insert_merge_touching k tt s) as [m r]. cbn [fst snd]. apply Id.
      + intros o. rewrite clash_units, units_inj.
        assert (X : (exists r, o = Ok r /\ merged (fun e => touch (fst e) k) k tt (units l) (units l') r) <->
                    (exists r, o = Ok r /\ joined (fun j => touch j k) k l l' r)).
        { split; intros (r & A & B); exists r; (split; [exact A|]); apply joined_units in B || apply joined_units; exact B. }
        rewrite X. reflexivity.
    - unfold set_insert_merge_overlapping. rewrite (modifies_units (fun a => a) k l l' a _ (fun m' r => merged (fun e => overlap (fst e) k) k tt (units l) m' r)).
      + rewrite U. pose proof (insert_merge_overlapping_iff D s k tt W (units l', omap (fun a => a) a)) as X. unfold doc_insert_merge_overlapping in X. rewrite X.
        destruct (insert_merge_overlapping k tt s) as [m r]. cbn [fst snd]. apply Id.
      + intros r. apply joined_units.
    - unfold set_insert_merge_touching_or_overlapping. rewrite (modifies_units (fun a => a) k l l' a _ (fun m' r => merged (fun e => touch (fst e) k \/ overlap (fst e) k) k tt (units l) m' r)).
      + rewrite U. pose proof (insert_merge_tor_iff D s k tt W (units l', omap (fun a => a) a)) as X. unfold doc_insert_merge_touching_or_overlapping in X. rewrite X.
        destruct (insert_merge_touching_or_overlapping k tt s) as [m r]. cbn [fst snd]. apply Id.
      + intros r. apply joined_units.
  Qed.
End Props.

Section Clients.
  Context {I : Type} `{PL : PointLaws I}.
  Context {K : Type} {IK : InclusiveInterval I K} {IL : IntervalLaws I K} {FI : FromInvalid I K}.
  Implicit Types (s : NoditSet K).

  Lemma set_perform_reachable s (c : scall I K) : set_reachable s -> set_reachable (fst (set_perform c s)).
  Proof.
    assert (X : forall o : set_op I K, set_reachable s -> set_reachable (set_step s o)).
    { intros o (os & ->). exists (os ++ [o]). unfold set_run. rewrite fold_left_app. reflexivity. }
    intros Rs.
    destruct c as [| | | | |p|p|Q IQ q|Q IQ q|Q IQ q|Q IQ q|Q IQ q|Q IQ q|Q IQ q|k|k|k|k|k]; cbn [set_perform]; try exact Rs.
    - exact (X (SRemoveOverlapping q) Rs).
    - exact (X (SCut q) Rs).
    - exact (X (SInsertStrict k) Rs).
    - exact (X (SInsertOverwrite k) Rs).
    - exact (X (SInsertMergeTouching k) Rs).
    - exact (X (SInsertMergeOverlapping k) Rs).
    - exact (X (SInsertMergeTouchingOrOverlapping k) Rs).
  Qed.
  Lemma set_occurs_reachable s : set_occurs (noditset : set_implementation (I := I) (K := K)) s -> set_reachable s.
  Proof. induction 1 as [|s c _ IH]; [exists []; reflexivity|apply set_perform_reachable, IH]. Qed.

  (** ** C133 *)
  (** The documented effects leave each method of NoditSet only one thing to do, which is what
      it does. *)
  Theorem C133_effects_determine_the_methods : determined_by_points I K ->
    forall s (c : scall I K), set_reachable s -> forall l' a,
    set_documented c (set_iter s) l' a <-> l' = set_iter (fst (set_perform c s)) /\ a = snd (set_perform c s).
  Proof. intros D s c Rs. apply set_perform_iff; [exact D|apply set_reachable_WF, Rs]. Qed.
  Lemma set_execute_same (i : set_implementation (I := I) (K := K)) intervals : determined_by_points I K -> set_as_documented i intervals ->
    forall R (p : set_client R) x s, set_occurs i x -> set_reachable s -> intervals x = set_iter s -> set_execute i x p = set_execute noditset s p.
  Proof.
    intros D [_ Doc] R p. induction p as [r|c next IH]; intros x s Ox Rs E; cbn [set_execute]; [reflexivity|].
    specialize (Doc x c Ox). pose proof (set_occurs_after i x c Ox) as Ox'. pose proof (set_perform_reachable s c Rs) as Rs'.
    change (set_does noditset c s) with (set_perform c s). destruct (set_does i c x) as [x' a]. cbn [fst snd] in *.
    rewrite E in Doc. apply (C133_effects_determine_the_methods D s c Rs) in Doc. destruct Doc as [E1 E2].
    destruct (set_perform c s) as [s' a']. cbn [fst snd] in *. subst a'. apply IH; auto.
  Qed.
  (** No program can tell two implementations of NoditSet apart that both do what is documented, ... *)
  Theorem C133_indistinguishable : determined_by_points I K ->
    forall (i j : set_implementation (I := I) (K := K)) ei ej, set_as_documented i ei -> set_as_documented j ej ->
    forall R (p : set_client R), set_execute i (set_start i) p = set_execute j (set_start j) p.
  Proof.
    intros D i j ei ej Hi Hj R p. assert (R0 : set_reachable (I := I) (set_new : NoditSet K)) by (exists []; reflexivity).
    rewrite (set_execute_same i ei D Hi R p (set_start i) set_new (set_occurs_start i) R0 (proj1 Hi)).
    rewrite (set_execute_same j ej D Hj R p (set_start j) set_new (set_occurs_start j) R0 (proj1 Hj)). reflexivity.
  Qed.
  (** ... the modelled NoditSet being one of them. *)
  Theorem C133_noditset_as_documented : determined_by_points I K ->
    set_as_documented (noditset : set_implementation (I := I) (K := K)) set_iter.
  Proof.
    intros D. split; [reflexivity|]. intros s c Os. apply (C133_effects_determine_the_methods D s c (set_occurs_reachable s Os)). auto.
  Qed.
  (** Conversely an implementation that programs cannot tell from the modelled NoditSet does
      what is documented, its states being read as what [iter] yields. *)
  Theorem C133_indistinguishable_only_if_documented : determined_by_points I K ->
    forall (i : set_implementation (I := I) (K := K)),
    (forall R (p : set_client R), set_execute i (set_start i) p = set_execute noditset (set_start noditset) p) ->
    set_as_documented i (fun x => snd (set_does i SCallIter x)).
  Proof.
    intros D i X.
    assert (Y : forall x, set_occurs i x -> exists s, set_reachable s /\ forall R (p : set_client R), set_execute i x p = set_execute noditset s p).
    { induction 1 as [|x c Ox (s & Rs & IH)].
      - exists set_new. split; [exists []; reflexivity|exact X].
      - exists (fst (set_perform c s)). split; [apply set_perform_reachable, Rs|]. intros R p.
        specialize (IH R (SMake R c (fun _ => p))). cbn [set_execute] in IH. change (set_does noditset c s) with (set_perform c s) in IH.
        destruct (set_does i c x), (set_perform c s). exact IH. }
    assert (Z : forall x s, (forall R (p : set_client R), set_execute i x p = set_execute noditset s p) ->
      snd (set_does i SCallIter x) = set_iter s).
    { intros x s E. specialize (E _ (SMake _ SCallIter (fun a => SStop _ a))). cbn [set_execute] in E.
      change (set_does noditset SCallIter s) with (s, set_iter s) in E. destruct (set_does i SCallIter x). exact E. }
    split.
    - apply (Z _ set_new). exact X.
    - intros x c Ox. destruct (Y x Ox) as (s & Rs & E). rewrite (Z x s E).
      apply (C133_effects_determine_the_methods D s c Rs). split.
      + apply Z. intros R p. specialize (E R (SMake R c (fun _ => p))). cbn [set_execute] in E. change (set_does noditset c s) with (set_perform c s) in E.
        destruct (set_does i c x), (set_perform c s). exact E.
      + specialize (E _ (SMake _ c (fun a => SStop _ a))). cbn [set_execute] in E. change (set_does noditset c s) with (set_perform c s) in E.
        destruct (set_does i c x), (set_perform c s). exact E.
  Qed.
End Clients.

(** The hypotheses are met, non-trivially: an implementation that keeps its intervals in
    descending order does what is documented, so that the theorem equates it with [noditset]. *)
Definition set_descending : set_implementation (I := u8) (K := Interval u8) :=
  {| set_state := list (Interval u8); set_start := [];
     set_does := fun c x => let (s', a) := set_perform c (units (rev x)) in (rev (set_iter s'), a) |}.
Lemma set_descending_documented : set_as_documented set_descending (fun x => rev x).
Proof.
  split; [reflexivity|].
  assert (X : forall x : set_state set_descending, set_occurs set_descending x -> set_reachable (I := u8) (units (rev x))).
  { induction 1 as [|x c _ IH]; [exists []; reflexivity|]. cbn [set_does set_descending]. pose proof (set_perform_reachable (units (rev x)) c IH) as Y.
    destruct (set_perform c (units (rev x))) as [s' a]. cbn [fst] in *. rewrite rev_involutive, units_iter. exact Y. }
  intros x c Ox. pose proof (C133_effects_determine_the_methods interval_determined (units (rev x)) c (X x Ox)) as Y. cbn [set_does set_descending].
  destruct (set_perform c (units (rev x))) as [s' a]. cbn [fst snd] in *. rewrite rev_involutive. rewrite set_iter_fst, fst_units in Y. apply Y. auto.
Qed.
(** A program whose calls depend on earlier answers. *)
Definition ex_set_client : set_client (I := u8) (K := Interval u8) (list (Interval u8) * list (Interval u8)) :=
  SMake _ (SCallInsertStrict (1 --> 9 : Interval u8)) (fun _ =>
  SMake _ (SCallCut (4 --> 5 : Interval u8)) (fun _ =>
  SMake _ (SCallInsertMergeTouching (12 --> 20 : Interval u8)) (fun _ =>
  SMake _ (SCallGetAtPoint '10) (fun o =>
    match o with
    | Val (Err g) =>
        SMake _ (SCallInsertMergeTouchingOrOverlapping g) (fun _ =>
        SMake _ (SCallGapsTrimmed (0 --> 30 : Interval u8)) (fun gaps =>
        SMake _ SCallIter (fun l => SStop _ (l, match gaps with Val x => x | Panic => [] end))))
    | _ => SStop _ ([], [])
    end)))).
Example C133_ex : determined_by_points u8 (Interval u8) /\
  set_as_documented set_descending (fun x => rev x) /\
  set_execute set_descending (set_start set_descending) ex_set_client = set_execute noditset (set_start noditset) ex_set_client /\
  set_execute noditset (set_start noditset) ex_set_client =
    ([(1 --> 3 : Interval u8); (6 --> 20 : Interval u8)], [(0 --> 0 : Interval u8); (4 --> 5 : Interval u8); (21 --> 30 : Interval u8)]).
Proof.
  split; [exact interval_determined|]. split; [exact set_descending_documented|]. split.
  - exact (C133_indistinguishable interval_determined set_descending noditset _ _ set_descending_documented (C133_noditset_as_documented interval_determined) _ ex_set_client).
  - vm_compute. reflexivity.
Qed.

Print Assumptions C133_effects_determine_the_methods.
Print Assumptions C133_indistinguishable.
Print Assumptions C133_noditset_as_documented.
Print Assumptions C133_indistinguishable_only_if_documented.
