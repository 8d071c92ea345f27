(** * CompleteProofs: the documented effects determine the methods (C127). *)
From Coq Require Import List ZArith Bool Lia ZifyBool Sorting.Sorted Permutation.
From Verif Require Import Base BTree UtilsModel IntervalModel NoditModel NoditOps Spec CompleteOps
  PointFacts IntervalFacts ListFacts NoditFacts NoditQueries NoditGaps NoditMutations NoditMerges NoditInv NoditMore GqditAlgebra.
From Verif Require PropsNodit.
Import ListNotations.
Open Scope Z_scope.

Section Complete.
  Context {I : Type} `{PL : PointLaws I}.
  Context {K : Type} {IK : InclusiveInterval I K} {IL : IntervalLaws I K} {FI : FromInvalid I K}.
  Context {Q : Type} {IQ : InclusiveInterval I Q}.
  Context {V : Type}.
  Context (D : determined_by_points I K).
  Implicit Types (m : NoditMap K V) (k r : K) (q : Q) (v : V) (p : I).

  Lemma answers_iff {R A} {IR : InclusiveInterval I R} (q : R) (o : outcome A) (right : A -> Prop) :
    answers q o right -> (forall a a', right a -> right a' -> a = a') -> forall o', answers q o' right <-> o' = o.
  Proof.
    intros [Y N] U o'. split; [|intros ->; split; auto]. intros [Y' N'].
    destruct (valid_dec q) as [Vq|Nq].
    - destruct (Y Vq) as (a & -> & R1), (Y' Vq) as (a' & -> & R2). f_equal. apply U; auto.
    - rewrite (N Nq), (N' Nq). reflexivity.
  Qed.
  Lemma changes_iff {R A} {IR : InclusiveInterval I R} (q : R) m (o : list (K * V) * outcome A) (right : list (K * V) -> A -> Prop) :
    changes q m o right ->
    (forall m1 a1 m2 a2, WF m1 -> WF m2 -> right m1 a1 -> right m2 a2 -> m1 = m2 /\ a1 = a2) ->
    forall o', changes q m o' right <-> o' = o.
  Proof.
    intros [Y N] U o'. split; [|intros ->; split; auto]. intros [Y' N'].
    destruct (valid_dec q) as [Vq|Nq].
    - destruct (Y Vq) as (m1 & a1 & -> & F1 & A1 & R1), (Y' Vq) as (m2 & a2 & -> & F2 & A2 & R2).
      destruct (U m1 a1 m2 a2) as [-> ->]; auto; apply ascending_WF; auto.
    - rewrite (N Nq), (N' Nq). reflexivity.
  Qed.
  Lemma bools (b b' : bool) (P : Prop) : (b = true <-> P) -> (b' = true <-> P) -> b = b'.
  Proof. intros A B. destruct b, b'; intuition congruence. Qed.
  Lemma same_entries (m1 m2 : NoditMap K V) (P : K * V -> Prop) : WF m1 -> WF m2 ->
    (forall e, In e m1 <-> P e) -> (forall e, In e m2 <-> P e) -> m1 = m2.
  Proof. intros W1 W2 H1 H2. apply WF_perm_eq; auto. intros e. rewrite H1, H2. reflexivity. Qed.
  Lemma lists_same (P : I -> Prop) sel (l l' : list K) : lists_max_runs P sel l -> lists_max_runs P sel l' -> l = l'.
  Proof.
    intros L L'. assert (F := lists_unique P P sel l l' (fun p => conj (fun x => x) (fun x => x)) L L').
    destruct L as (_ & L & _). clear L'. revert l' F. induction l as [|a l IH]; intros l' F; inversion F as [|? b ? l2 Sab F2]; subst; [reflexivity|].
    f_equal; [|apply IH; [intros g Hg; apply L; right; exact Hg|exact F2]].
    apply D; [apply (L a (or_introl eq_refl))|exact Sab].
  Qed.
  Lemma run_determined (P : I -> Prop) (a b : K) : max_run P a -> max_run P b -> overlap a b -> a = b.
  Proof.
    intros (Va & Pa & Ma) (Vb & Pb & Mb) O. apply D; [exact Va|]. intros p. split; intros C.
    - apply (Mb (mkInterval (istart a) (iend a))); [exact Pa| |exact C].
      destruct O as (x & X1 & X2). exists x. auto.
    - apply (Ma (mkInterval (istart b) (iend b))); [exact Pb|exact O|exact C].
  Qed.
  Lemma covered_nonempty_same (P : I -> Prop) (a b : K) : valid a -> (forall p, covers a p <-> P p) -> (forall p, covers b p <-> P p) -> a = b.
  Proof. intros Va A B. apply D; [exact Va|]. intros p. rewrite A, B. reflexivity. Qed.

  Lemma get_at_point_iff m p : WF m -> forall o, doc_get_at_point p m o <-> o = get_at_point m p.
  Proof.
    intros W o. assert (E : exists a, get_at_point m p = Val a /\ forall v, a = Some v <-> maps_to m p v).
    { destruct (get_at_point m p) as [a|] eqn:E.
      - exists a. split; [reflexivity|]. intros v. change (maps_to m p v) with (exists k, In (k, v) m /\ covers k p).
        rewrite <- (get_at_point_Some m p v W), E. split; congruence.
      - exfalso. apply (proj1 (PropsNodit.C18_point_methods_never_panic m p (WF_reachable m W))). exact E. }
    destruct E as (a & E & Ha). rewrite E. split; [|intros ->; exists a; auto].
    intros (a' & -> & Ha'). f_equal. destruct a as [v|].
    - apply Ha', Ha. reflexivity.
    - destruct a' as [v|]; [|reflexivity]. symmetry. apply Ha, Ha'. reflexivity.
  Qed.
  Lemma contains_point_iff m p : WF m -> forall o, doc_contains_point p m o <-> o = map_contains_point m p.
  Proof.
    intros W o. destruct (map_contains_point_spec m p W) as (b & E & Hb). rewrite E. split; [|intros ->; exists b; auto].
    intros (b' & -> & Hb'). f_equal. eapply bools; [exact Hb'|exact Hb].
  Qed.
  Lemma get_key_value_iff m p : WF m -> forall o, doc_get_key_value_at_point p m o <-> o = get_key_value_at_point m p.
  Proof.
    intros W o. destruct (covered_dec m p W) as [(k & v & Hk)|Hn].
    - rewrite (proj2 (get_key_value_at_point_Ok m p W k v) Hk). split.
      + intros ([[k' v']|g] & -> & Hx).
        * do 2 f_equal. symmetry. eapply covers_unique; [exact W|apply Hk|apply Hx|apply Hk|apply Hx].
        * exfalso. destruct Hx as (C & _ & X & _). apply (X p C). exists k, v. exact Hk.
      + intros ->. exists (Ok (k, v)). auto.
    - destruct (get_key_value_at_point_Err m p W Hn) as (g & E & C & M). rewrite E. split.
      + intros ([[k' v']|g'] & -> & Hx).
        * exfalso. apply Hn. exists k', v'. exact Hx.
        * do 2 f_equal. eapply run_determined; [apply Hx|exact M|]. exists p. split; [apply Hx|exact C].
      + intros ->. exists (Err g). auto.
  Qed.

  Lemma overlapping_iff m q : WF m -> forall o, doc_overlapping q m o <-> o = overlapping m q.
  Proof.
    intros W. apply answers_iff.
    - split; [apply overlapping_spec, W|]. intros N. apply overlapping_invalid, N.
    - intros a a'. apply sub_unique.
  Qed.
  Lemma clash_iff m q : clash q m <-> exists k v, In (k, v) m /\ overlap k q.
  Proof. split; [intros ([k v] & A & B); eauto|intros (k & v & A & B); exists (k, v); auto]. Qed.
  Lemma overlaps_iff m q : WF m -> forall o, doc_overlaps q m o <-> o = map_overlaps m q.
  Proof.
    intros W. apply answers_iff.
    - split; [|intros N; apply map_overlaps_invalid, N]. intros Vq.
      destruct (map_overlaps_spec m q W Vq) as (b & E & Hb). exists b. split; [exact E|]. rewrite Hb, clash_iff. reflexivity.
    - intros a a'. apply bools.
  Qed.
  Lemma contains_interval_iff m q : WF m -> forall o, doc_contains_interval q m o <-> o = map_contains_interval m q.
  Proof.
    intros W. apply answers_iff.
    - split; [|intros N; apply map_contains_interval_invalid, N]. intros Vq.
      apply map_contains_interval_spec; [exact W|exact Vq|apply quiet_at_FI].
    - intros a a'. apply bools.
  Qed.
  Lemma gaps_untrimmed_iff m q : WF m -> forall o, doc_gaps_untrimmed q m o <-> o = gaps_untrimmed m q.
  Proof.
    intros W. apply answers_iff.
    - split; [|intros N; apply gaps_untrimmed_invalid, N]. intros Vq.
      apply gaps_untrimmed_spec; [exact W|exact Vq|apply quiet_at_FI].
    - intros a a'. apply lists_same.
  Qed.
  Lemma gaps_trimmed_iff m q : WF m -> forall o, doc_gaps_trimmed q m o <-> o = gaps_trimmed m q.
  Proof.
    intros W. apply answers_iff.
    - split; [|intros N; apply gaps_trimmed_invalid, N]. intros Vq.
      apply gaps_trimmed_spec; [exact W|exact Vq|apply quiet_at_FI].
    - intros a a'. apply lists_same.
  Qed.

  Lemma wf_doc (m : NoditMap K V) : WF m -> Forall valid (map fst m) /\ ascending (map fst m).
  Proof. intros W. apply ascending_WF in W. split; apply W. Qed.

  Lemma remove_overlapping_iff m q : WF m -> forall o, doc_remove_overlapping q m o <-> o = remove_overlapping q m.
  Proof.
    intros W. apply changes_iff.
    - split; [|intros N; apply remove_overlapping_invalid, N]. intros Vq.
      destruct (remove_overlapping_spec m q W Vq) as (m' & out & E & S1 & S2 & W').
      exists m', out. split; [exact E|]. destruct (wf_doc m' W') as [X Y]. split; [exact X|]. split; [exact Y|]. split; [exact S1|exact (sub_in _ _ _ S2)].
    - intros m1 a1 m2 a2 W1 W2 [A1 B1] [A2 B2]. split; [exact (same_entries m1 m2 _ W1 W2 B1 B2)|exact (sub_unique _ _ _ _ A1 A2)].
  Qed.

  Lemma cut_out_unique {R} {IR : InclusiveInterval I R} (q : R) m a1 a2 : cut_out q m a1 -> cut_out q m a2 -> a1 = a2.
  Proof.
    intros (l1 & S1 & F1) (l2 & S2 & F2). pose proof (sub_unique _ _ _ _ S1 S2) as <-.
    assert (O : forall e, In e l1 -> overlap (fst e) q) by (intros e He; apply (sub_in _ _ _ S1); exact He).
    clear S1 S2. revert a2 F2. induction F1 as [|e i l a1 [E1 C1] F1 IH]; intros a2 F2; inversion F2 as [|? j ? a2' [E2 C2] F2']; subst; [reflexivity|].
    f_equal; [|apply IH; [intros x Hx; apply O; right; exact Hx|exact F2']].
    destruct i as [i vi], j as [j vj]. cbn in *. f_equal; [|congruence].
    eapply covered_nonempty_same; [|exact C1|exact C2]. destruct (O e (or_introl eq_refl)) as (p & P1 & P2). exists p. apply C1. auto.
  Qed.
  Lemma cut_doc {R} {IR : InclusiveInterval I R} m (q : R) : WF m -> valid q -> exists m' out, cut q m = (m', Val out) /\ WF m' /\
    cut_out q m out /\ forall e, In e m' <-> left_over q m e.
  Proof.
    intros W Vq. destruct (cut_entries m q W Vq) as (m' & out & E & W' & Ho & H2 & H3 & _).
    exists m', out. split; [exact E|]. split; [exact W'|]. split; [exact Ho|]. intros [k' v]. split.
    - intros Hi. destruct (H2 k' v Hi) as (k & Hk & _ & M). exists k. auto.
    - intros (k & Hk & M). cbn [fst snd] in *. destruct (H3 k v Hk) as [_ X].
      destruct (X (mkInterval (istart k') (iend k')) M) as (k2 & Hi & S2).
      replace k' with k2; [exact Hi|]. symmetry. apply D; [apply M|]. intros p. symmetry. exact (S2 p).
  Qed.
  Lemma cut_iff m q : WF m -> forall o, doc_cut q m o <-> o = cut q m.
  Proof.
    intros W. apply changes_iff.
    - split; [|intros N; apply cut_invalid, N]. intros Vq.
      destruct (cut_doc m q W Vq) as (m' & out & E & W' & X). exists m', out. split; [exact E|]. destruct (wf_doc m' W'). auto.
    - intros m1 a1 m2 a2 W1 W2 [A1 B1] [A2 B2]. split; [exact (same_entries m1 m2 _ W1 W2 B1 B2)|exact (cut_out_unique _ _ _ _ A1 A2)].
  Qed.
  Lemma insert_overwrite_iff m k v : WF m -> forall o, doc_insert_overwrite k v m o <-> o = insert_overwrite k v m.
  Proof.
    intros W. apply changes_iff.
    - split; [|intros N; apply insert_overwrite_invalid, N]. intros Vk.
      destruct (insert_overwrite_spec m k v W Vk) as (m' & out & E & E' & W' & _ & H1 & _).
      destruct (cut_doc m k W Vk) as (m2 & out2 & E2 & _ & Co & L). rewrite E2 in E', H1. cbn [fst snd] in E', H1. injection E' as ->.
      exists m', out. split; [exact E|]. destruct (wf_doc m' W'). repeat split; auto; intros X.
      + apply H1 in X. rewrite <- L. exact X.
      + apply H1. rewrite <- L in X. exact X.
    - intros m1 a1 m2 a2 W1 W2 [A1 B1] [A2 B2]. split; [exact (same_entries m1 m2 _ W1 W2 B1 B2)|exact (cut_out_unique _ _ _ _ A1 A2)].
  Qed.
  Lemma clash_dec {R} {IR : InclusiveInterval I R} (q : R) m : clash q m \/ ~ clash q m.
  Proof.
    induction m as [|e m IH]; [right; intros (x & [] & _)|].
    destruct IH as [(x & Hx & O)|N]; [left; exists x; split; [right; exact Hx|exact O]|].
    assert (X : overlap (fst e) q \/ ~ overlap (fst e) q).
    { destruct (Z_le_gt_dec (Z.max (lo (fst e)) (lo q)) (Z.min (hi (fst e)) (hi q))).
      - left. apply overlap_rk. lia.
      - right. rewrite overlap_rk. lia. }
    destruct X as [X|X]; [left; exists e; split; [left; reflexivity|exact X]|].
    right. intros (x & [<-|Hx] & O); [exact (X O)|apply N; exists x; auto].
  Qed.
  Lemma insert_strict_iff m k v : WF m -> forall o, doc_insert_strict k v m o <-> o = insert_strict k v m.
  Proof.
    intros W. apply changes_iff.
    - split; [|intros N; apply insert_strict_invalid, N]. intros Vk. destruct (clash_dec k m) as [C|C].
      + exists m, (Err v). destruct (wf_doc m W). split; [|auto 6]. apply insert_strict_refused; [exact W|exact Vk|].
        destruct C as ([k' v'] & A & B). exists k', v'. auto.
      + destruct (insert_strict_done m k v W Vk) as (l1 & l2 & E1 & E2 & W').
        { intros k' v' Hi O. apply C. exists (k', v'). auto. }
        eexists _, _. split; [exact E2|]. destruct (wf_doc _ W'). split; [assumption|]. split; [assumption|]. right. split; [exact C|]. split; [reflexivity|].
        intros e. rewrite E1, !in_app_iff. cbn. intuition.
    - intros m1 a1 m2 a2 W1 W2 [(C1 & -> & ->)|(C1 & -> & B1)] [(C2 & -> & ->)|(C2 & -> & B2)]; try tauto.
      split; [|reflexivity]. exact (same_entries m1 m2 _ W1 W2 B1 B2).
  Qed.

  Lemma merged_unique (P : K * V -> Prop) k v m m1 m2 r1 r2 : valid k -> WF m1 -> WF m2 ->
    merged P k v m m1 r1 -> merged P k v m m2 r2 -> m1 = m2 /\ r1 = r2.
  Proof.
    intros Vk W1 W2 [A1 B1] [A2 B2].
    assert (r1 = r2) as ->.
    { eapply covered_nonempty_same; [|exact A1|exact A2]. destruct Vk as (p & Hp). exists p. apply A1. auto. }
    split; [|reflexivity]. exact (same_entries m1 m2 _ W1 W2 B1 B2).
  Qed.
  Lemma absorbs_merged (P : K * V -> Prop) k v m m' r : absorbs P k v m m' r -> merged P k v m m' r.
  Proof.
    intros (A & (l1 & l2 & S & ->) & _). split; [exact A|]. intros e. rewrite <- (sub_in _ _ _ S e), !in_app_iff. cbn. intuition.
  Qed.
  (** The refusing methods. *)
  Lemma merging_iff (P : K * V -> Prop) m k v (o : list (K * V) * outcome (result K V)) : WF m ->
    (~ valid k -> o = (m, Panic)) ->
    (valid k -> (exists k' v', In (k', v') m /\ overlap k' k) -> o = (m, Val (Err v))) ->
    (valid k -> (forall k' v', In (k', v') m -> ~ overlap k' k) -> exists m' r, o = (m', Val (Ok r)) /\ WF m' /\ absorbs P k v m m' r) ->
    forall o', changes k m o' (fun m' a => (clash k m /\ a = Err v /\ m' = m) \/ (~ clash k m /\ exists r, a = Ok r /\ merged P k v m m' r)) <-> o' = o.
  Proof.
    intros W Hp Hr Hd o'. split.
    - intros [Y N]. destruct (valid_dec k) as [Vk|Nk]; [|rewrite (N Nk), (Hp Nk); reflexivity].
      destruct (Y Vk) as (m1 & a1 & -> & F1 & A1 & R1).
      destruct R1 as [(C & -> & ->)|(C & r & -> & M)].
      + symmetry. apply Hr; [exact Vk|]. destruct C as ([k' v'] & A & B). exists k', v'. auto.
      + destruct Hd as (m2 & r2 & -> & W2 & Ab); [exact Vk|intros k' v' Hi O; apply C; exists (k', v'); auto|].
        apply absorbs_merged in Ab. destruct (merged_unique P k v m m1 m2 r r2 Vk) as [-> ->]; auto. apply ascending_WF. auto.
    - intros ->. split; [intros Vk|exact Hp]. destruct (clash_dec k m) as [C|C].
      + exists m, (Err v). destruct (wf_doc m W). split; [|auto 6]. apply Hr; [exact Vk|].
        destruct C as ([k' v'] & A & B). exists k', v'. auto.
      + destruct Hd as (m2 & r2 & -> & W2 & Ab); [exact Vk|intros k' v' Hi O; apply C; exists (k', v'); auto|].
        eexists _, _. split; [reflexivity|]. destruct (wf_doc _ W2). split; [assumption|]. split; [assumption|]. right. split; [exact C|].
        exists r2. split; [reflexivity|]. apply absorbs_merged, Ab.
  Qed.
  Lemma insert_merge_touching_iff m k v : WF m -> forall o, doc_insert_merge_touching k v m o <-> o = insert_merge_touching k v m.
  Proof.
    intros W. apply merging_iff; [exact W|intros N; apply insert_merge_touching_invalid, N|apply insert_merge_touching_refused, W|].
    intros Vk. apply insert_merge_touching_done; auto.
  Qed.
  Lemma insert_merge_touching_if_equal_iff veq m k v : WF m -> forall o,
    doc_insert_merge_touching_if_values_equal veq k v m o <-> o = insert_merge_touching_if_values_equal veq k v m.
  Proof.
    intros W. apply merging_iff; [exact W|intros N; apply insert_merge_touching_if_equal_invalid, N|apply insert_merge_touching_if_equal_refused, W|].
    intros Vk. apply insert_merge_touching_if_equal_done; auto.
  Qed.
  (** The absorbing methods. *)
  Lemma absorbing_iff (P : K * V -> Prop) m k v (o : list (K * V) * outcome K) : WF m ->
    (~ valid k -> o = (m, Panic)) ->
    (valid k -> exists m' r, o = (m', Val r) /\ WF m' /\ absorbs P k v m m' r) ->
    forall o', changes k m o' (fun m' r => merged P k v m m' r) <-> o' = o.
  Proof.
    intros W Hp Hd o'. split.
    - intros [Y N]. destruct (valid_dec k) as [Vk|Nk]; [|rewrite (N Nk), (Hp Nk); reflexivity].
      destruct (Y Vk) as (m1 & a1 & -> & F1 & A1 & M). destruct (Hd Vk) as (m2 & r2 & -> & W2 & Ab).
      apply absorbs_merged in Ab. destruct (merged_unique P k v m m1 m2 a1 r2 Vk) as [-> ->]; auto. apply ascending_WF. auto.
    - intros ->. split; [intros Vk|exact Hp]. destruct (Hd Vk) as (m2 & r2 & -> & W2 & Ab).
      eexists _, _. split; [reflexivity|]. destruct (wf_doc _ W2). split; [assumption|]. split; [assumption|]. apply absorbs_merged, Ab.
  Qed.
  Lemma insert_merge_overlapping_iff m k v : WF m -> forall o, doc_insert_merge_overlapping k v m o <-> o = insert_merge_overlapping k v m.
  Proof.
    intros W. apply absorbing_iff; [exact W|intros N; apply insert_merge_overlapping_invalid, N|].
    intros Vk. apply insert_merge_overlapping_spec; auto.
  Qed.
  Lemma insert_merge_tor_iff m k v : WF m -> forall o,
    doc_insert_merge_touching_or_overlapping k v m o <-> o = insert_merge_touching_or_overlapping k v m.
  Proof.
    intros W. apply absorbing_iff; [exact W|intros N; apply insert_merge_tor_invalid, N|].
    intros Vk. apply insert_merge_touching_or_overlapping_spec; auto.
  Qed.

  Lemma from_iter_strict_iff (l : list (K * V)) : forall o, doc_from_iter_strict l o <-> o = from_iter_strict l.
  Proof.
    assert (X : forall (l1 : list (K * V)) k, clash k l1 <-> exists k', In k' (map fst l1) /\ overlap k' k).
    { intros l1 k. split.
      - intros (e & A & B). exists (fst e). split; [apply in_map, A|exact B].
      - intros (k' & A & B). apply in_map_iff in A. destruct A as (e & <- & A). exists e. auto. }
    assert (flip : forall o : outcome (result (NoditMap K V) V), o = from_iter_strict l <-> from_iter_strict l = o) by (intros; split; congruence).
    intros [[m|v]|]; cbn.
    - split.
      + intros (Dj & Pm & As). destruct (proj2 (from_iter_strict_Ok l) Dj) as (m' & E). rewrite E.
        destruct (from_iter_strict_entries l m' E) as [W P]. do 2 f_equal. apply WF_perm_eq; [|exact W|].
        * apply ascending_WF. split; [exact As|]. destruct Dj as [Vl _]. rewrite Forall_forall in *.
          intros k Hk. apply Vl. revert Hk. apply Permutation_in, Permutation_map, Permutation_sym, Pm.
        * intros e. split; apply Permutation_in; [eapply perm_trans; [apply Permutation_sym|]|eapply perm_trans; [apply Permutation_sym|]]; eauto.
      + intros E. symmetry in E. split; [apply from_iter_strict_Ok; eauto|]. apply (PropsNodit.C19_result_holds_exactly_the_entries l m E).
    - rewrite (flip (Val (Err v))), (from_iter_strict_Err l v). split; intros (l1 & k & l2 & E & Dj & Vk & C); exists l1, k, l2; (split; [exact E|]; split; [exact Dj|]; split; [exact Vk|]; apply X, C).
    - rewrite (flip Panic), (from_iter_strict_Panic l). reflexivity.
  Qed.
End Complete.

Lemma interval_determined {I : Type} `{PL : PointLaws I} {OL : OrdLaws I} : determined_by_points I (Interval I).
Proof.
  intros a b Va S.
  assert (Vb : valid b) by (destruct Va as (p & Hp); exists p; apply S, Hp).
  apply same_points_rk in S; [|apply valid_rk, Va|apply valid_rk, Vb]. destruct S as [A B].
  apply rk_inj in A, B. destruct a, b. cbn in *. congruence.
Qed.

From Verif Require Import GqditModel GqditOps GqditFacts GqditProofs GqditGaps GqditIds.
Section CompleteGqdit.
  Context {I : Type} `{PL : PointLaws I} {OLI : OrdLaws I}.
  Context {K : Type} {IK : InclusiveInterval I K} {IL : IntervalLaws I K} {FI : FromInvalid I K}.
  Context {D : Type} {OD : Ord D} {OL : OrdLaws D}.
  Context {Q : Type} {IQ : InclusiveInterval I Q}.
  Implicit Types (g : Gqdit K D) (k : K) (q : Q) (p : I) (d : D) (ids : list D).

  Lemma proper_GWF g : proper g <-> GWF g.
  Proof.
    split.
    - intros [Dg As]. destruct (describes_GWF g Dg) as (g' & _ & G' & Pm).
      replace g with g'; [exact G'|]. apply WF_perm_eq; [apply G'| |].
      + apply ascending_WF. split; [exact As|apply Dg].
      + intros e. split; apply Permutation_in; [apply Permutation_sym, Pm|exact Pm].
    - intros G. split; [apply GWF_describes, G|]. apply (proj1 (proj2 (ascending_WF _) (proj1 (proj1 G)))).
  Qed.
  Lemma changes_ids_iff {R} {IR : InclusiveInterval I R} (q : R) g (o : Gqdit K D * outcome unit) (after : I -> D -> Prop) :
    (~ valid q -> o = (g, Panic)) ->
    (valid q -> exists g', o = (g', Val tt) /\ GWF g' /\ forall p d, has_id g' p d <-> after p d) ->
    forall o', changes_ids q g tt o' after <-> o' = o.
  Proof.
    intros Hp Hd o'. split.
    - intros [Y N]. destruct (valid_dec q) as [V|V]; [|rewrite (N V), (Hp V); reflexivity].
      destruct (Y V) as (g1 & -> & P1 & M1), (Hd V) as (g2 & -> & G2 & M2). apply proper_GWF in P1. f_equal.
      apply GWF_ext; [exact P1|exact G2|]. intros p d. rewrite (has_id_iff g1 p d P1), M2. exact (M1 p d).
    - intros ->. split; [intros V|exact Hp]. destruct (Hd V) as (g2 & -> & G2 & M2). exists g2. split; [reflexivity|].
      split; [apply proper_GWF, G2|]. intros p d. rewrite <- M2. symmetry. exact (has_id_iff g2 p d G2).
  Qed.
  Lemma identifiers_iff g p : GWF g -> forall o, doc_identifiers_at_point p g o <-> o = identifiers_at_point g p.
  Proof.
    intros G o. destruct (ids_maps g p G) as (s & E & M & Ss). rewrite E.
    assert (X : forall d, In d s <-> sits g p d).
    { intros d. rewrite <- (has_id_in g p s d G M). exact (has_id_iff g p d G). }
    split; [|intros ->; exists s; auto]. intros (s' & -> & Ss' & X'). f_equal. apply set_ext; [exact Ss'|exact Ss|].
    intros d. rewrite X, X'. reflexivity.
  Qed.
  Lemma gqdit_insert_iff ids k g : GWF g -> forall o, doc_gqdit_insert ids k g o <-> o = gqdit_insert (collect ids) k g.
  Proof.
    intros G. apply changes_ids_iff; [intros V; apply insert_bad, V|]. intros V.
    destruct (insert_has (collect ids) k g G V (collect_set ids)) as (g' & E & G' & M). exists g'. split; [exact E|]. split; [exact G'|].
    intros p d. rewrite M, (has_id_iff g p d G), collect_in. reflexivity.
  Qed.
  Lemma cut_with_iff ids q g : GWF g -> forall o, doc_cut_with_identifiers ids q g o <-> o = cut_with_identifiers (collect ids) q g.
  Proof.
    intros G. apply changes_ids_iff; [intros V; apply cut_with_bad, V|]. intros V.
    destruct (cut_with_has (collect ids) q g G V) as (g' & E & G' & M). exists g'. split; [exact E|]. split; [exact G'|].
    intros p d. rewrite M, (has_id_iff g p d G), collect_in. reflexivity.
  Qed.
  Lemma cut_all_iff q g : GWF g -> forall o, doc_cut_all_identifiers q g o <-> o = cut_all_identifiers q g.
  Proof.
    intros G. apply changes_ids_iff; [intros V; apply cut_all_bad, V|]. intros V.
    destruct (cut_all_has q g G V) as (g' & E & G' & M). exists g'. split; [exact E|]. split; [exact G'|].
    intros p d. rewrite M, (has_id_iff g p d G). reflexivity.
  Qed.
  Lemma append_iff g g2 : GWF g -> GWF g2 -> forall o, doc_append g g2 o <-> o = append g g2.
  Proof.
    intros G G2 o. destruct (append_spec g g2 G (or_introl G2)) as (g' & -> & G' & M). split.
    - intros (g1 & -> & P1 & M1). apply proper_GWF in P1. do 2 f_equal. apply GWF_ext; [exact P1|exact G'|].
      intros p d. rewrite M, (has_id_iff g1 p d P1), (has_id_iff g p d G), (has_id_iff g2 p d G2). exact (M1 p d).
    - intros ->. exists g'. split; [reflexivity|]. split; [apply proper_GWF, G'|]. intros p d.
      pose proof (M p d) as X. rewrite (has_id_iff g' p d G'), (has_id_iff g p d G), (has_id_iff g2 p d G2) in X. exact X.
  Qed.
  Context (DP : determined_by_points I K).
  Lemma gaps_no_iff q g : GWF g -> forall o, doc_gaps_no_identifier q g o <-> o = gaps_no_identifier g q.
  Proof.
    intros G. apply answers_iff.
    - split; [|intros V; apply gaps_no_bad, V]. intros V. destruct (gaps_no_spec g q G V) as (l & E & L). exists l. split; [exact E|].
      eapply lists_ext; [|exact L]. intros p. split; intros X d Y; apply (X d); [rewrite has_id_iff; [exact Y|exact G]|rewrite has_id_iff in Y; [exact Y|exact G]].
    - intros a a'. apply lists_same, DP.
  Qed.
  Lemma gaps_with_iff d q g : GWF g -> forall o, doc_gaps_with_identifier d q g o <-> o = gaps_with_identifier g d q.
  Proof.
    intros G. apply answers_iff.
    - split; [|intros V; apply gaps_with_bad, V]. intros V. destruct (gaps_with_spec g d q G V) as (l & E & L). exists l. split; [exact E|].
      eapply lists_ext; [|exact L]. intros p. split; intros X d' Y; apply (X d'); [rewrite has_id_iff; [exact Y|exact G]|rewrite has_id_iff in Y; [exact Y|exact G]].
    - intros a a'. apply lists_same, DP.
  Qed.
End CompleteGqdit.
