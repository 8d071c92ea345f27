(** * NoditCoherence: proofs of C88 and C89, relations between NoditMap methods. *)
From Coq Require Import List ZArith Lia Bool Sorting.Sorted Permutation.
From Verif Require Import Base BTree UtilsModel IntervalModel NoditModel NoditOps Spec ListFacts PointFacts IntervalFacts NoditFacts
  NoditQueries NoditGaps NoditMutations NoditMerges NoditInv NoditMore GqditAlgebra.
Import ListNotations.
Open Scope Z_scope.

Section Coherence.
  Context {I : Type} `{PL : PointLaws I}.
  Context {K : Type} {IK : InclusiveInterval I K} {IL : IntervalLaws I K}.
  Context {V : Type}.
  Notation entry := (K * V)%type.
  Implicit Types (m : NoditMap K V) (k : K) (v : V) (p : I).

  (** ** Lists *)
  Lemma remove_none (comp : K -> comparison) m : get_key_value comp m = None -> fst (remove comp m) = m.
  Proof.
    unfold get_key_value, remove. destruct (seek comp m) as [a [|[k v] r]]; cbn; [reflexivity|].
    destruct (comp k); [discriminate|reflexivity|reflexivity].
  Qed.
  Lemma get_ov m p k v : WF m -> get_key_value (overlapping_comp p) m = Some (k, v) -> In (k, v) m /\ covers k p.
  Proof.
    intros W E. apply (get_key_value_at_point_Ok m p W). unfold get_key_value_at_point. rewrite E. reflexivity.
  Qed.
  Lemma get_ov_none m p : WF m -> ~ covered m p -> get_key_value (overlapping_comp p) m = None.
  Proof.
    intros W N. destruct (get_key_value (overlapping_comp p) m) as [[k v]|] eqn:E; [|reflexivity].
    exfalso. apply N. destruct (get_ov m p k v W E). exists k, v. auto.
  Qed.
  Lemma sub_empty {T} (P : T -> Prop) l : sub P l [] <-> forall x, In x l -> ~ P x.
  Proof.
    split.
    - intros S x Hx Px. destruct (proj2 (sub_in P l [] S x)). auto.
    - intros N. apply sub_none, Forall_forall, N.
  Qed.
  Lemma absorbs_none (P : entry -> Prop) k v m m' r : absorbs P k v m m' r -> (forall e, In e m -> ~ P e) ->
    r = k /\ forall e, In e m' <-> e = (k, v) \/ In e m.
  Proof.
    intros (_ & (l1 & l2 & S & ->) & E) N. rewrite (E N). split; [reflexivity|]. intros e.
    assert (X : In e (l1 ++ l2) <-> In e m).
    { rewrite (sub_in _ _ _ S e). split; [tauto|]. intros Y. split; [exact Y|apply N, Y]. }
    rewrite <- X, !in_app_iff. cbn. intuition congruence.
  Qed.
  Lemma strict_in m k v : WF m -> valid k -> (forall k' v', In (k', v') m -> ~ overlap k' k) ->
    exists m', insert_strict k v m = (m', Val (Ok tt)) /\ WF m' /\ forall e, In e m' <-> e = (k, v) \/ In e m.
  Proof.
    intros W Vk N. destruct (insert_strict_done m k v W Vk N) as (l1 & l2 & -> & E & W').
    exists (l1 ++ (k, v) :: l2). split; [exact E|]. split; [exact W'|]. intros e. rewrite !in_app_iff. cbn. intuition congruence.
  Qed.

  Section Queries.
    Context {Q : Type} {IQ : InclusiveInterval I Q}.
    Implicit Types q : Q.

    Lemma one_point_valid q p : (forall x, covers q x <-> x = p) -> valid q.
    Proof. intros E. exists p. apply E. reflexivity. Qed.
    Lemma one_point_overlap q p k : (forall x, covers q x <-> x = p) -> (overlap k q <-> covers k p).
    Proof.
      intros E. split.
      - intros (x & Hk & Hq). apply E in Hq. subst x. exact Hk.
      - intros Hk. exists p. split; [exact Hk|]. apply E. reflexivity.
    Qed.
    Lemma one_point_overlaps m q p : WF m -> (forall x, covers q x <-> x = p) -> map_overlaps m q = map_contains_point m p.
    Proof.
      intros W E. destruct (map_overlaps_spec m q W (one_point_valid q p E)) as (b & -> & Hb).
      destruct (map_contains_point_spec m p W) as (c & -> & Hc). f_equal. apply eq_true_iff_eq. rewrite Hb, Hc.
      unfold covered. clear IL. split; intros (k & v & Hk & Ho); exists k, v; (split; [exact Hk|]); apply (one_point_overlap q p k E), Ho.
    Qed.
    Lemma sub_one (l ol : list entry) (P : entry -> Prop) e : NoDup l -> In e l -> P e ->
      (forall x, In x l -> P x -> x = e) -> sub P l ol -> ol = [e].
    Proof.
      intros ND He Pe U S. assert (NO : NoDup ol).
      { clear - S ND. induction S as [|x l l' Px S IH|x l l' Px S IH]; [constructor| |].
        - inversion ND; subst. constructor; [|apply IH; assumption]. intros X. apply (sub_in _ _ _ S) in X. tauto.
        - inversion ND; subst. apply IH; assumption. }
      assert (A : forall x, In x ol -> x = e) by (intros x Hx; apply (sub_in _ _ _ S) in Hx; apply U; tauto).
      assert (B : In e ol) by (apply (sub_in _ _ _ S); auto).
      destruct ol as [|a [|b ol]]; [destruct B|f_equal; apply A; left; reflexivity|].
      exfalso. assert (a = e) by (apply A; left; reflexivity). assert (b = e) by (apply A; right; left; reflexivity). subst a b.
      inversion NO as [|? ? X _]; subst. apply X. left. reflexivity.
    Qed.
    Lemma one_point_overlapping m q p k v : WF m -> (forall x, covers q x <-> x = p) ->
      (get_key_value_at_point m p = Val (Ok (k, v)) <-> overlapping m q = Val [(k, v)]).
    Proof.
      intros W E. rewrite (get_key_value_at_point_Ok m p W k v).
      destruct (overlapping_spec m q W (one_point_valid q p E)) as (l & -> & S). split.
      - intros [Hin Hc]. f_equal. refine (sub_one m l _ (k, v) (WF_NoDup m W) Hin _ _ S); [apply (one_point_overlap q p k E), Hc|].
        intros [k' v'] Hin' Ho. apply (one_point_overlap q p k' E) in Ho. eapply covers_unique; eassumption.
      - intros X. injection X as ->. destruct (proj1 (sub_in _ _ _ S (k, v)) (or_introl eq_refl)) as [Hin Ho].
        split; [exact Hin|]. apply (one_point_overlap q p k E), Ho.
    Qed.

    Section Gaps.
      Context {FI : FromInvalid I K}.
      Lemma gaps_nil_iff (P : I -> Prop) (sel : Interval I -> Prop) (l : list K) : lists_max_runs P sel l ->
        (l = [] <-> forall j : Interval I, max_run P j -> ~ sel j).
      Proof.
        intros (_ & F & C). split.
        - intros -> j M S. destruct (C j M S) as (g & [] & _).
        - intros N. destruct l as [|g l]; [reflexivity|]. destruct (F g (or_introl eq_refl)) as [M S].
          exfalso. exact (N (mkInterval (istart g) (iend g)) M S).
      Qed.
      Lemma untrimmed_nil m q : WF m -> valid q ->
        (map_contains_interval m q = Val true <-> gaps_untrimmed m q = Val []).
      Proof.
        intros W Vq. unfold map_contains_interval. rewrite (iip_valid _ Vq). cbn [obind].
        destruct (gaps_untrimmed m q) as [[|g gl]|]; cbn; split; congruence.
      Qed.
      Lemma trimmed_nil m q : WF m -> valid q ->
        (gaps_trimmed m q = Val [] <-> gaps_untrimmed m q = Val []).
      Proof.
        intros W Vq. destruct (gaps_trimmed_untrimmed m q W Vq (quiet_at_FI m q)) as (gl & tl & -> & -> & F).
        split; intros E; injection E as ->; inversion F; reflexivity.
      Qed.
      Lemma free_trimmed m q : WF m -> valid q ->
        (map_overlaps m q = Val false <-> exists g, gaps_trimmed m q = Val [g] /\ same_points g q).
      Proof.
        intros W Vq. destruct (map_overlaps_spec m q W Vq) as (b & -> & Hb).
        destruct (gaps_trimmed_spec m q W Vq (quiet_at_FI m q)) as (tl & E & L).
        destruct (gaps_trimmed_points m q W Vq (quiet_at_FI m q)) as (tl' & E' & Hp). rewrite E in E'. injection E' as <-. rewrite E.
        split.
        - intros X. injection X as ->.
          assert (N : forall x, covers q x -> ~ covered m x).
          { intros x Hx (k & v & Hin & Hc). assert (false = true); [|discriminate]. apply Hb. exists k, v. split; [exact Hin|]. exists x. auto. }
          assert (M : lists_max_runs (fun x => ~ covered m x /\ covers q x) (fun _ => True) [mkInterval (istart q) (iend q)]).
          { split; [repeat constructor|]. split.
            - intros g [<-|[]]. split; [|exact Logic.I]. split; [exact Vq|]. split; [intros x Hx; split; [apply N|]; exact Hx|].
              intros j Hj _ x Hx. apply (Hj x Hx).
            - intros j (Vj & Pj & Mj) _. exists (mkInterval (istart q) (iend q)). split; [left; reflexivity|]. intros x. split.
              + apply (Mj (mkInterval (istart q) (iend q))); [intros y Hy; split; [apply N|]; exact Hy|].
                destruct Vj as [y Hy]. exists y. split; [exact Hy|]. apply (Pj y Hy).
              + intros Hx. apply (Pj x Hx). }
          pose proof (lists_unique _ _ _ _ _ (fun p => conj (fun x => x) (fun x => x)) L M) as F.
          inversion F as [|g ? ? ? S F']; subst. inversion F'; subst. exists g. split; [reflexivity|exact S].
        - intros (g & X & S). injection X as ->. f_equal. destruct b; [|reflexivity]. exfalso.
          destruct (proj1 Hb eq_refl) as (k & v & Hin & x & Hk & Hq).
          apply (proj2 (Hp x Hq)); [|exists k, v; auto]. exists g. split; [left; reflexivity|]. apply S, Hq.
      Qed.
      Lemma one_point_contains m q p : WF m -> (forall x, covers q x <-> x = p) -> map_contains_interval m q = map_contains_point m p.
      Proof.
        intros W E. destruct (map_contains_interval_spec m q W (one_point_valid q p E) (quiet_at_FI m q)) as (b & -> & Hb).
        destruct (map_contains_point_spec m p W) as (c & -> & Hc). f_equal. apply eq_true_iff_eq. rewrite Hb, Hc. split.
        - intros A. apply A, E. reflexivity.
        - intros C x Hx. apply E in Hx. subst x. exact C.
      Qed.
      Lemma one_point_gap m q p g : WF m -> (forall x, covers q x <-> x = p) -> get_key_value_at_point m p = Val (Err g) ->
        exists g', gaps_untrimmed m q = Val [g'] /\ same_points g g'.
      Proof.
        intros W E G. destruct (covered_dec m p W) as [(k & v & Hin & Hc)|N].
        { assert (X : get_key_value_at_point m p = Val (Ok (k, v))) by (apply get_key_value_at_point_Ok; auto). congruence. }
        destruct (get_key_value_at_point_Err m p W N) as (g0 & G0 & Cg & Mg). assert (g0 = g) by congruence. subst g0.
        destruct (gaps_untrimmed_spec m q W (one_point_valid q p E) (quiet_at_FI m q)) as (gl & -> & L).
        assert (M : lists_max_runs (fun x => ~ covered m x) (fun j : Interval I => overlap j q) [g]).
        { split; [repeat constructor|]. split.
          - intros j [<-|[]]. split; [exact Mg|]. exists p. split; [exact Cg|]. apply E. reflexivity.
          - intros j Mj (x & Hx & Hq). apply E in Hq. subst x. exists g. split; [left; reflexivity|].
            eapply max_run_same; [exact Mg|exact Mj|exact Cg|exact Hx]. }
        pose proof (lists_unique _ _ _ _ _ (fun p => conj (fun x => x) (fun x => x)) M L) as F.
        inversion F as [|? g' ? ? S F']; subst. inversion F'; subst. exists g'. auto.
      Qed.
    End Gaps.

    (** ** Removing *)
    Lemma remove_yields m q : WF m -> snd (remove_overlapping q m) = overlapping m q.
    Proof.
      intros W. destruct (valid_dec q) as [Vq|N].
      - destruct (remove_overlapping_spec m q W Vq) as (m' & o & -> & S & _). destruct (overlapping_spec m q W Vq) as (l & -> & S').
        cbn. f_equal. eapply sub_unique; eassumption.
      - rewrite remove_overlapping_invalid by exact N. rewrite overlapping_invalid by exact N. reflexivity.
    Qed.
    Lemma remove_clears m q : WF m -> valid q ->
      overlapping (fst (remove_overlapping q m)) q = Val [] /\ map_overlaps (fst (remove_overlapping q m)) q = Val false /\
      remove_overlapping q (fst (remove_overlapping q m)) = (fst (remove_overlapping q m), Val []).
    Proof.
      intros W Vq. destruct (remove_overlapping_spec m q W Vq) as (m' & o & -> & _ & S & W'). cbn [fst].
      assert (N : forall e, In e m' -> ~ overlap (fst e) q) by (intros e He; apply (sub_in _ _ _ S) in He; tauto).
      split; [|split].
      - destruct (overlapping_spec m' q W' Vq) as (l & -> & S'). f_equal. eapply sub_unique; [exact S'|apply sub_empty, N].
      - destruct (map_overlaps_spec m' q W' Vq) as (b & -> & Hb). f_equal. destruct b; [|reflexivity].
        destruct (proj1 Hb eq_refl) as (k & v & Hin & Ho). destruct (N (k, v) Hin Ho).
      - destruct (remove_overlapping_spec m' q W' Vq) as (m2 & o2 & -> & S1 & S2 & _). f_equal; [|f_equal].
        + eapply sub_unique; [exact S2|]. apply sub_all, Forall_forall, N.
        + eapply sub_unique; [exact S1|]. apply sub_empty, N.
    Qed.
    Lemma cut_clears m q : WF m -> valid q ->
      overlapping (fst (cut q m)) q = Val [] /\ map_overlaps (fst (cut q m)) q = Val false.
    Proof.
      intros W Vq. destruct (cut_entries m q W Vq) as (m' & out & -> & W' & _ & P & _). cbn [fst].
      assert (N : forall e, In e m' -> ~ overlap (fst e) q).
      { intros [k' v] He (x & Hk & Hq). destruct (P k' v He) as (k & _ & _ & _ & M & _). apply (M x Hk). exact Hq. }
      split.
      - destruct (overlapping_spec m' q W' Vq) as (l & -> & S'). f_equal. eapply sub_unique; [exact S'|apply sub_empty, N].
      - destruct (map_overlaps_spec m' q W' Vq) as (b & -> & Hb). f_equal. destruct b; [|reflexivity].
        destruct (proj1 Hb eq_refl) as (k & v & Hin & Ho). destruct (N (k, v) Hin Ho).
    Qed.
  End Queries.

  (** ** Inserting *)
  Lemma strict_iff m k v : WF m -> (snd (insert_strict k v m) = Val (Ok tt) <-> map_overlaps m k = Val false).
  Proof.
    intros W. unfold insert_strict. destruct (valid_dec k) as [Vk|N].
    - rewrite (iip_valid _ Vk). destruct (map_overlaps_spec m k W Vk) as (b & -> & _). destruct b; cbn; split; congruence.
    - rewrite (iip_invalid _ N), map_overlaps_invalid by exact N. cbn. split; congruence.
  Qed.
  Lemma touching_iff m k v : WF m -> ((exists r, snd (insert_merge_touching k v m) = Val (Ok r)) <-> map_overlaps m k = Val false).
  Proof.
    intros W. destruct (valid_dec k) as [Vk|N].
    - destruct (overlap_dec m k W Vk) as [Ho|Hn].
      + rewrite insert_merge_touching_refused by assumption. destruct (map_overlaps_spec m k W Vk) as (b & -> & Hb).
        apply Hb in Ho. subst b. cbn. split; [intros (r & E)|intros E]; discriminate.
      + destruct (insert_merge_touching_done m k v W Vk Hn) as (m' & r & -> & _). cbn.
        split; [intros _|intros _; exists r; reflexivity].
        destruct (map_overlaps_spec m k W Vk) as (b & -> & Hb). f_equal. destruct b; [|reflexivity].
        destruct (proj1 Hb eq_refl) as (k' & v' & Hin & Ho). destruct (Hn k' v' Hin Ho).
    - rewrite insert_merge_touching_invalid, map_overlaps_invalid by exact N. cbn. split; [intros (r & E)|intros E]; discriminate.
  Qed.
  Lemma overwrite_cut m k v : WF m -> insert_overwrite k v m = (fst (insert_strict k v (fst (cut k m))), snd (cut k m)).
  Proof.
    intros W. destruct (valid_dec k) as [Vk|N].
    - destruct (cut_clears m k W Vk) as [_ C]. unfold insert_overwrite, insert_strict. rewrite (iip_valid _ Vk), C.
      destruct (cut_entries m k W Vk) as (m' & out & -> & _). reflexivity.
    - rewrite insert_overwrite_invalid, cut_invalid by exact N. cbn. rewrite insert_strict_invalid by exact N. reflexivity.
  Qed.
  Lemma strict_remove m m' k v : WF m -> insert_strict k v m = (m', Val (Ok tt)) ->
    remove_overlapping k m' = (m, Val [(k, v)]) /\
    exists k', cut k m' = (m, Val [(k', v)]) /\ same_points k' k.
  Proof.
    intros W E. destruct (valid_dec k) as [Vk|N]; [|rewrite insert_strict_invalid in E by exact N; discriminate].
    destruct (overlap_dec m k W Vk) as [Ho|Hn]; [rewrite insert_strict_refused in E by assumption; discriminate|].
    destruct (insert_strict_done m k v W Vk Hn) as (l1 & l2 & -> & E' & W'). rewrite E in E'. injection E' as ->.
    assert (Hk : overlap k k) by (destruct Vk as [x Hx]; exists x; auto).
    assert (S1 : sub (fun e : entry => overlap (fst e) k) (l1 ++ (k, v) :: l2) [(k, v)]).
    { apply (sub_app _ l1 _ []); [apply sub_empty; intros [a b] Hx; apply (Hn a b); apply in_app_iff; auto|].
      constructor; [exact Hk|]. apply sub_empty. intros [a b] Hx. apply (Hn a b). apply in_app_iff. auto. }
    assert (S2 : sub (fun e : entry => ~ overlap (fst e) k) (l1 ++ (k, v) :: l2) (l1 ++ l2)).
    { apply sub_app; [apply sub_all, Forall_forall; intros [a b] Hx; apply (Hn a b); apply in_app_iff; auto|].
      apply sub_drop; [intros X; apply X, Hk|]. apply sub_all, Forall_forall. intros [a b] Hx. apply (Hn a b). apply in_app_iff. auto. }
    split.
    - destruct (remove_overlapping_spec _ k W' Vk) as (m2 & o & -> & R1 & R2 & _). f_equal; [|f_equal]; eapply sub_unique; eassumption.
    - destruct (cut_entries _ k W' Vk) as (m2 & out & E2 & W2 & (o & R1 & F) & P1 & P2 & _).
      assert (o = [(k, v)]) as -> by (eapply sub_unique; eassumption).
      inversion F as [|? [k' v'] ? ? [X Y] F']; subst. inversion F'; subst. cbn in X, Y. subst v'. exists k'. split.
      + rewrite E2. do 2 f_equal. apply WF_perm_eq; [assumption|assumption|]. intros [a b]. split.
        * intros Hi. destruct (P1 a b Hi) as (a0 & Hi0 & Hs & (Va & Ma & _)). apply in_app_iff in Hi0. destruct Hi0 as [Hi0|[Hi0|Hi0]].
          -- rewrite (Hs (Hn _ _ (proj2 (in_app_iff l1 l2 (a0, b)) (or_introl Hi0)))). apply in_app_iff. auto.
          -- injection Hi0 as -> ->. destruct Va as [x Hx]. destruct (Ma x Hx). contradiction.
          -- rewrite (Hs (Hn _ _ (proj2 (in_app_iff l1 l2 (a0, b)) (or_intror Hi0)))). apply in_app_iff. auto.
        * intros Hi. apply (P2 a b); [rewrite in_app_iff in *; cbn; tauto|]. apply (Hn a b Hi).
      + intros x. rewrite Y. tauto.
  Qed.

  (** The insertions agree where they should. *)
  Lemma apart_agree veq m k v : WF m -> valid k -> (forall e, In e m -> ~ overlap (fst e) k /\ ~ touch (fst e) k) ->
    exists m', insert_strict k v m = (m', Val (Ok tt)) /\
      insert_merge_touching k v m = (m', Val (Ok k)) /\
      insert_merge_touching_if_values_equal veq k v m = (m', Val (Ok k)) /\
      insert_merge_overlapping k v m = (m', Val k) /\
      insert_merge_touching_or_overlapping k v m = (m', Val k) /\
      insert_overwrite k v m = (m', Val []).
  Proof.
    intros W Vk N. assert (Hn : forall k' v', In (k', v') m -> ~ overlap k' k) by (intros k' v' Hi; apply (N (k', v') Hi)).
    destruct (strict_in m k v W Vk Hn) as (m' & E & W' & M). exists m'. split; [exact E|].
    assert (U : forall m2, WF m2 -> (forall e, In e m2 <-> e = (k, v) \/ In e m) -> m2 = m').
    { intros m2 W2 M2. apply WF_perm_eq; [assumption|assumption|]. intros e. rewrite M2, M. reflexivity. }
    split; [|split; [|split; [|split]]].
    - destruct (insert_merge_touching_done m k v W Vk Hn) as (m2 & r & -> & W2 & A).
      destruct (absorbs_none _ _ _ _ _ _ A) as [-> M2]; [intros e He; apply (N e He)|]. rewrite (U m2 W2 M2). reflexivity.
    - destruct (insert_merge_touching_if_equal_done veq m k v W Vk Hn) as (m2 & r & -> & W2 & A).
      destruct (absorbs_none _ _ _ _ _ _ A) as [-> M2]; [intros e He [X _]; apply (N e He), X|]. rewrite (U m2 W2 M2). reflexivity.
    - destruct (insert_merge_overlapping_spec m k v W Vk) as (m2 & r & -> & W2 & A).
      destruct (absorbs_none _ _ _ _ _ _ A) as [-> M2]; [intros e He; apply (N e He)|]. rewrite (U m2 W2 M2). reflexivity.
    - destruct (insert_merge_touching_or_overlapping_spec m k v W Vk) as (m2 & r & -> & W2 & A).
      destruct (absorbs_none _ _ _ _ _ _ A) as [-> M2]; [intros e He X; destruct (N e He); tauto|]. rewrite (U m2 W2 M2). reflexivity.
    - rewrite overwrite_cut by exact W. rewrite cut_nothing; [|exact W|exact Vk|intros e He; apply (N e He)]. cbn. rewrite E. reflexivity.
  Qed.
  Lemma touching_tor m k v m' r : WF m -> insert_merge_touching k v m = (m', Val (Ok r)) ->
    insert_merge_touching_or_overlapping k v m = (m', Val r).
  Proof.
    intros W E. destruct (valid_dec k) as [Vk|N]; [|rewrite insert_merge_touching_invalid in E by exact N; discriminate].
    destruct (overlap_dec m k W Vk) as [Ho|Hn]; [rewrite insert_merge_touching_refused in E by assumption; discriminate|].
    assert (G : forall p, covers k p -> get_key_value (overlapping_comp p) m = None).
    { intros p Hp. apply get_ov_none; [exact W|]. intros (a & b & Hi & Hc). apply (Hn a b Hi). exists p. auto. }
    assert (C1 : covers k (istart k)) by (apply valid_rk in Vk; apply covers_rk; unfold lo, hi in *; lia).
    assert (C2 : covers k (iend k)) by (apply valid_rk in Vk; apply covers_rk; unfold lo, hi in *; lia).
    unfold insert_merge_touching in E. unfold insert_merge_touching_or_overlapping. rewrite (iip_valid _ Vk) in *.
    destruct (map_overlaps m k) as [[|]|]; [discriminate| |discriminate].
    unfold insert_merge_with_comps in *. rewrite (iip_valid _ Vk) in *.
    rewrite (G _ C1), (G _ C2). cbn [option_map].
    assert (O : forall o : option K, option_or o None = o) by (intros [x|]; reflexivity). rewrite !O.
    destruct (remove_overlapping k m) as [m1 [o|]]; [|discriminate]. injection E as <- <-. reflexivity.
  Qed.
  Lemma overlapping_tor m k v : WF m -> (forall e, In e m -> ~ touch (fst e) k) ->
    insert_merge_overlapping k v m = insert_merge_touching_or_overlapping k v m.
  Proof.
    intros W N. destruct (valid_dec k) as [Vk|N1]; [|rewrite insert_merge_overlapping_invalid, insert_merge_tor_invalid by exact N1; reflexivity].
    apply valid_rk in Vk as Vk'.
    destruct (split5 m (lo k) (hi k) W Vk') as (A & TL & M & TR & B & Em & HA & HTL & HM & HTR & HB).
    assert (TL = None) as ->.
    { destruct TL as [t|]; [|reflexivity]. exfalso. apply (N t).
      - rewrite Em. cbn. rewrite !in_app_iff. right. left. reflexivity.
      - rewrite Em in W. destruct (rel_TL k A (Some t) M TR B Vk' W HTL t (or_introl eq_refl)). assumption. }
    assert (TR = None) as ->.
    { destruct TR as [t|]; [|reflexivity]. exfalso. apply (N t).
      - rewrite Em. cbn. rewrite !in_app_iff. right. right. left. reflexivity.
      - rewrite Em in W. destruct (rel_TR k A None M (Some t) B Vk' W HTR t (or_introl eq_refl)). assumption. }
    rewrite Em in *.
    destruct (merge_gets k A None M None B Vk' W HA HTL HM HTR HB) as (E1 & E2 & G1 & G2 & _).
    pose proof (remove_M k A None M None B Vk' W HA HTL HM HTR HB) as E5.
    unfold insert_merge_overlapping, insert_merge_touching_or_overlapping, insert_merge_with_comps. rewrite (iip_valid _ Vk).
    rewrite E1, E2, E5, G1, G2. reflexivity.
  Qed.
  Lemma if_equal_true m k v :
    insert_merge_touching_if_values_equal (fun _ _ => true) k v m = insert_merge_touching k v m.
  Proof.
    unfold insert_merge_touching_if_values_equal, insert_merge_touching.
    destruct (invalid_interval_panic k) as [u|] eqn:E; [|reflexivity]. destruct (map_overlaps m k) as [[|]|]; try reflexivity.
    unfold insert_merge_with_comps. rewrite E.
    assert (G : forall c m0, get_if_equal (fun _ _ => true) c m0 v = option_map fst (get_key_value c m0)).
    { intros c m0. unfold get_if_equal. destruct (get_key_value c m0) as [[a b]|]; reflexivity. }
    rewrite !G. destruct (remove_overlapping k m) as [m1 [o|]]; [|reflexivity].
    assert (R : forall c m0, (if is_some (get_if_equal (fun _ _ => true) c m0 v) then fst (remove c m0) else m0) = fst (remove c m0)).
    { intros c m0. rewrite G. destruct (get_key_value c m0) as [[a b]|] eqn:X; [reflexivity|]. symmetry. apply remove_none, X. }
    cbv beta. rewrite !R. reflexivity.
  Qed.
  Lemma if_equal_false veq m k v : WF m -> (forall e, In e m -> touch (fst e) k -> veq (snd e) v = false) ->
    insert_merge_touching_if_values_equal veq k v m =
    (fst (insert_strict k v m), omap (fun r => match r with Ok _ => Ok k | Err x => Err x end) (snd (insert_strict k v m))).
  Proof.
    intros W N. destruct (valid_dec k) as [Vk|N1]; [|rewrite insert_merge_touching_if_equal_invalid, insert_strict_invalid by exact N1; reflexivity].
    destruct (overlap_dec m k W Vk) as [Ho|Hn].
    - rewrite insert_merge_touching_if_equal_refused, insert_strict_refused by assumption. reflexivity.
    - destruct (strict_in m k v W Vk Hn) as (m' & -> & W' & M).
      destruct (insert_merge_touching_if_equal_done veq m k v W Vk Hn) as (m2 & r & -> & W2 & A).
      destruct (absorbs_none _ _ _ _ _ _ A) as [-> M2].
      { intros e He [X Y]. rewrite (N e He X) in Y. discriminate. }
      cbn. f_equal. apply WF_perm_eq; [assumption|assumption|]. intros e. rewrite M2, M. reflexivity.
  Qed.

  (** ** Filling *)
  Lemma insert_each_disjoint (l : list entry) : forall m, WF m -> disjoint_intervals (map fst l) ->
    (forall e k v, In e l -> In (k, v) m -> ~ overlap k (fst e)) ->
    exists m', insert_each l m = Some m' /\ WF m' /\ length m' = (length m + length l)%nat /\ forall e, In e m' <-> In e l \/ In e m.
  Proof.
    induction l as [|[k v] l IH]; intros m W [F D] N.
    - exists m. split; [reflexivity|]. split; [exact W|]. split; [cbn; lia|]. intros e. cbn. tauto.
    - cbn [map fst] in F, D. inversion F as [|? ? Vk F']; subst. inversion D as [|? ? Dk D']; subst.
      destruct (insert_strict_done m k v W Vk) as (l1 & l2 & Em & E & W'); [intros k' v' Hi; apply (N (k, v) k' v'); [left; reflexivity|exact Hi]|].
      destruct (IH (l1 ++ (k, v) :: l2) W' (conj F' D')) as (m' & E' & WF' & L' & M').
      { intros e a b He Hi. rewrite in_app_iff in Hi. cbn in Hi. destruct Hi as [Hi|[Hi|Hi]].
        - apply (N e a b); [right; exact He|rewrite Em; apply in_app_iff; auto].
        - injection Hi as <- <-. rewrite Forall_forall in Dk. apply Dk, in_map, He.
        - apply (N e a b); [right; exact He|rewrite Em; apply in_app_iff; auto]. }
      exists m'. cbn [insert_each]. rewrite E. split; [exact E'|]. split; [exact WF'|]. split.
      + rewrite L', Em, !app_length. cbn. lia.
      + intros e. rewrite M', Em, !in_app_iff. cbn. tauto.
  Qed.
  Lemma ascending_disj (l : list K) : ascending l -> Forall valid l -> disjoint_intervals l.
  Proof. intros A F. split; [exact F|apply ascending_disjoint, A]. Qed.
  Lemma fill {Q} {IQ : InclusiveInterval I Q} m (q : Q) (P : I -> Prop) sel (gl : list K) (l : list entry) : WF m -> valid q ->
    (forall p, P p -> ~ covered m p) -> lists_max_runs P sel gl ->
    (forall p, covers q p -> ~ covered m p -> exists g, In g gl /\ covers g p) ->
    Permutation (map fst l) gl ->
    exists m', insert_each l m = Some m' /\ WF m' /\ length m' = (length m + length l)%nat /\ (forall e, In e m' <-> In e l \/ In e m) /\
      (forall p, covers q p -> covered m' p) /\
      (forall p, covered m p -> get_at_point m' p = get_at_point m p) /\
      (forall p, ~ (exists g, In g gl /\ covers g p) -> get_at_point m' p = get_at_point m p).
  Proof.
    intros W Vq HP (A & F & _) C Pm.
    assert (D : disjoint_intervals (map fst l)).
    { assert (D : disjoint_intervals gl).
      { apply ascending_disj; [exact A|]. apply Forall_forall. intros g Hg. apply (F g Hg). }
      destruct D as [D1 D2]. split; [eapply Permutation_Forall; [apply Permutation_sym, Pm|exact D1]|].
      eapply FOP_Permutation; [|apply Permutation_sym, Pm|exact D2]. intros x y Hn Ho. apply Hn, overlap_sym, Ho. }
    destruct (insert_each_disjoint l m W D) as (m' & E & W' & L & M).
    { intros [g x] k v He Hi (p & Hk & Hg). cbn in Hg. apply (in_map fst) in He. apply (Permutation_in _ Pm) in He.
      destruct (F g He) as [(_ & X & _) _]. apply (HP p (X p Hg)). exists k, v. auto. }
    assert (T : forall p v, maps_to m p v -> maps_to m' p v).
    { intros p v (k & Hi & Hc). exists k. split; [apply M; right; exact Hi|exact Hc]. }
    assert (T' : forall p v, maps_to m' p v -> maps_to m p v \/ (exists g, In g gl /\ covers g p)).
    { intros p v (k & Hi & Hc). apply M in Hi. destruct Hi as [Hi|Hi]; [right|left; exists k; auto].
      exists k. split; [apply (Permutation_in _ Pm), (in_map fst _ _ Hi)|exact Hc]. }
    exists m'. split; [exact E|]. split; [exact W'|]. split; [exact L|]. split; [exact M|]. split; [|split].
    - intros p Hp. destruct (covered_dec m p W) as [(k & v & Hi & Hc)|N].
      + exists k, v. split; [apply M; right; exact Hi|exact Hc].
      + destruct (C p Hp N) as (g & Hg & Hc). apply (Permutation_in _ (Permutation_sym Pm)) in Hg.
        apply in_map_iff in Hg. destruct Hg as ([g' x] & <- & Hi). exists g', x. split; [apply M; left; exact Hi|exact Hc].
    - intros p Hp. apply covered_maps_to in Hp. destruct Hp as (v & Hv).
      rewrite (proj2 (get_at_point_Some m p v W) Hv). apply (get_at_point_Some m' p v W'), T, Hv.
    - intros p Hp. destruct (get_at_point_cases m p W) as [(v & Hv & -> & _)|(N & -> & _)].
      + apply (get_at_point_Some m' p v W'), T, Hv.
      + apply (get_at_point_None m' p W'). rewrite covered_maps_to. intros (v & Hv). destruct (T' p v Hv) as [X|X]; [|tauto].
        apply N. eapply maps_to_covered, X.
  Qed.
End Coherence.
