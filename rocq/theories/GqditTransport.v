(** * GqditTransport: a Gqdit depends on the order of its points and identifiers
      only (used for C99). *)
From Coq Require Import List ZArith Bool Lia ZifyBool Sorting.Sorted.
From Verif Require Import Base BTree UtilsModel IntervalModel NoditModel GqditModel GqditOps Spec EqualOps GqditTransportOps
  PointFacts IntervalFacts NoditFacts NoditQueries GqditFacts GqditProofs GqditGaps GqditAlgebra.
Import ListNotations.

Section Facts.
  Context {I : Type} {OI : Ord I} {DI : DiscreteFinite I} {PL : PointLaws I}.
  Context {J : Type} {OJ : Ord J} {DJ : DiscreteFinite J} {PLJ : PointLaws J}.
  Context {K : Type} {IK : InclusiveInterval I K} {IL : IntervalLaws I K} {FI : FromInvalid I K}.
  Context {L : Type} {IKL : InclusiveInterval J L} {ILL : IntervalLaws J L} {FIL : FromInvalid J L}.
  Context {D : Type} {OD : Ord D} {OL : OrdLaws D} {E : Type} {OE : Ord E} {OLE : OrdLaws E}.
  Context (f : I -> J) (e : D -> E) (Kf : keeps_order f) (Ke : keeps_order e).

  Lemma e_inj d d' : e d = e d' -> d = d'.
  Proof. intros X. apply cmp_eq. rewrite <- Ke, X. apply cmp_eq. reflexivity. Qed.

  Lemma lt_sent x y : plt (f x) (f y) <-> plt x y.
  Proof. unfold plt. rewrite Kf. reflexivity. Qed.
  Lemma rk_eq_sent x y : rk (f x) = rk (f y) <-> rk x = rk y.
  Proof. rewrite <- !rk_eq, Kf. reflexivity. Qed.
  Lemma rk_le_sent x y : (rk (f x) <= rk (f y))%Z <-> (rk x <= rk y)%Z.
  Proof.
    pose proof (lt_sent y x) as A. rewrite !plt_rk in A. lia.
  Qed.

  Lemma covers_sent {Q R} {IQ : InclusiveInterval I Q} {IR : InclusiveInterval J R} (q : Q) (r : R) p :
    ends_sent f q r -> (covers r (f p) <-> covers q p).
  Proof.
    intros [A B]. apply rk_eq in A, B. rewrite !covers_rk. unfold lo, hi.
    pose proof (rk_le_sent (istart q) p). pose proof (rk_le_sent p (iend q)). lia.
  Qed.
  Lemma valid_sent {Q R} {IQ : InclusiveInterval I Q} {IR : InclusiveInterval J R} (q : Q) (r : R) :
    ends_sent f q r -> (valid r <-> valid q).
  Proof.
    intros [A B]. apply rk_eq in A, B. rewrite !valid_rk. unfold lo, hi. pose proof (rk_le_sent (istart q) (iend q)). lia.
  Qed.

  Definition sent_ok (o : gop I K D) (o' : gop J L E) : Prop :=
    (forall d p, adds o' (e d) (f p) <-> adds o d p) /\
    (forall d p, removes o' (e d) (f p) <-> removes o d p) /\
    (forall d' p, adds o' d' (f p) -> exists d, d' = e d).

  Lemma in_map_e d ids : In (e d) (map e ids) <-> In d ids.
  Proof.
    rewrite in_map_iff. split; [intros (x & X & Hx); apply e_inj in X; subst x; exact Hx|intros X; exists d; auto].
  Qed.
  Lemma not_added_nil {A B C} {OA : Ord A} {DA : DiscreteFinite A} {IB : InclusiveInterval A B} {OC : Ord C} d p : ~ added ([] : list (gop A B C)) d p.
  Proof. intros X. inversion X as [os1 o os2 d1 p1 Y F Z]. destruct os1; discriminate Z. Qed.

  Lemma list_ok (os : list (gop I K D)) : forall (os' : list (gop J L E)), Forall2 sent_ok os os' ->
    (forall d p, added os' (e d) (f p) <-> added os d p) /\ (forall d' p, added os' d' (f p) -> exists d, d' = e d).
  Proof.
    induction os as [|o os IH] using rev_ind; intros os' F.
    - inversion F; subst os'. split; [intros d p; split; intros X; destruct (not_added_nil _ _ X)|intros d' p X; destruct (not_added_nil _ _ X)].
    - apply Forall2_app_inv_l in F as (l1 & l2 & F1 & F2 & ->). inversion F2 as [|? o' ? l3 S F3]; subst.
      inversion F3; subst. clear F2 F3. destruct (IH l1 F1) as [A B]. destruct S as (S1 & S2 & S3). split.
      + intros d p. rewrite !added_snoc, A, S1, S2. reflexivity.
      + intros d' p X. apply added_snoc in X. destruct X as [X|[X _]]; [apply (S3 _ _ X)|apply (B _ _ X)].
  Qed.

  Lemma sent_ok_of : forall o o', gop_sent f e o o' -> sent_ok o o'.
  Proof.
    fix IH 3. intros o o' S. destruct S as [ids k l C|ids Q IQ R IR q r C|Q IQ R IR q r C|os os' F].
    - split; [|split].
      + intros d p. split; intros X; inversion X; subst; constructor.
        * apply in_map_e. assumption.
        * apply (covers_sent k l p C). assumption.
        * apply in_map_e. assumption.
        * apply (covers_sent k l p C). assumption.
      + intros d p. cbn. tauto.
      + intros d' p X. inversion X as [a b c x Hin Hc|]; subst. apply in_map_iff in Hin as (d & <- & _). exists d. reflexivity.
    - split; [|split].
      + intros d p. split; intros X; inversion X.
      + intros d p. cbn. rewrite in_map_e, (covers_sent q r p C). reflexivity.
      + intros d' p X. inversion X.
    - split; [|split].
      + intros d p. split; intros X; inversion X.
      + intros d p. cbn. apply covers_sent, C.
      + intros d' p X. inversion X.
    - assert (G : Forall2 sent_ok os os') by (induction F as [|x y l l' S F IHF]; constructor; [apply IH, S|exact IHF]).
      destruct (list_ok os os' G) as [A B]. split; [|split].
      + intros d p. split; intros X; inversion X; subst; constructor; apply A; assumption.
      + intros d p. cbn. tauto.
      + intros d' p X. inversion X; subst. apply (B d' p). assumption.
  Qed.

  Context (os : list (gop I K D)) (os' : list (gop J L E)) (F : Forall2 (gop_sent f e) os os').

  Lemma added_sent : (forall d p, added os' (e d) (f p) <-> added os d p) /\ (forall d' p, added os' d' (f p) -> exists d, d' = e d).
  Proof. apply list_ok. induction F as [|x y l l' S F' IH]; constructor; [apply sent_ok_of, S|apply IH]; exact F'. Qed.

  Lemma has_sent d p : has_id (grun os') (f p) (e d) <-> has_id (grun os) p d.
  Proof. rewrite !grun_has. apply added_sent. Qed.
  Lemma has_sent_only d' p : has_id (grun os') (f p) d' -> exists d, d' = e d /\ has_id (grun os) p d.
  Proof.
    intros X. pose proof X as Y. apply grun_has in X. apply added_sent in X as (d & ->). exists d. split; [reflexivity|]. apply has_sent, Y.
  Qed.

  Lemma is_set_map s : is_set s -> is_set (map e s).
  Proof.
    unfold is_set. induction 1 as [|d s S IH Hd]; constructor; [exact IH|].
    rewrite Forall_forall in *. intros x Hx. apply in_map_iff in Hx as (y & <- & Hy). rewrite Ke. apply Hd, Hy.
  Qed.

  Lemma ids_sent p : alike (fun s s' => s' = map e s) (identifiers_at_point (grun os) p) (identifiers_at_point (grun os') (f p)).
  Proof.
    destruct (ids_maps (grun os) p (grun_GWF os)) as (s & Es & Ms & Ss).
    destruct (ids_maps (grun os') (f p) (grun_GWF os')) as (s' & Es' & Ms' & Ss').
    rewrite Es, Es'. cbn. apply set_ext; [exact Ss'|apply is_set_map, Ss|].
    intros d'. rewrite <- (has_id_in (grun os') (f p) s' d' (grun_GWF os') Ms'), in_map_iff. split.
    - intros X. apply has_sent_only in X as (d & -> & X). exists d. split; [reflexivity|].
      apply (has_id_in (grun os) p s d (grun_GWF os) Ms), X.
    - intros (d & <- & Hd). apply has_sent. apply (has_id_in (grun os) p s d (grun_GWF os) Ms), Hd.
  Qed.

  Lemma has_equal (g : Gqdit L E) x y d : GWF g -> cmp x y = Eq -> has_id g x d -> has_id g y d.
  Proof.
    intros G C X. apply has_id_iff in X; [|exact G]. apply has_id_iff; [exact G|]. destruct X as (s & (k & Hk & Hc) & Hd).
    exists s. split; [|exact Hd]. exists k. split; [exact Hk|]. apply rk_eq in C. apply covers_rk in Hc. apply covers_rk. lia.
  Qed.

  (** ** Maximal runs *)
  Context (Rf : reaches_all f).
  Section Runs.
    Context (P : I -> Prop) (P' : J -> Prop) (PP : forall p, P' (f p) <-> P p) (PE : forall x y, cmp x y = Eq -> P' x -> P' y).

    Definition pull (q : Interval J) (i : Interval I) : Prop := ends_sent f i q.
    Lemma pull_ex q : exists i, pull q i.
    Proof. destruct (Rf (istart q)) as (x & Hx), (Rf (iend q)) as (y & Hy). exists (mkInterval x y). split; assumption. Qed.

    Lemma all_sent {Q R} {IQ : InclusiveInterval I Q} {IR : InclusiveInterval J R} (q : Q) (r : R) : ends_sent f q r ->
      ((forall p, covers r p -> P' p) <-> (forall p, covers q p -> P p)).
    Proof.
      intros C. split; intros X p Hp.
      - apply PP, X, (covers_sent q r p C), Hp.
      - destruct (Rf p) as (x & Hx). apply (PE (f x) p); [apply rk_eq; apply rk_eq in Hx; lia|]. apply PP, X, (covers_sent q r x C).
        apply covers_rk. apply covers_rk in Hp. apply rk_eq in Hx. lia.
    Qed.
    Lemma overlap_sent {Q R A B} {IQ : InclusiveInterval I Q} {IR : InclusiveInterval J R} {IA : InclusiveInterval I A} {IB : InclusiveInterval J B}
      (q : Q) (r : R) (a : A) (b : B) : ends_sent f q r -> ends_sent f a b -> (overlap r b <-> overlap q a).
    Proof.
      intros C C'. split; intros (p & X & Y).
      - destruct (Rf p) as (x & Hx). apply rk_eq in Hx. exists x.
        split; [apply (covers_sent q r x C)|apply (covers_sent a b x C')]; apply covers_rk; [apply covers_rk in X|apply covers_rk in Y]; lia.
      - exists (f p). split; [apply (covers_sent q r p C), X|apply (covers_sent a b p C'), Y].
    Qed.
    Lemma sub_sent {Q R A B} {IQ : InclusiveInterval I Q} {IR : InclusiveInterval J R} {IA : InclusiveInterval I A} {IB : InclusiveInterval J B}
      (q : Q) (r : R) (a : A) (b : B) : ends_sent f q r -> ends_sent f a b ->
      ((forall p, covers r p -> covers b p) <-> (forall p, covers q p -> covers a p)).
    Proof.
      intros C C'. split; intros X p Hp.
      - apply (covers_sent a b p C'), X, (covers_sent q r p C), Hp.
      - destruct (Rf p) as (x & Hx). apply rk_eq in Hx.
        assert (Y : covers b (f x)).
        { apply (covers_sent a b x C'), X, (covers_sent q r x C). apply covers_rk. apply covers_rk in Hp. lia. }
        apply covers_rk in Y. apply covers_rk. lia.
    Qed.
    Lemma max_run_sent {Q R} {IQ : InclusiveInterval I Q} {IR : InclusiveInterval J R} (q : Q) (r : R) : ends_sent f q r ->
      (max_run P' r <-> max_run P q).
    Proof.
      intros C. unfold max_run. rewrite (valid_sent q r C), (all_sent q r C). split; intros (V & A & M); (split; [exact V|split; [exact A|]]).
      - intros j Hj Ho. set (i := mkInterval (f (istart j)) (f (iend j)) : Interval J).
        assert (Ci : ends_sent f j i) by (split; cbn; rewrite Kf; apply rk_eq; reflexivity).
        apply (sub_sent j i q r Ci C), M; [apply (all_sent j i Ci), Hj|apply (overlap_sent q r j i C Ci), Ho].
      - intros j Hj Ho. destruct (pull_ex j) as (i & Ci). red in Ci.
        apply (sub_sent i j q r Ci C), M; [apply (all_sent i j Ci), Hj|apply (overlap_sent q r i j C Ci), Ho].
    Qed.

    Lemma runs_sent {A B Q R} {IA : InclusiveInterval I A} {IB : InclusiveInterval J B} {IQ : InclusiveInterval I Q} {IR : InclusiveInterval J R}
      (q : Q) (r : R) (l : list A) (l' : list B) : ends_sent f q r ->
      lists_max_runs P (fun j => overlap j q) l -> lists_max_runs P' (fun j => overlap j r) l' -> Forall2 (ends_sent f) l l'.
    Proof.
      intros C (S & X & M) T. set (h := fun a : A => mkInterval (f (istart a)) (f (iend a)) : Interval J).
      assert (Ch : forall a, ends_sent f a (h a)) by (intros a; split; cbn; rewrite Kf; apply rk_eq; reflexivity).
      assert (N : lists_max_runs P' (fun j => overlap j r) (map h l)).
      { split; [|split].
        - clear - S Kf Rf Ch PL PLJ. unfold ascending in *. induction S as [|a l S IH Ha]; cbn; constructor; [exact IH|].
          rewrite Forall_forall in *. intros x Hx. apply in_map_iff in Hx as (y & <- & Hy). specialize (Ha y Hy).
          intros u v Hu Hv. destruct (Rf u) as (u' & Eu), (Rf v) as (v' & Ev). apply rk_eq in Eu, Ev.
          apply plt_rk. rewrite Eu, Ev. apply plt_rk. apply lt_sent. apply Ha.
          + apply (covers_sent a (h a) u' (Ch a)). apply covers_rk. apply covers_rk in Hu. lia.
          + apply (covers_sent y (h y) v' (Ch y)). apply covers_rk. apply covers_rk in Hv. lia.
        - intros g Hg. apply in_map_iff in Hg as (a & <- & Ha). destruct (X a Ha) as [Xa Xs]. split; [apply (max_run_sent a (h a) (Ch a)), Xa|].
          change (overlap (h a) r).
          assert (Ca : ends_sent f (mkInterval (istart a) (iend a) : Interval I) (h a)) by (split; apply (Ch a)).
          apply (overlap_sent _ (h a) q r Ca C), Xs.
        - intros j Hj Hs. destruct (pull_ex j) as (i & Ci). red in Ci.
          destruct (M i) as (a & Ha & Sa); [apply (max_run_sent i j Ci), Hj|apply (overlap_sent i j q r Ci C), Hs|].
          exists (h a). split; [apply in_map, Ha|]. intros p.
          pose proof (proj2 (sub_sent a (h a) i j (Ch a) Ci) (fun z => proj1 (Sa z)) p).
          pose proof (proj2 (sub_sent i j a (h a) Ci (Ch a)) (fun z => proj2 (Sa z)) p). tauto. }
      pose proof (lists_unique P' P' _ _ _ (fun p => iff_refl _) N T) as U.
      assert (Va : Forall valid (map h l)) by (apply Forall_forall; intros x Hx; apply N, Hx).
      assert (Vb : Forall valid l') by (apply Forall_forall; intros x Hx; apply T, Hx).
      clear - U Va Vb PLJ. revert l' U Vb. induction l as [|a l IH]; intros l' U Vb; inversion U as [|? b ? l'' Sb U']; subst; constructor.
      - apply Forall_cons_iff in Va, Vb. destruct Va as [Va _], Vb as [Vb _].
        apply same_points_rk in Sb; [|apply valid_rk; assumption..]. unfold lo, hi in Sb. split; apply rk_eq; cbn in *; lia.
      - apply Forall_cons_iff in Va, Vb. apply IH; tauto.
    Qed.
  End Runs.

  Lemma free_sent p : free (grun os') (f p) <-> free (grun os) p.
  Proof.
    split; intros X d Y; [apply (X (e d)), has_sent, Y|]. apply has_sent_only in Y as (d' & -> & Y). apply (X d' Y).
  Qed.
  Lemma free_but_sent d p : free_but (e d) (grun os') (f p) <-> free_but d (grun os) p.
  Proof.
    split; intros X d' Y; [apply e_inj, X, has_sent, Y|]. apply has_sent_only in Y as (d2 & -> & Y). f_equal. apply X, Y.
  Qed.

  Lemma gaps_no_sent {Q R} {IQ : InclusiveInterval I Q} {IR : InclusiveInterval J R} (q : Q) (r : R) : ends_sent f q r ->
    alike (Forall2 (ends_sent f)) (gaps_no_identifier (grun os) q) (gaps_no_identifier (grun os') r).
  Proof.
    intros C. destruct (valid_dec q) as [V|V].
    - pose proof (proj2 (valid_sent q r C) V) as V'.
      destruct (gaps_no_spec (grun os) q (grun_GWF os) V) as (l & -> & T). destruct (gaps_no_spec (grun os') r (grun_GWF os') V') as (l' & -> & T').
      cbn. refine (runs_sent (free (grun os)) (free (grun os')) free_sent _ q r l l' C T T').
      intros x y X Y d Z. apply (Y d). apply (has_equal _ y x d (grun_GWF os')); [apply rk_eq; apply rk_eq in X; lia|exact Z].
    - assert (V' : ~ valid r) by (intros X; apply V, (valid_sent q r C), X).
      rewrite gaps_no_bad, gaps_no_bad by assumption. exact Logic.I.
  Qed.
  Lemma gaps_with_sent {Q R} {IQ : InclusiveInterval I Q} {IR : InclusiveInterval J R} d (q : Q) (r : R) : ends_sent f q r ->
    alike (Forall2 (ends_sent f)) (gaps_with_identifier (grun os) d q) (gaps_with_identifier (grun os') (e d) r).
  Proof.
    intros C. destruct (valid_dec q) as [V|V].
    - pose proof (proj2 (valid_sent q r C) V) as V'.
      destruct (gaps_with_spec (grun os) d q (grun_GWF os) V) as (l & -> & T). destruct (gaps_with_spec (grun os') (e d) r (grun_GWF os') V') as (l' & -> & T').
      cbn. refine (runs_sent (free_but d (grun os)) (free_but (e d) (grun os')) (free_but_sent d) _ q r l l' C T T').
      intros x y X Y d' Z. apply (Y d'). apply (has_equal _ y x d' (grun_GWF os')); [apply rk_eq; apply rk_eq in X; lia|exact Z].
    - assert (V' : ~ valid r) by (intros X; apply V, (valid_sent q r C), X).
      rewrite gaps_with_bad, gaps_with_bad by assumption. exact Logic.I.
  Qed.

  (** ** Entries *)
  Lemma maps_sent p s : maps_to (grun os') (f p) (map e s) <-> maps_to (grun os) p s.
  Proof.
    pose proof (ids_sent p) as A. destruct (ids_maps (grun os) p (grun_GWF os)) as (u & Eu & Mu & _).
    destruct (ids_maps (grun os') (f p) (grun_GWF os')) as (u' & Eu' & Mu' & _). rewrite Eu, Eu' in A. cbn in A. subst u'.
    pose proof (grun_GWF os) as [(W & _) _]. pose proof (grun_GWF os') as [(W' & _) _]. split; intros X.
    - assert (Y : map e s = map e u) by (apply (maps_to_fun (grun os') (f p)); assumption).
      replace s with u; [exact Mu|]. clear - Y Ke OL OLE. revert u Y. induction s as [|d s IH]; intros [|x u] Y; try discriminate; [reflexivity|].
      cbn in Y. injection Y as Y1 Y2. f_equal; [symmetry; apply e_inj, Y1|apply IH, Y2].
    - replace s with u; [exact Mu'|]. apply (maps_to_fun (grun os) p); assumption.
  Qed.
  Lemma maps_equal x y t : cmp x y = Eq -> maps_to (grun os') x t -> maps_to (grun os') y t.
  Proof.
    intros C (k & Hk & Hc). exists k. split; [exact Hk|]. apply rk_eq in C. apply covers_rk in Hc. apply covers_rk. lia.
  Qed.
  Lemma runs_agree {A B} {IA : InclusiveInterval J A} {IB : InclusiveInterval J B} (P : J -> Prop) (a : A) (b : B) :
    max_run P a -> max_run P b -> overlap a b -> same_points a b.
  Proof.
    intros (_ & Xa & Ma) (_ & Xb & Mb) (p & Ha & Hb) z. split.
    - intros Hz. apply (Mb (mkInterval (istart a) (iend a))); [exact Xa|exists p; split; [exact Hb|exact Ha]|exact Hz].
    - intros Hz. apply (Ma (mkInterval (istart b) (iend b))); [exact Xb|exists p; split; [exact Ha|exact Hb]|exact Hz].
  Qed.

  Lemma entries_sent : Forall2 (fun x y => ends_sent f (fst x) (fst y) /\ snd y = map e (snd x)) (grun os) (grun os').
  Proof.
    set (h := fun a : K => mkInterval (f (istart a)) (f (iend a)) : Interval J).
    assert (Ch : forall a, ends_sent f a (h a)) by (intros a; split; cbn; rewrite Kf; apply rk_eq; reflexivity).
    pose proof (grun_GWF os) as G. pose proof (grun_GWF os') as G'.
    assert (St : forall k (s : BTreeSet D), In (k, s) (grun os) -> covers k (istart k)).
    { intros k s Hi. apply covers_rk. pose proof (proj1 (valid_rk k) (proj1 (GP_max_run _ _ _ (proj1 G) Hi))). unfold lo, hi in *. lia. }
    assert (St' : forall k (s : BTreeSet E), In (k, s) (grun os') -> covers k (istart k)).
    { intros k s Hi. apply covers_rk. pose proof (proj1 (valid_rk k) (proj1 (GP_max_run _ _ _ (proj1 G') Hi))). unfold lo, hi in *. lia. }
    assert (R : forall k s, In (k, s) (grun os) -> max_run (fun p => maps_to (grun os') p (map e s)) (h k)).
    { intros k s Hi. refine (proj2 (max_run_sent (fun p => maps_to (grun os) p s) _ (fun p => maps_sent p s) _ k (h k) (Ch k)) _).
      - intros x y. apply maps_equal.
      - apply (GP_max_run _ _ _ (proj1 G) Hi). }
    assert (R' : forall l t, In (l, t) (grun os') -> max_run (fun p => maps_to (grun os') p t) l).
    { intros l t Hi. apply (GP_max_run _ _ _ (proj1 G') Hi). }
    assert (AB : forall k s, In (k, s) (grun os) -> exists l, In (l, map e s) (grun os') /\ same_points (h k) l).
    { intros k s Hi. assert (M : maps_to (grun os') (f (istart k)) (map e s)) by (apply maps_sent; exists k; split; [exact Hi|apply (St k s Hi)]).
      destruct M as (l & Hl & Hc). exists l. split; [exact Hl|]. apply (runs_agree _ _ _ (R k s Hi) (R' l _ Hl)).
      exists (f (istart k)). split; [apply (covers_sent k (h k) _ (Ch k)), (St k s Hi)|exact Hc]. }
    assert (BA : forall l t, In (l, t) (grun os') -> exists k s, In (k, s) (grun os) /\ t = map e s /\ same_points (h k) l).
    { intros l t Hi. destruct (Rf (istart l)) as (x & Hx).
      destruct (proj2 G x) as (k & s & Hk & Hc).
      assert (M : maps_to (grun os') (f x) (map e s)) by (apply maps_sent; exists k; auto).
      assert (M' : maps_to (grun os') (f x) t) by (apply (maps_equal (istart l)); [exact Hx|exists l; split; [exact Hi|apply (St' l t Hi)]]).
      assert (E0 : t = map e s) by (apply (maps_to_fun (grun os') (f x)); [apply (proj1 (proj1 G'))|assumption..]).
      exists k, s. split; [exact Hk|]. split; [exact E0|]. subst t. apply (runs_agree _ _ _ (R k s Hk) (R' l _ Hi)).
      exists (f x). split; [apply (covers_sent k (h k) _ (Ch k)), Hc|]. apply covers_rk. apply rk_eq in Hx. pose proof (St' l _ Hi) as Y. apply covers_rk in Y. lia. }
    assert (U : Forall2 same_points (map h (map fst (grun os))) (map fst (grun os'))).
    { apply asc_same.
      - pose proof (proj1 (proj2 (ascending_WF _) (proj1 (proj1 G)))) as S. clear - S Kf Rf Ch PL PLJ.
        unfold ascending in *. induction S as [|a l S IH Ha]; cbn; constructor; [exact IH|].
        rewrite Forall_forall in *. intros x Hx. apply in_map_iff in Hx as (y & <- & Hy). specialize (Ha y Hy).
        intros u v Hu Hv. destruct (Rf u) as (u' & Eu), (Rf v) as (v' & Ev). apply rk_eq in Eu, Ev.
        apply plt_rk. rewrite Eu, Ev. apply plt_rk. apply lt_sent. apply Ha.
        + apply (covers_sent a (h a) u' (Ch a)). apply covers_rk. apply covers_rk in Hu. lia.
        + apply (covers_sent y (h y) v' (Ch y)). apply covers_rk. apply covers_rk in Hv. lia.
      - apply (proj1 (proj2 (ascending_WF _) (proj1 (proj1 G')))).
      - apply Forall_forall. intros x Hx. apply in_map_iff in Hx as (k & <- & Hk). apply in_map_iff in Hk as ([k' s] & <- & Hk). apply (R k' s Hk).
      - apply Forall_forall. intros x Hx. apply in_map_iff in Hx as ([l t] & <- & Hl). apply (R' l t Hl).
      - intros x Hx. apply in_map_iff in Hx as (k & <- & Hk). apply in_map_iff in Hk as ([k' s] & <- & Hk).
        destruct (AB k' s Hk) as (l & Hl & Sl). exists l. split; [apply in_map_iff; exists (l, map e s); auto|exact Sl].
      - intros x Hx. apply in_map_iff in Hx as ([l t] & <- & Hl). destruct (BA l t Hl) as (k & s & Hk & _ & Sk).
        exists (h k). split; [|exact Sk]. apply in_map, in_map_iff. exists (k, s). auto. }
    assert (Z : forall k s l t, In (k, s) (grun os) -> In (l, t) (grun os') -> same_points (h k) l -> ends_sent f k l /\ t = map e s).
    { intros k s l t Hk Hl Sp. split.
      - apply same_points_rk in Sp; [|apply valid_rk; apply (R k s Hk)|apply valid_rk; apply (R' l t Hl)].
        unfold lo, hi in Sp. split; apply rk_eq; cbn in *; lia.
      - apply (maps_to_fun (grun os') (istart l)); [apply (proj1 (proj1 G'))|exists l; split; [exact Hl|apply (St' l t Hl)]|].
        apply (R k s Hk). apply Sp, (St' l t Hl). }
    clear - U Z. revert U Z. generalize (grun os') as m', (grun os) as m. intros m' m. revert m'.
    induction m as [|[k s] m IH]; intros [|[l t] m'] U Z; inversion U; subst; constructor.
    - apply (Z k s l t); [left; reflexivity..|assumption].
    - apply IH; [assumption|]. intros; apply (Z k0 s0 l0 t0); [right; assumption..|assumption].
  Qed.
End Facts.
