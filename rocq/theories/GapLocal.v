(** * GapLocal: gap queries only look at the surroundings of the query. *)
From Coq Require Import List ZArith Bool Lia.
From Verif Require Import Base BTree UtilsModel IntervalModel NoditModel NoditSetModel NoditOps NoditSetOps GqditModel GqditOps LocalOps GapLocalOps
  Spec EqualOps GqditSetsOps InstancesModel Instances PointFacts IntervalFacts NoditFacts NoditQueries NoditGaps NoditMutations NoditMerges NoditInv ListFacts NoditSetFacts NoditSetProofs
  GqditFacts GqditProofs GqditGaps GqditAlgebra GqditSets Local LocalCommute.
Import ListNotations.
Open Scope nat_scope.

Section Facts.
  Context {I : Type} {OI : Ord I} {DI : DiscreteFinite I} {PL : PointLaws I}.
  Context {K : Type} {IK : InclusiveInterval I K} {IL : IntervalLaws I K} {FI : FromInvalid I K}.
  Context {V : Type}.
  Context {Q : Type} {IQ : InclusiveInterval I Q}.
  Implicit Types (m : NoditMap K V) (q : Q).

  (** ** Maximal runs seen through a window *)
  Lemma run_in_window {A} {IA : InclusiveInterval I A} (P P' : I -> Prop) q w (k : A) : valid q -> shows_surroundings P q w ->
    (forall p, covers w p -> (P p <-> P' p)) -> max_run P k -> overlap k q -> max_run P' k.
  Proof.
    intros Vq (Hw & HL & HR) E (Vk & Hk & Mk) (o & Ok & Oq).
    assert (Lk : (forall x, ple (istart w) x) \/ exists x, covers w x /\ ~ P x /\ plt x (istart k)).
    { destruct HL as [HL|(x & Wx & Nx & Hx)]; [left; exact HL|right; exists x]. repeat split; try apply Wx; try exact Nx.
      apply plt_rk. specialize (Hx o Oq). apply ple_rk in Hx. apply covers_rk in Ok.
      destruct (Z.lt_ge_cases (rk x) (lo k)) as [?|G]; [exact H|]. exfalso. apply Nx, Hk, covers_rk. unfold lo, hi in *. lia. }
    assert (Rk : (forall x, ple x (iend w)) \/ exists x, covers w x /\ ~ P x /\ plt (iend k) x).
    { destruct HR as [HR|(x & Wx & Nx & Hx)]; [left; exact HR|right; exists x]. repeat split; try apply Wx; try exact Nx.
      apply plt_rk. specialize (Hx o Oq). apply ple_rk in Hx. apply covers_rk in Ok.
      destruct (Z.lt_ge_cases (hi k) (rk x)) as [?|G]; [exact H|]. exfalso. apply Nx, Hk, covers_rk. unfold lo, hi in *. lia. }
    clear HL HR. assert (Kw : forall p, covers k p -> covers w p).
    { intros p Hp. apply covers_rk in Hp. split.
      - destruct Lk as [L|(x & Wx & _ & L)]; [apply L|]. apply plt_rk in L. apply covers_rk in Wx. apply ple_rk. unfold lo, hi in *. lia.
      - destruct Rk as [L|(x & Wx & _ & L)]; [apply L|]. apply plt_rk in L. apply covers_rk in Wx. apply ple_rk. unfold lo, hi in *. lia. }
    split; [exact Vk|]. split; [intros p Hp; apply E, Hk, Hp; apply Kw, Hp|].
    intros j Hj Ho p Hp. apply (Mk j); [|exact Ho|exact Hp]. clear p Hp. intros p Hp.
    destruct Ho as (o' & Ok' & Oj').
    assert (W : covers w p).
    { apply covers_rk in Hp, Ok', Oj'. split.
      - destruct Lk as [L|(x & Wx & Nx & L)]; [apply L|]. apply plt_rk in L. apply ple_rk.
        destruct (Z.lt_ge_cases (rk p) (rk x)) as [G|G]; [|apply covers_rk in Wx; unfold lo, hi in *; lia].
        exfalso. apply Nx, E, Hj; [exact Wx|]. apply covers_rk. unfold lo, hi in *. lia.
      - destruct Rk as [L|(x & Wx & Nx & L)]; [apply L|]. apply plt_rk in L. apply ple_rk.
        destruct (Z.lt_ge_cases (rk x) (rk p)) as [G|G]; [|apply covers_rk in Wx; unfold lo, hi in *; lia].
        exfalso. apply Nx, E, Hj; [exact Wx|]. apply covers_rk. unfold lo, hi in *. lia. }
    apply E, Hj, Hp. exact W.
  Qed.
  Lemma shows_ext (P P' : I -> Prop) q w : (forall p, covers w p -> (P p <-> P' p)) -> shows_surroundings P q w -> shows_surroundings P' q w.
  Proof.
    intros E (Hw & HL & HR). split; [exact Hw|]. split.
    - destruct HL as [HL|(x & Wx & Nx & Hx)]; [left; exact HL|right; exists x]. rewrite <- (E x Wx). auto.
    - destruct HR as [HR|(x & Wx & Nx & Hx)]; [left; exact HR|right; exists x]. rewrite <- (E x Wx). auto.
  Qed.
  Lemma lists_in_window {A B} {IA : InclusiveInterval I A} {IB : InclusiveInterval I B} (P P' : I -> Prop) q w (l : list A) (l' : list B) :
    valid q -> shows_surroundings P q w -> (forall p, covers w p -> (P p <-> P' p)) ->
    lists_max_runs P (fun j => overlap j q) l -> lists_max_runs P' (fun j => overlap j q) l' -> Forall2 same_points l l'.
  Proof.
    intros Vq Hs E (S & F & C) (S' & F' & C').
    assert (E' : forall p, covers w p -> (P' p <-> P p)) by (intros p Hp; symmetry; apply E, Hp).
    apply asc_same; [exact S|exact S'|..].
    - apply Forall_forall. intros a Ha. apply (F a Ha).
    - apply Forall_forall. intros a Ha. apply (F' a Ha).
    - intros a Ha. destruct (F a Ha) as [R Ho].
      destruct (C' (mkInterval (istart a) (iend a))) as (b & Hb & Sb); [|exact Ho|].
      { apply (run_in_window P P' q w _ Vq Hs E); [exact R|exact Ho]. }
      exists b. split; [exact Hb|]. intros p. symmetry. exact (Sb p).
    - intros b Hb. destruct (F' b Hb) as [R Ho].
      destruct (C (mkInterval (istart b) (iend b))) as (a & Ha & Sa); [|exact Ho|].
      { apply (run_in_window P' P q w _ Vq (shows_ext P P' q w E Hs) E'); [exact R|exact Ho]. }
      exists a. split; [exact Ha|]. intros p. exact (Sa p).
  Qed.

  Lemma contains_covered m m' p : WF m -> WF m' -> map_contains_point m p = map_contains_point m' p <-> (covered m p <-> covered m' p).
  Proof.
    intros W W'. destruct (map_contains_point_spec m p W) as (b & -> & Hb), (map_contains_point_spec m' p W') as (b' & -> & Hb').
    split.
    - intros [= <-]. rewrite <- Hb, <- Hb'. reflexivity.
    - intros E. f_equal. destruct b, b'; try reflexivity; intuition congruence.
  Qed.

  (** ** Agreement inside the query *)
  Lemma forall2_sym {A B} (R : A -> B -> Prop) l l' : Forall2 R l l' -> Forall2 (fun b a => R a b) l' l.
  Proof. induction 1; constructor; assumption. Qed.
  Lemma forall2_join {A B C} (R : A -> B -> Prop) (S : B -> C -> Prop) l l' l'' : Forall2 R l l' -> Forall2 S l' l'' ->
    Forall2 (fun a c => exists b, R a b /\ S b c) l l''.
  Proof.
    intros F. revert l''. induction F as [|a b l l' X F IH]; intros l'' G; inversion G; subst; constructor; eauto.
  Qed.
  Lemma forall2_weaken {A B} (R S : A -> B -> Prop) l l' : (forall a b, R a b -> S a b) -> Forall2 R l l' -> Forall2 S l l'.
  Proof. intros X. induction 1; constructor; auto. Qed.
  Lemma gaps_inside m m' q : WF m -> WF m' -> valid q -> (forall p, covers q p -> (covered m p <-> covered m' p)) ->
    map_contains_interval m q = map_contains_interval m' q /\
    exists tl tl' gl gl', gaps_trimmed m q = Val tl /\ gaps_trimmed m' q = Val tl' /\ gaps_untrimmed m q = Val gl /\
      gaps_untrimmed m' q = Val gl' /\ Forall2 same_points tl tl' /\ Forall2 (same_inside q) gl gl'.
  Proof.
    intros W W' Vq E. split.
    - destruct (map_contains_interval_spec m q W Vq (quiet_at_FI m q)) as (b & -> & Hb).
      destruct (map_contains_interval_spec m' q W' Vq (quiet_at_FI m' q)) as (b' & -> & Hb').
      assert (X : b = true <-> b' = true) by (rewrite Hb, Hb'; split; intros X p Hp; apply (E p Hp), X, Hp).
      f_equal. destruct b, b'; try reflexivity; intuition congruence.
    - destruct (gaps_trimmed_untrimmed m q W Vq (quiet_at_FI m q)) as (gl & tl & E1 & E2 & F).
      destruct (gaps_trimmed_untrimmed m' q W' Vq (quiet_at_FI m' q)) as (gl' & tl' & E1' & E2' & F').
      exists tl, tl', gl, gl'. repeat (split; [assumption|]).
      assert (T : Forall2 same_points tl tl').
      { destruct (gaps_trimmed_spec m q W Vq (quiet_at_FI m q)) as (t & X & L). rewrite E2 in X. injection X as <-.
        destruct (gaps_trimmed_spec m' q W' Vq (quiet_at_FI m' q)) as (t' & X' & L'). rewrite E2' in X'. injection X' as <-.
        refine (lists_unique _ _ _ _ _ _ L L'). intros p. split; intros [X Y]; (split; [|exact Y]); intros Z; apply X, (E p Y), Z. }
      split; [exact T|].
      pose proof (forall2_join _ _ _ _ _ (forall2_join _ _ _ _ _ F T) (forall2_sym _ _ _ F')) as J. eapply forall2_weaken; [|exact J].
      intros a b (y & (x & H1 & H2) & H3) p Hp. specialize (H1 p). specialize (H2 p). specialize (H3 p). tauto.
  Qed.

  (** ** What calls do not uncover *)
  Lemma covered_stable m p : WF m -> ~ ~ covered m p -> covered m p.
  Proof. intros W N. destruct (map_contains_point_spec m p W) as ([] & _ & H); [apply H; reflexivity|]. exfalso. apply N. intros X. apply H in X. discriminate. Qed.
  Lemma sub_splits {A} (P : A -> Prop) l l' e : sub (fun x => ~ P x) l l' -> In e l -> In e l' \/ ~ ~ P e.
  Proof. induction 1 as [|x l l' H S IH|x l l' H S IH]; intros X; [destruct X|..]; destruct X as [<-|X]; cbn; [auto| |auto|]; destruct (IH X); auto. Qed.
  Lemma absorbs_keep P k v m m' r p : WF m' -> absorbs P k v m m' r -> covered m p -> covered m' p.
  Proof.
    intros W' (Hr & (l1 & l2 & HS & E) & _) (k' & v' & Hin & Hp). apply covered_stable; [exact W'|]. intros N.
    destruct (sub_splits P _ _ (k', v') HS Hin) as [X|X].
    - apply N. exists k', v'. split; [|exact Hp]. rewrite E. apply in_app_iff in X. apply in_app_iff. cbn. tauto.
    - apply X. intros Y. apply N. exists r, v. split; [rewrite E; apply in_app_iff; cbn; tauto|]. apply Hr. right. exists (k', v'). auto.
  Qed.
  Lemma same_keys_covered m m' p : map fst m = map fst m' -> covered m p -> covered m' p.
  Proof.
    intros E (k & v & Hin & Hp). destruct (same_keys_in m' m (k, v) (eq_sym E) Hin) as ([k' v'] & X & Y). cbn in Y. subst k'.
    exists k, v'. auto.
  Qed.
  Lemma perform_keeps (c : call I K V) m p : WF m -> keeps_outside c -> ~ covers (subject c) p ->
    (covered (fst (perform c m)) p <-> covered m p).
  Proof.
    intros W Hc N. destruct (valid_dec (subject c)) as [Vs|Ns]; [|rewrite (subject_invalid c m Ns); reflexivity]. split.
    { intros (k & v & Hin & Hp). destruct (perform_points c m (k, v) p W Vs Hin Hp) as [X|X]; [exact X|contradiction]. }
    pose proof (perform_WF c m W) as W'. revert W'. destruct c; cbn [subject] in *; cbn [perform answering fst].
    all: try (assert (Vk : valid k) by exact Vs).
    all: try (assert (Vk : valid q) by exact Vs).
    all: try (assert (Np : ~ covers k p) by exact N).
    all: try (assert (Np : ~ covers q p) by exact N).
    - destruct (overlap_dec m k W Vk) as [Ho|Hn].
      + rewrite (insert_strict_refused m k v W Vk Ho). auto.
      + destruct (insert_strict_done m k v W Vk Hn) as (m1 & m2 & -> & -> & _). cbn [fst].
        intros _ (k' & v' & Hin & Hp). exists k', v'. split; [|exact Hp]. rewrite in_app_iff in *. cbn. tauto.
    - destruct (overlap_dec m k W Vk) as [Ho|Hn].
      + rewrite (insert_merge_touching_refused m k v W Vk Ho). auto.
      + destruct (insert_merge_touching_done m k v W Vk Hn) as (m' & r & -> & _ & HA). cbn [fst]. intros W'. exact (absorbs_keep _ _ _ _ _ _ _ W' HA).
    - destruct (overlap_dec m k W Vk) as [Ho|Hn].
      + rewrite (insert_merge_touching_if_equal_refused veq m k v W Vk Ho). auto.
      + destruct (insert_merge_touching_if_equal_done veq m k v W Vk Hn) as (m' & r & -> & _ & HA). cbn [fst]. intros W'. exact (absorbs_keep _ _ _ _ _ _ _ W' HA).
    - destruct (insert_merge_overlapping_spec m k v W Vk) as (m' & r & -> & _ & HA). cbn [fst]. intros W'. exact (absorbs_keep _ _ _ _ _ _ _ W' HA).
    - destruct (insert_merge_touching_or_overlapping_spec m k v W Vk) as (m' & r & -> & _ & HA). cbn [fst]. intros W'. exact (absorbs_keep _ _ _ _ _ _ _ W' HA).
    - destruct (insert_overwrite_spec m k v W Vk) as (m' & out & -> & _ & _ & _ & _ & HP). cbn [fst]. intros _ (k' & v' & Hin & Hp).
      apply (maps_to_covered m' p v'). apply HP. right. split; [exact Np|]. exists k'. auto.
    - destruct Hc.
    - destruct (cut_entries m q W Vk) as (m' & out & -> & _ & _ & _ & _ & HP). cbn [fst]. intros _ (k' & v' & Hin & Hp).
      apply (maps_to_covered m' p v'). apply HP. split; [exists k'; auto|exact Np].
    - destruct (overlapping_mut_spec f q m W Vk) as (m' & -> & HF). cbn [fst]. intros _.
      apply Forall2_fst_keys in HF; [|cbn; tauto]. apply same_keys_covered, HF.
    - auto.
    - auto.
    - destruct (get_at_point_mut_spec f p0 m W) as (m' & o & -> & _ & HF). cbn [fst]. intros _.
      apply Forall2_fst_keys in HF; [|cbn; tauto]. apply same_keys_covered, HF.
    - auto.
    - auto.
  Qed.
End Facts.
