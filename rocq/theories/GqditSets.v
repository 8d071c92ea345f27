(** * GqditSets: a Gqdit is one NoditSet per identifier (used for C100, C101). *)
From Coq Require Import List ZArith Bool Lia ZifyBool Sorting.Sorted.
From Verif Require Import Base BTree UtilsModel IntervalModel NoditModel NoditSetModel NoditOps NoditSetOps GqditModel GqditOps Spec EqualOps GqditSetsOps
  PointFacts IntervalFacts NoditFacts NoditQueries NoditInv NoditGaps NoditSetFacts NoditSetProofs GqditFacts GqditProofs GqditGaps GqditAlgebra.
Import ListNotations.

Section Facts.
  Context {I : Type} {OI : Ord I} {DI : DiscreteFinite I} {PL : PointLaws I}.
  Context {K : Type} {IK : InclusiveInterval I K} {IL : IntervalLaws I K}.
  Context {D : Type} {OD : Ord D} {OL : OrdLaws D}.
  Implicit Types (d : D) (ids : list D) (o : gop I K D) (os : list (gop I K D)) (s : NoditSet K).

  Lemma is_id_iff d d' : is_id d d' = true <-> d = d'.
  Proof. unfold is_id. rewrite <- cmp_eq. destruct (cmp d d'); split; congruence. Qed.
  Lemma mentions d ids : existsb (is_id d) ids = true <-> In d ids.
  Proof.
    rewrite existsb_exists. split; [intros (x & Hx & E); apply is_id_iff in E; subst x; exact Hx|].
    intros X. exists d. split; [exact X|apply is_id_iff; reflexivity].
  Qed.

  Lemma set_step_WF s (c : set_op I K) : WF s -> WF (set_step s c).
  Proof. intros W. rewrite set_step_map. apply step_WF, W. Qed.
  Lemma insert_step s k p : WF s -> (in_set (set_step s (SInsertMergeTouchingOrOverlapping k)) p <-> in_set s p \/ covers k p).
  Proof.
    intros W. pose proof (set_step_means s (SInsertMergeTouchingOrOverlapping k) W Logic.I) as M.
    inversion M as [| | | |k' P P' X EK| | | |]; subst. apply X.
  Qed.
  Lemma cut_step {Q} {IQ : InclusiveInterval I Q} s (q : Q) p : WF s -> (in_set (set_step s (SCut q)) p <-> in_set s p /\ ~ covers q p).
  Proof.
    intros W. cbn [set_step]. destruct (valid_dec q) as [V|V].
    - destruct (cut_points s q W V) as (s' & out & E & _ & X & _). rewrite E. apply X.
    - assert (E : fst (set_cut q s) = s).
      { unfold set_cut, cut. rewrite (iip_invalid _ V). reflexivity. }
      rewrite E. pose proof (invalid_no_points q V p). tauto.
  Qed.
  Lemma inserts_step ks : forall s, WF s -> WF (fold_left set_step (inserts ks) s) /\
    forall p, in_set (fold_left set_step (inserts ks) s) p <-> in_set s p \/ exists k, In k ks /\ covers k p.
  Proof.
    induction ks as [|k ks IH]; intros s W; cbn [inserts map fold_left].
    - split; [exact W|]. intros p. split; [tauto|]. intros [X|(k & [] & _)]. exact X.
    - destruct (IH (set_step s (SInsertMergeTouchingOrOverlapping k)) (set_step_WF _ _ W)) as [W' M]. split; [exact W'|].
      intros p. unfold inserts in M. rewrite M, insert_step by exact W. split.
      + intros [[X|X]|(k' & Hk & Hc)]; [auto|right; exists k; split; [left; reflexivity|exact X]|right; exists k'; split; [right; exact Hk|exact Hc]].
      + intros [X|(k' & [<-|Hk] & Hc)]; [auto|auto|right; exists k'; auto].
  Qed.
  Lemma new_nothing p : ~ in_set (set_new : NoditSet K) p.
  Proof. intros (k & [] & _). Qed.

  Definition calls_ok d o : Prop := forall s, WF s -> WF (fold_left set_step (set_calls d o) s) /\
    forall p, in_set (fold_left set_step (set_calls d o) s) p <-> adds o d p \/ (in_set s p /\ ~ removes o d p).
  Lemma set_of_ok d os : Forall (calls_ok d) os -> forall p, in_set (set_of os d) p <-> added os d p.
  Proof.
    intros F. enough (X : WF (set_of os d) /\ forall p, in_set (set_of os d) p <-> added os d p) by apply X. revert F.
    unfold set_of, set_run. induction os as [|o os IH] using rev_ind; intros F.
    - split; [exact (set_run_WF [])|]. intros p. split; [intros X; destruct (new_nothing p X)|]. intros X. inversion X as [os1 o1 os2 d1 p1 A1 F1 E]. destruct os1; discriminate E.
    - apply Forall_app in F as [F Fo]. apply Forall_inv in Fo. destruct (IH F) as [W M]. rewrite flat_map_app, fold_left_app. cbn [flat_map].
      rewrite app_nil_r. destruct (Fo _ W) as [W' M']. split; [exact W'|]. intros p. rewrite M', M, added_snoc. reflexivity.
  Qed.
  Lemma calls_ok_all d o : calls_ok d o.
  Proof.
    induction o as [l k|l Q IQ q|Q IQ q|os IH] using gop_rec'; intros s W; cbn [set_calls removes].
    - destruct (existsb (is_id d) l) eqn:E.
      + apply mentions in E. destruct (inserts_step [k] s W) as [W' M]. split; [exact W'|]. intros p. rewrite M. split.
        * intros [X|(k' & [<-|[]] & Hc)]; [tauto|left; constructor; assumption].
        * intros [X|[X _]]; [|auto]. inversion X; subst. right. exists k. split; [left; reflexivity|assumption].
      + split; [exact W|]. intros p. cbn. split; [tauto|]. intros [X|[X _]]; [|exact X]. inversion X; subst.
        exfalso. assert (Y : existsb (is_id d) l = true) by (apply mentions; assumption). congruence.
    - destruct (existsb (is_id d) l) eqn:E.
      + apply mentions in E. split; [apply set_step_WF, W|]. intros p. cbn [fold_left]. rewrite cut_step by exact W. split; [tauto|].
        intros [X|[X Y]]; [inversion X|tauto].
      + assert (N : ~ In d l) by (intros X; apply mentions in X; congruence). split; [exact W|]. intros p. cbn. split; [tauto|].
        intros [X|[X _]]; [inversion X|exact X].
    - split; [apply set_step_WF, W|]. intros p. cbn [fold_left]. rewrite cut_step by exact W. split; [tauto|]. intros [X|X]; [inversion X|exact X].
    - pose proof (set_of_ok d os IH) as M2. destruct (inserts_step (set_iter (set_of os d)) s W) as [W' M]. split; [exact W'|].
      intros p. unfold set_of in M. rewrite M. fold (set_of os d). fold (in_set (set_of os d) p). rewrite M2. split.
      + intros [X|X]; [tauto|left; constructor; exact X].
      + intros [X|[X _]]; [|auto]. inversion X; subst. auto.
  Qed.
  Lemma in_set_of d os p : in_set (set_of os d) p <-> added os d p.
  Proof. apply set_of_ok, Forall_forall. intros o _. apply calls_ok_all. Qed.

  Lemma merging_calls d o : Forall merging (set_calls d o).
  Proof.
    destruct o as [l k|l Q IQ q|Q IQ q|os]; cbn [set_calls].
    - destruct (existsb _ l); repeat constructor.
    - destruct (existsb _ l); repeat constructor.
    - repeat constructor.
    - apply merging_inserts.
  Qed.
  Lemma merging_all d os : Forall merging (flat_map (set_calls d) os).
  Proof. induction os as [|o os IH]; cbn; [constructor|]. apply Forall_app. split; [apply merging_calls|exact IH]. Qed.

  Lemma in_union os ids p : in_set (union_of os ids) p <-> exists d, In d ids /\ added os d p.
  Proof.
    enough (X : WF (union_of os ids) /\ forall p, in_set (union_of os ids) p <-> exists d, In d ids /\ added os d p) by apply X.
    unfold union_of, set_run. induction ids as [|d ids IH] using rev_ind.
    - split; [exact (set_run_WF [])|]. intros z. split; [intros X; destruct (new_nothing z X)|intros (d & [] & _)].
    - destruct IH as [W M]. rewrite flat_map_app, fold_left_app. cbn [flat_map]. rewrite app_nil_r.
      destruct (inserts_step (set_iter (set_of os d)) _ W) as [W' M']. split; [exact W'|]. intros z. rewrite M', M.
      fold (in_set (set_of os d) z). rewrite in_set_of. split.
      + intros [(d' & Hd & X)|X]; [exists d'|exists d]; (split; [|exact X]); apply in_app_iff; [auto|right; left; reflexivity].
      + intros (d' & Hd & X). apply in_app_iff in Hd as [Hd|[<-|[]]]; [left; exists d'; auto|auto].
  Qed.
  Lemma added_mentioned d p : forall os, added os d p -> In d (flat_map ids_in os).
  Proof.
    assert (S : forall o, adds o d p -> In d (ids_in o)).
    { induction o as [l k|l Q IQ q|Q IQ q|os IH] using gop_rec'; intros X; inversion X as [? ? ? ? Hin Hc|? ? ? Ha]; subst; [exact Hin|].
      cbn. inversion Ha as [os1 o1 os2 d1 p1 A F E]; subst. apply in_flat_map. exists o1.
      assert (Hi : In o1 (os1 ++ o1 :: os2)) by (apply in_app_iff; right; left; reflexivity).
      split; [exact Hi|]. rewrite Forall_forall in IH. apply (IH o1 Hi A). }
    intros os X. inversion X as [os1 o1 os2 d1 p1 A F E]; subst. apply in_flat_map. exists o1. split; [apply in_app_iff; right; left; reflexivity|].
    apply S, A.
  Qed.
  Lemma in_all os p : in_set (all_of os) p <-> exists d, added os d p.
  Proof.
    unfold all_of. rewrite in_union. split; intros (d & X); [exists d; apply X|]. exists d. split; [apply (added_mentioned d p os X)|exact X].
  Qed.
  Lemma in_all_but os d p : in_set (all_but os d) p <-> exists d', d' <> d /\ added os d' p.
  Proof.
    unfold all_but. rewrite in_union. split.
    - intros (d' & Hd & X). exists d'. split; [|exact X]. apply filter_In in Hd as [_ Hd]. intros ->.
      rewrite (proj2 (is_id_iff d d) eq_refl) in Hd. discriminate.
    - intros (d' & N & X). exists d'. split; [|exact X]. apply filter_In. split; [apply (added_mentioned d' p os X)|].
      destruct (is_id d d') eqn:E; [|reflexivity]. apply is_id_iff in E. congruence.
  Qed.

  Context {FI : FromInvalid I K}.
  Lemma free_all os p : ~ covered (all_of os) p <-> free (grun os) p.
  Proof.
    rewrite <- in_set_covered, in_all. unfold free. split.
    - intros X d Y. apply X. exists d. apply grun_has, Y.
    - intros X (d & Y). apply (X d), grun_has, Y.
  Qed.
  Lemma free_all_but os d p : ~ covered (all_but os d) p <-> free_but d (grun os) p.
  Proof.
    rewrite <- in_set_covered, in_all_but. unfold free_but. split.
    - intros X d' Y. destruct (is_id d' d) eqn:E; [apply is_id_iff, E|]. exfalso. apply X. exists d'. split; [|apply grun_has, Y].
      intros ->. rewrite (proj2 (is_id_iff d d) eq_refl) in E. discriminate.
    - intros X (d' & N & Y). apply N, X, grun_has, Y.
  Qed.
  Lemma gaps_match {Q} {IQ : InclusiveInterval I Q} s (q : Q) (P : I -> Prop) (gl : list K) : WF s -> valid q -> (forall p, ~ covered s p <-> P p) ->
    lists_max_runs P (fun j => overlap j q) gl -> exists gl', set_gaps_untrimmed s q = Val gl' /\ Forall2 same_points gl gl'.
  Proof.
    intros W V E L. destruct (gaps_untrimmed_spec s q W V (quiet_at_FI s q)) as (gl' & E' & L'). exists gl'. split; [exact E'|].
    apply (lists_unique P (fun p => ~ covered s p) (fun j => overlap j q)); [intros p; symmetry; apply E|exact L|exact L'].
  Qed.
  Lemma union_WF os ids : WF (union_of os ids).
  Proof. apply set_run_WF. Qed.
End Facts.
