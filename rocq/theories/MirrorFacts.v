(** * MirrorFacts: the documented effects seen from the other side (C145). *)
From Coq Require Import List Bool Sorting.Sorted.
From Verif Require Import Base BTree UtilsModel IntervalModel NoditModel NoditSetModel GqditModel GqditOps Spec CompleteOps ClientOps ClientSetOps ClientGqditOps MirrorOps
  PointFacts IntervalFacts ListFacts.
Import ListNotations.

(** ** The reversed points and mirrored intervals are points and intervals. *)
Section Laws.
  Context {I : Type} `{PL : PointLaws I}.
  #[export] Instance reversed_preorder : TotalPreorder (reversed I).
  Proof.
    split.
    - intros x. cbn. apply cmp_same.
    - intros x y. cbn. apply cmp_flip.
    - intros x y z A B. cbn in *. exact (cmp_le_trans (unreverse z) (unreverse y) (unreverse x) B A).
  Qed.
  #[export] Instance reversed_points : PointLaws (reversed I).
  Proof.
    unshelve econstructor.
    - exact (map Reverse points).
    - apply reversed_preorder.
    - intros x. exact (max_greatest (unreverse x)).
    - intros x. exact (min_least (unreverse x)).
    - intros [x] y E. cbn in E. destruct (down x) as [d|] eqn:Ed; [|discriminate]. injection E as <-. destruct (down_some x d Ed) as [A B].
      split; [exact A|]. intros [z] C. exact (B z C).
    - intros [x] E. cbn in E. destruct (down x) eqn:Ed; [discriminate|]. intros [z]. exact (down_none x Ed z).
    - intros [x] y E. cbn in E. destruct (up x) as [d|] eqn:Ed; [|discriminate]. injection E as <-. destruct (up_some x d Ed) as [A B].
      split; [exact A|]. intros [z] C. exact (B z C).
    - intros [x] E. cbn in E. destruct (up x) eqn:Ed; [discriminate|]. intros [z]. exact (up_none x Ed z).
    - intros [x]. destruct (points_all x) as (y & A & B). exists (Reverse y). split; [apply in_map, A|]. cbn. rewrite cmp_flip, B. reflexivity.
  Qed.
  Context {K : Type} {IK : InclusiveInterval I K}.
  #[export] Instance mirrored_laws {IL : IntervalLaws I K} : IntervalLaws (reversed I) (mirrored K).
  Proof.
    split. intros [[a] [b]] L. cbn in *. destruct (from_valid (K := K) (mkInterval b a) L) as [A B]. cbn in A, B.
    split; rewrite cmp_flip; [rewrite B|rewrite A]; reflexivity.
  Qed.
  #[export] Instance mirrored_from_invalid {FI : FromInvalid I K} : FromInvalid (reversed I) (mirrored K).
  Proof. split. intros [[a] [b]] L. exact (from_invalid (K := K) (mkInterval b a) L). Qed.
End Laws.
#[export] Instance reversed_OrdLaws (I : Type) `{OrdLaws I} : OrdLaws (reversed I).
Proof.
  split.
  - intros [x] [y]. cbn. rewrite cmp_eq. split; congruence.
  - intros [x] [y]. cbn. apply cmp_opp.
  - intros [x] [y] [z] A B. cbn in *. exact (cmp_trans z y x B A).
Qed.

(** ** The vocabulary of [Spec] *)
Section Vocabulary.
  Context {I : Type} `{PL : PointLaws I}.
  Context {K : Type} {IK : InclusiveInterval I K}.
  Context {Q : Type} {IQ : InclusiveInterval I Q}.

  Lemma covers_m {A} {IA : InclusiveInterval I A} (k : mirrored A) p : covers k p <-> covers (unmirror k) (unreverse p).
  Proof. unfold covers, ple. cbn. tauto. Qed.
  Lemma valid_m {A} {IA : InclusiveInterval I A} (k : mirrored A) : valid k <-> valid (unmirror k).
  Proof. split; [intros (p & C); exists (unreverse p); apply covers_m, C|intros (p & C); exists (Reverse p); apply covers_m, C]. Qed.
  Lemma overlap_m {A B} {IA : InclusiveInterval I A} {IB : InclusiveInterval I B} (a : mirrored A) (b : mirrored B) :
    overlap a b <-> overlap (unmirror a) (unmirror b).
  Proof.
    split; intros (p & C & C').
    - exists (unreverse p). rewrite <- !covers_m. auto.
    - exists (Reverse p). rewrite !covers_m. auto.
  Qed.
  Lemma before_m {A B} {IA : InclusiveInterval I A} {IB : InclusiveInterval I B} (a : mirrored A) (b : mirrored B) :
    before a b <-> before (unmirror b) (unmirror a).
  Proof.
    split.
    - intros X x y Cx Cy. apply (X (Reverse y) (Reverse x)); apply covers_m; assumption.
    - intros X x y Cx Cy. apply (X (unreverse y) (unreverse x)); apply covers_m; assumption.
  Qed.
  Lemma between_m {A B} {IA : InclusiveInterval I A} {IB : InclusiveInterval I B} (a : mirrored A) (b : mirrored B) p :
    between a b p <-> between (unmirror b) (unmirror a) (unreverse p).
  Proof.
    unfold between. split; intros [X Y].
    - split; [intros x C; apply (Y (Reverse x)), covers_m, C|intros x C; apply (X (Reverse x)), covers_m, C].
    - split; [intros x C; apply (Y (unreverse x)), covers_m, C|intros x C; apply (X (unreverse x)), covers_m, C].
  Qed.
  Lemma touch_m {A B} {IA : InclusiveInterval I A} {IB : InclusiveInterval I B} (a : mirrored A) (b : mirrored B) :
    touch a b <-> touch (unmirror a) (unmirror b).
  Proof.
    unfold touch. rewrite overlap_m. apply and_iff_compat_l. split; intros X p.
    - specialize (X (Reverse p)). rewrite !between_m in X. cbn in X. tauto.
    - specialize (X (unreverse p)). rewrite !between_m. tauto.
  Qed.
  Lemma max_run_m {A} {IA : InclusiveInterval I A} (P : reversed I -> Prop) (P' : I -> Prop) (g : mirrored A) : (forall p, P' p <-> P (Reverse p)) ->
    max_run P g <-> max_run P' (unmirror g).
  Proof.
    intros HP. assert (HP' : forall p, P p <-> P' (unreverse p)) by (intros [p]; symmetry; apply HP).
    unfold max_run. rewrite valid_m. apply and_iff_compat_l. split.
    - intros [X B]. split; [intros p C; apply HP, X, covers_m, C|]. intros [a b] Hj (x & Cx & Cx') p Cp.
      apply (covers_m g (Reverse p)). apply (B (mkInterval (Reverse b) (Reverse a))).
      + intros [y] [C1 C2]. apply HP, Hj. split; assumption.
      + exists (Reverse x). split; [apply covers_m, Cx|]. destruct Cx'. split; assumption.
      + destruct Cp. split; assumption.
    - intros [X B]. split; [intros p C; apply HP', X, covers_m, C|]. intros [a b] Hj (x & Cx & Cx') p Cp.
      apply covers_m. apply (B (mkInterval (unreverse b) (unreverse a))).
      + intros y [C1 C2]. apply HP, Hj. split; assumption.
      + exists (unreverse x). split; [apply covers_m, Cx|]. destruct Cx'. split; assumption.
      + destruct Cp. split; assumption.
  Qed.
  Lemma SS_rev {A} (R : A -> A -> Prop) l : StronglySorted R l -> StronglySorted (fun x y => R y x) (rev l).
  Proof.
    induction 1 as [|a l S IH F]; cbn [rev]; [constructor|]. apply SS_app. split; [exact IH|]. split; [apply SS_one|].
    intros x y Hx [<-|[]]. rewrite Forall_forall in F. apply F, in_rev, Hx.
  Qed.
  Lemma ascending_m (l : list (mirrored K)) : ascending l -> ascending (backwards_keys l).
  Proof.
    unfold ascending, backwards_keys. intros S. rewrite <- map_rev. apply SS_map. apply SS_rev in S.
    eapply (SS_impl (fun _ => True)); [|apply Forall_forall; auto|exact S]. intros x y _ _. apply before_m.
  Qed.
  Lemma in_keys (l : list (mirrored K)) k : In k (backwards_keys l) <-> In (Mirror k) l.
  Proof.
    unfold backwards_keys. rewrite <- in_rev, in_map_iff. split; [intros ([k'] & <- & X); exact X|intros X; exists (Mirror k); auto].
  Qed.
  Lemma in_backwards {V} (l : list (mirrored K * V)) e : In e (backwards l) <-> In (Mirror (fst e), snd e) l.
  Proof.
    unfold backwards. rewrite <- in_rev, in_map_iff. split; [intros ([[k] v] & <- & X); exact X|intros X; exists (Mirror (fst e), snd e); destruct e; auto].
  Qed.
  Lemma keys_backwards {V} (l : list (mirrored K * V)) : map fst (backwards l) = backwards_keys (map fst l).
  Proof. unfold backwards, backwards_keys. rewrite map_rev, !map_map. reflexivity. Qed.
  Lemma valid_keys_m (l : list (mirrored K)) : Forall valid l -> Forall valid (backwards_keys l).
  Proof. rewrite !Forall_forall. intros F k X. apply in_keys, F, valid_m in X. exact X. Qed.
  Lemma max_runs_m (P : reversed I -> Prop) (P' : I -> Prop) sel sel' (l : list (mirrored K)) : (forall p, P' p <-> P (Reverse p)) ->
    (forall a b, sel' (mkInterval a b) <-> sel (mkInterval (Reverse b) (Reverse a))) ->
    lists_max_runs P sel l -> lists_max_runs P' sel' (backwards_keys l).
  Proof.
    intros HP Hsel (A & B & C). split; [apply ascending_m, A|]. split.
    - intros k X. apply in_keys in X. destruct (B _ X) as [M S]. split; [apply (max_run_m P P' (Mirror k) HP), M|apply Hsel, S].
    - intros [a b] M S.
      assert (M' : max_run P (mkInterval (Reverse b) (Reverse a))).
      { assert (X : forall p, covers (mkInterval (Reverse b) (Reverse a)) p <-> covers (mkInterval a b) (unreverse p)).
        { intros p. unfold covers, ple. cbn. tauto. }
        destruct (proj2 (max_run_m P P' (Mirror (mkInterval a b)) HP) M) as (M1 & M2 & M3).
        assert (Y : forall p, covers (Mirror (mkInterval a b)) p <-> covers (mkInterval (Reverse b) (Reverse a)) p).
        { intros p. rewrite X, covers_m. reflexivity. }
        split; [destruct M1 as (p & Cp); exists p; apply Y, Cp|]. split; [intros p Cp; apply M2, Y, Cp|].
        intros j Hj (x & Cx & Cx') p Cp. apply Y. apply (M3 j Hj); [|exact Cp]. exists x. split; [apply Y, Cx|exact Cx']. }
      destruct (C _ M' (proj1 (Hsel a b) S)) as (g & Hg & Sg). exists (unmirror g). split; [apply in_keys; destruct g; exact Hg|].
      intros p. specialize (Sg (Reverse p)). rewrite covers_m in Sg. cbn [unreverse] in Sg. rewrite Sg. unfold covers, ple. cbn. tauto.
  Qed.
  Lemma sub_rev {A B} (f : A -> B) (P : A -> Prop) (P' : B -> Prop) l l' : (forall x, P' (f x) <-> P x) -> sub P l l' -> sub P' (rev (map f l)) (rev (map f l')).
  Proof.
    intros HP S. induction S as [|x l l' Hx S IH|x l l' Hx S IH]; cbn [map rev]; [constructor| |].
    - apply sub_app; [exact IH|]. constructor; [apply HP, Hx|constructor].
    - rewrite <- (app_nil_r (rev (map f l'))). apply sub_app; [exact IH|]. constructor; [rewrite HP; exact Hx|constructor].
  Qed.
  Lemma Forall2_rev_map {A B A' B'} (f : A -> A') (g : B -> B') (R : A -> B -> Prop) (R' : A' -> B' -> Prop) l l' :
    (forall a b, R a b -> R' (f a) (g b)) -> Forall2 R l l' -> Forall2 R' (rev (map f l)) (rev (map g l')).
  Proof.
    intros HR F. induction F as [|a b l l' Hab F IH]; cbn [map rev]; [constructor|]. apply Forall2_app; [exact IH|]. constructor; [apply HR, Hab|constructor].
  Qed.
  Lemma determined_m : determined_by_points I K -> determined_by_points (reversed I) (mirrored K).
  Proof.
    intros D [a] [b] Va S. f_equal. apply D; [apply valid_m in Va; exact Va|]. intros p. specialize (S (Reverse p)).
    rewrite !covers_m in S. exact S.
  Qed.
End Vocabulary.

(** ** The documented effects *)
Section Documented.
  Context {I : Type} `{PL : PointLaws I}.
  Context {K : Type} {IK : InclusiveInterval I K}.
  Context {V : Type}.
  Implicit Types m : list (mirrored K * V).

  Lemma covered_m m p : covered (backwards m) p <-> covered m (Reverse p).
  Proof.
    split.
    - intros (k & v & X & C). apply in_backwards in X. exists (Mirror k), v. split; [exact X|]. apply covers_m, C.
    - intros ([k] & v & X & C). exists k, v. split; [apply in_backwards, X|]. apply covers_m in C. exact C.
  Qed.
  Lemma maps_to_m m p v : maps_to (backwards m) p v <-> maps_to m (Reverse p) v.
  Proof.
    split.
    - intros (k & X & C). apply in_backwards in X. exists (Mirror k). split; [exact X|]. apply covers_m, C.
    - intros ([k] & X & C). exists k. split; [apply in_backwards, X|]. apply covers_m in C. exact C.
  Qed.
  Lemma clash_m {Q} {IQ : InclusiveInterval I Q} (q : Q) m : clash q (backwards m) <-> clash (Mirror q) m.
  Proof.
    split.
    - intros (e & X & C). apply in_backwards in X. eexists. split; [exact X|]. apply overlap_m, C.
    - intros ([[k] v] & X & C). exists (k, v). split; [apply in_backwards, X|]. apply overlap_m in C. exact C.
  Qed.
  Lemma answers_m {Q A B} {IQ : InclusiveInterval I Q} (q : Q) (o : outcome A) (f : A -> B) (right : A -> Prop) (right' : B -> Prop) :
    (forall a, right a -> right' (f a)) -> answers (Mirror q) o right -> answers q (omap f o) right'.
  Proof.
    intros HR [X Y]. split.
    - intros Vq. destruct (X (proj2 (valid_m (Mirror q)) Vq)) as (a & -> & R). exists (f a). split; [reflexivity|apply HR, R].
    - intros N. rewrite Y; [reflexivity|]. intros Vq. apply N, (proj1 (valid_m (Mirror q)) Vq).
  Qed.
  Lemma omap_id {A} (o : outcome A) : omap (fun a => a) o = o.
  Proof. destruct o; reflexivity. Qed.
  Lemma changes_m {Q A B} {IQ : InclusiveInterval I Q} (q : Q) m m' (o : outcome A) (f : A -> B) (right : list (mirrored K * V) -> A -> Prop) (right' : list (K * V) -> B -> Prop) :
    (forall a, right m' a -> right' (backwards m') (f a)) -> changes (Mirror q) m (m', o) right -> changes q (backwards m) (backwards m', omap f o) right'.
  Proof.
    intros HR [X Y]. split.
    - intros Vq. destruct (X (proj2 (valid_m (Mirror q)) Vq)) as (m1 & a & E & F & S & R). injection E as <- ->.
      exists (backwards m'), (f a). split; [reflexivity|]. rewrite keys_backwards. split; [apply valid_keys_m, F|]. split; [apply ascending_m, S|]. apply HR, R.
    - intros N. assert (N' : ~ valid (Mirror q)) by (intros Vq; apply N, (proj1 (valid_m (Mirror q)) Vq)). specialize (Y N').
      injection Y as -> ->. reflexivity.
  Qed.
  Lemma left_over_m {Q} {IQ : InclusiveInterval I Q} (q : Q) m e : left_over q (backwards m) e <-> left_over (Mirror q) m (Mirror (fst e), snd e).
  Proof.
    assert (X : forall k p, covers k p /\ ~ covers q p <-> covers (Mirror k : mirrored K) (Reverse p) /\ ~ covers (Mirror q) (Reverse p)).
    { intros k p. rewrite !covers_m. reflexivity. }
    split.
    - intros (k & A & B). exists (Mirror k). apply in_backwards in A. split; [exact A|]. exact (proj2 (max_run_m _ _ (Mirror (fst e)) (X k)) B).
    - intros ([k] & A & B). exists k. split; [apply in_backwards, A|]. exact (proj1 (max_run_m _ _ (Mirror (fst e)) (X k)) B).
  Qed.
  Lemma cut_out_m {Q} {IQ : InclusiveInterval I Q} (q : Q) m out : cut_out (Mirror q) m out -> cut_out q (backwards m) (backwards out).
  Proof.
    intros (l & S & F). exists (backwards l). split.
    - apply (sub_rev flip (fun e => overlap (fst e) (Mirror q))); [|exact S]. intros e. symmetry. apply overlap_m.
    - eapply Forall2_rev_map; [|exact F]. intros a b [E C]. split; [exact E|]. intros p. specialize (C (Reverse p)). rewrite !covers_m in C. exact C.
  Qed.
  Lemma merged_m (P : mirrored K * V -> Prop) (P' : K * V -> Prop) k v m m' r : (forall e, P' e <-> P (Mirror (fst e), snd e)) ->
    merged P (Mirror k) v m m' r -> merged P' k v (backwards m) (backwards m') (unmirror r).
  Proof.
    intros HP [A B]. split.
    - intros p. specialize (A (Reverse p)). rewrite !covers_m in A. cbn [unmirror unreverse] in A. rewrite A. apply or_iff_compat_l. split.
      + intros (e & X & Y & Z). exists (flip e). split; [apply in_backwards; destruct e as [[]]; exact X|]. split; [apply HP; destruct e as [[]]; exact Y|].
        apply covers_m in Z. exact Z.
      + intros (e & X & Y & Z). apply in_backwards in X. eexists. split; [exact X|]. split; [apply HP, Y|]. apply covers_m, Z.
    - intros e. rewrite !in_backwards, B, HP. apply or_iff_compat_r. destruct e as [k' v'], r as [r]. cbn. split; intros E; injection E as -> ->; reflexivity.
  Qed.

  Lemma documented_m (c : call I K V) m m' a : documented (mcall c) m m' a -> documented c (backwards m) (backwards m') (manswer c a).
  Proof.
    destruct c as [| | | | |p|p|p|Q IQ q|Q IQ q|Q IQ q|Q IQ q|Q IQ q|f|f p|Q IQ f q|Q IQ q|Q IQ q|k v|k v|k v|veq k v|k v|k v];
      cbn [documented mcall manswer answer] in *.
    - intros [-> ->]. split; [reflexivity|]. unfold backwards. rewrite rev_length, map_length. reflexivity.
    - intros [-> E]. split; [reflexivity|]. rewrite E. unfold backwards. destruct m; cbn; [tauto|]. split; [discriminate|]. intros X. symmetry in X. apply app_cons_not_nil in X. destruct X.
    - intros [-> ->]. auto.
    - intros [-> E]. split; [reflexivity|]. intros e. unfold backwards. split.
      + destruct a as [x|]; [|discriminate]. intros X. injection X as <-. destruct (proj1 (E x) eq_refl) as (l & ->). exists (rev (map flip l)).
        rewrite map_app, rev_app_distr. reflexivity.
      + intros (l & X). apply (f_equal (@rev _)) in X. rewrite rev_involutive in X. cbn in X. destruct (exists_last (l := m)) as (l' & x & ->).
        { intros ->. cbn in X. destruct (rev l); discriminate. }
        rewrite map_app in X. apply app_inj_tail in X. destruct X as [_ <-]. rewrite (proj2 (E x)) by eauto. reflexivity.
    - intros [-> E]. split; [reflexivity|]. intros e. unfold backwards. split.
      + destruct a as [x|]; [|discriminate]. intros X. injection X as <-. destruct (proj1 (E x) eq_refl) as (l & ->). exists (rev (map flip l)). reflexivity.
      + intros (l & X). destruct m as [|x m]; [destruct l; discriminate|]. cbn in X. apply app_inj_tail in X. destruct X as [_ <-].
        rewrite (proj2 (E x)) by eauto. reflexivity.
    - intros [-> (o & -> & E)]. split; [reflexivity|]. exists o. split; [reflexivity|]. intros v. rewrite E, maps_to_m. reflexivity.
    - intros [-> (o & -> & E)]. split; [reflexivity|]. exists o. split; [reflexivity|]. rewrite E, covered_m. reflexivity.
    - intros [-> (o & -> & E)]. split; [reflexivity|]. eexists. split; [reflexivity|]. destruct o as [[[k] v]|[g]]; cbn.
      + destruct E as [A B]. split; [apply in_backwards, A|]. apply covers_m in B. exact B.
      + destruct E as [A B]. apply covers_m in A. split; [exact A|]. refine (proj1 (max_run_m _ _ (Mirror g) _) B). intros x. cbn. rewrite covered_m. reflexivity.
    - intros [-> E]. split; [reflexivity|]. eapply answers_m; [|exact E]. intros l S.
      apply (sub_rev flip (fun e => overlap (fst e) (Mirror q))); [|exact S]. intros e. symmetry. apply overlap_m.
    - intros [-> E]. split; [reflexivity|]. rewrite <- (omap_id a). eapply answers_m; [|exact E]. intros b S. cbn in *. rewrite S, clash_m. reflexivity.
    - intros [-> E]. split; [reflexivity|]. rewrite <- (omap_id a). eapply answers_m; [|exact E]. intros b S. cbn in *. rewrite S. split.
      + intros X p C. apply covered_m, X, covers_m, C.
      + intros X [p] C. apply covered_m, X. apply covers_m in C. exact C.
    - intros [-> E]. split; [reflexivity|]. eapply answers_m; [|exact E]. intros l. apply max_runs_m; [intros p; rewrite covered_m; reflexivity|].
      intros x y. unfold overlap. split; intros (p & C & C').
      + exists (Reverse p). split; [destruct C; split; assumption|apply covers_m, C'].
      + exists (unreverse p). split; [destruct C; split; assumption|]. apply covers_m in C'. exact C'.
    - intros [-> E]. split; [reflexivity|]. eapply answers_m; [|exact E]. intros l. apply max_runs_m; [intros p; rewrite covered_m, covers_m; reflexivity|]. tauto.
    - intros F. eapply Forall2_rev_map; [|exact F]. intros [[k] v] [[k'] v'] [E1 E2]. cbn in *. injection E1 as ->. auto.
    - intros [E F]. split; [intros v; rewrite E, maps_to_m; reflexivity|]. eapply Forall2_rev_map; [|exact F].
      intros [[k] v] [[k'] v'] (E1 & E2 & E3). cbn in *. injection E1 as ->. rewrite covers_m in E2, E3. auto.
    - intros [A B]. rewrite valid_m in A, B. split.
      + intros Vq. destruct (A Vq) as [-> F]. split; [reflexivity|]. eapply Forall2_rev_map; [|exact F].
        intros [[k] v] [[k'] v'] (E1 & E2 & E3). cbn in *. injection E1 as ->. rewrite overlap_m in E2, E3. auto.
      + intros N. destruct (B N) as [-> ->]. auto.
    - apply changes_m. intros l [S R]. split.
      + apply (sub_rev flip (fun e => overlap (fst e) (Mirror q))); [|exact S]. intros e. symmetry. apply overlap_m.
      + intros e. rewrite !in_backwards, R, overlap_m. reflexivity.
    - apply changes_m. intros l [S R]. split; [apply cut_out_m, S|]. intros e. rewrite in_backwards, R, left_over_m. reflexivity.
    - unfold doc_insert_strict. intros E. rewrite <- (omap_id a). revert E. apply changes_m. intros r [(A & B & ->)|(A & B & C)].
      + left. rewrite clash_m. auto.
      + right. rewrite clash_m. split; [exact A|]. split; [exact B|]. intros [k' v']. rewrite !in_backwards, C. cbn.
        apply or_iff_compat_r. split; intros E; injection E as -> ->; reflexivity.
    - apply changes_m. intros l [S R]. split; [apply cut_out_m, S|]. intros [k' v']. rewrite in_backwards, R, left_over_m. cbn.
      apply or_iff_compat_r. split; intros E; injection E as -> ->; reflexivity.
    - apply changes_m. intros r [(A & -> & ->)|(A & r' & -> & M)].
      + left. rewrite clash_m. auto.
      + right. rewrite clash_m. split; [exact A|]. exists (unmirror r'). split; [reflexivity|]. eapply merged_m; [|exact M]. intros e. symmetry. apply touch_m.
    - apply changes_m. intros r [(A & -> & ->)|(A & r' & -> & M)].
      + left. rewrite clash_m. auto.
      + right. rewrite clash_m. split; [exact A|]. exists (unmirror r'). split; [reflexivity|]. eapply merged_m; [|exact M]. intros e. cbn [fst snd]. rewrite touch_m. reflexivity.
    - apply changes_m. intros r M. eapply merged_m; [|exact M]. intros e. symmetry. apply overlap_m.
    - apply changes_m. intros r M. eapply merged_m; [|exact M]. intros e. cbn [fst]. rewrite touch_m, overlap_m. reflexivity.
  Qed.
End Documented.

Section DocumentedSet.
  Context {I : Type} `{PL : PointLaws I}.
  Context {K : Type} {IK : InclusiveInterval I K}.
  Implicit Types s : list (mirrored K).

  Lemma holds_m s p : holds (backwards_keys s) p <-> holds s (Reverse p).
  Proof.
    split.
    - intros (k & X & C). apply in_keys in X. exists (Mirror k). split; [exact X|]. apply covers_m, C.
    - intros ([k] & X & C). exists k. split; [apply in_keys, X|]. apply covers_m in C. exact C.
  Qed.
  Lemma hits_m {Q} {IQ : InclusiveInterval I Q} (q : Q) s : hits q (backwards_keys s) <-> hits (Mirror q) s.
  Proof.
    split.
    - intros (k & X & C). apply in_keys in X. eexists. split; [exact X|]. apply overlap_m, C.
    - intros ([k] & X & C). exists k. split; [apply in_keys, X|]. apply overlap_m in C. exact C.
  Qed.
  Lemma modifies_m {Q A B} {IQ : InclusiveInterval I Q} (q : Q) s s' (o : outcome A) (f : A -> B) (right : A -> Prop) (right' : B -> Prop) :
    (forall a, right a -> right' (f a)) -> modifies (Mirror q) s s' o right -> modifies q (backwards_keys s) (backwards_keys s') (omap f o) right'.
  Proof.
    intros HR [X Y]. split.
    - intros Vq. destruct (X (proj2 (valid_m (Mirror q)) Vq)) as (F & S & a & -> & R).
      split; [apply valid_keys_m, F|]. split; [apply ascending_m, S|]. exists (f a). split; [reflexivity|apply HR, R].
    - intros N. destruct Y as [-> ->]; [|split; reflexivity]. intros Vq. apply N, (proj1 (valid_m (Mirror q)) Vq).
  Qed.
  Lemma rest_m {Q} {IQ : InclusiveInterval I Q} (q : Q) s g : rest q (backwards_keys s) g <-> rest (Mirror q) s (Mirror g).
  Proof.
    assert (X : forall k p, covers k p /\ ~ covers q p <-> covers (Mirror k : mirrored K) (Reverse p) /\ ~ covers (Mirror q) (Reverse p)).
    { intros k p. rewrite !covers_m. reflexivity. }
    split.
    - intros (k & A & B). exists (Mirror k). apply in_keys in A. split; [exact A|]. exact (proj2 (max_run_m _ _ (Mirror g) (X k)) B).
    - intros ([k] & A & B). exists k. split; [apply in_keys, A|]. exact (proj1 (max_run_m _ _ (Mirror g) (X k)) B).
  Qed.
  Lemma parts_m {Q} {IQ : InclusiveInterval I Q} (q : Q) s out : parts (Mirror q) s out -> parts q (backwards_keys s) (backwards_keys out).
  Proof.
    intros (l & S & F). exists (backwards_keys l). split.
    - apply (sub_rev unmirror (fun k => overlap k (Mirror q))); [|exact S]. intros e. symmetry. apply overlap_m.
    - eapply Forall2_rev_map; [|exact F]. intros a b C p. specialize (C (Reverse p)). rewrite !covers_m in C. exact C.
  Qed.
  Lemma joined_m (P : mirrored K -> Prop) (P' : K -> Prop) k s s' r : (forall j, P' j <-> P (Mirror j)) ->
    joined P (Mirror k) s s' r -> joined P' k (backwards_keys s) (backwards_keys s') (unmirror r).
  Proof.
    intros HP [A B]. split.
    - intros p. specialize (A (Reverse p)). rewrite !covers_m in A. cbn [unmirror unreverse] in A. rewrite A. apply or_iff_compat_l. split.
      + intros ([j] & X & Y & Z). exists j. split; [apply in_keys, X|]. split; [apply HP, Y|]. apply covers_m in Z. exact Z.
      + intros (j & X & Y & Z). apply in_keys in X. exists (Mirror j). split; [exact X|]. split; [apply HP, Y|]. apply covers_m, Z.
    - intros j. rewrite !in_keys, B, HP. apply or_iff_compat_r. destruct r as [r]. cbn. split; congruence.
  Qed.
  Lemma set_documented_m (c : scall I K) s s' a :
    set_documented (mscall c) s s' a -> set_documented c (backwards_keys s) (backwards_keys s') (msanswer c a).
  Proof.
    destruct c as [| | | | |p|p|Q IQ q|Q IQ q|Q IQ q|Q IQ q|Q IQ q|Q IQ q|Q IQ q|k|k|k|k|k]; cbn [set_documented mscall msanswer sanswer] in *.
    - intros [-> ->]. split; [reflexivity|]. unfold backwards_keys. rewrite rev_length, map_length. reflexivity.
    - intros [-> E]. split; [reflexivity|]. rewrite E. unfold backwards_keys. destruct s; cbn; [tauto|]. split; [discriminate|]. intros X. symmetry in X. apply app_cons_not_nil in X. destruct X.
    - intros [-> ->]. auto.
    - intros [-> E]. split; [reflexivity|]. intros k. unfold backwards_keys. split.
      + destruct a as [x|]; [|discriminate]. intros X. injection X as <-. destruct (proj1 (E x) eq_refl) as (l & ->). exists (rev (map unmirror l)).
        rewrite map_app, rev_app_distr. reflexivity.
      + intros (l & X). apply (f_equal (@rev _)) in X. rewrite rev_involutive in X. cbn in X. destruct (exists_last (l := s)) as (l' & x & ->).
        { intros ->. cbn in X. destruct (rev l); discriminate. }
        rewrite map_app in X. apply app_inj_tail in X. destruct X as [_ <-]. rewrite (proj2 (E x)) by eauto. reflexivity.
    - intros [-> E]. split; [reflexivity|]. intros k. unfold backwards_keys. split.
      + destruct a as [x|]; [|discriminate]. intros X. injection X as <-. destruct (proj1 (E x) eq_refl) as (l & ->). exists (rev (map unmirror l)). reflexivity.
      + intros (l & X). destruct s as [|x s]; [destruct l; discriminate|]. cbn in X. apply app_inj_tail in X. destruct X as [_ <-].
        rewrite (proj2 (E x)) by eauto. reflexivity.
    - intros [-> [([k] & -> & A & B)|([g] & -> & A & B)]]; (split; [reflexivity|]).
      + left. exists k. split; [reflexivity|]. split; [apply in_keys, A|]. apply covers_m in B. exact B.
      + right. exists g. apply covers_m in A. split; [reflexivity|]. split; [exact A|]. refine (proj1 (max_run_m _ _ (Mirror g) _) B). intros x. rewrite holds_m. reflexivity.
    - intros [-> (o & -> & E)]. split; [reflexivity|]. exists o. split; [reflexivity|]. rewrite E, holds_m. reflexivity.
    - intros [-> E]. split; [reflexivity|]. eapply answers_m; [|exact E]. intros l S.
      apply (sub_rev unmirror (fun k => overlap k (Mirror q))); [|exact S]. intros e. symmetry. apply overlap_m.
    - intros [-> E]. split; [reflexivity|]. rewrite <- (omap_id a). eapply answers_m; [|exact E]. intros b S. cbn in *. rewrite S, hits_m. reflexivity.
    - intros [-> E]. split; [reflexivity|]. rewrite <- (omap_id a). eapply answers_m; [|exact E]. intros b S. cbn in *. rewrite S. split.
      + intros X p C. apply holds_m, X, covers_m, C.
      + intros X [p] C. apply holds_m, X. apply covers_m in C. exact C.
    - intros [-> E]. split; [reflexivity|]. eapply answers_m; [|exact E]. intros l. apply max_runs_m; [intros p; rewrite holds_m; reflexivity|].
      intros x y. unfold overlap. split; intros (p & C & C').
      + exists (Reverse p). split; [destruct C; split; assumption|apply covers_m, C'].
      + exists (unreverse p). split; [destruct C; split; assumption|]. apply covers_m in C'. exact C'.
    - intros [-> E]. split; [reflexivity|]. eapply answers_m; [|exact E]. intros l. apply max_runs_m; [intros p; rewrite holds_m, covers_m; reflexivity|]. tauto.
    - apply modifies_m. intros l [S R]. split.
      + apply (sub_rev unmirror (fun k => overlap k (Mirror q))); [|exact S]. intros e. symmetry. apply overlap_m.
      + intros e. rewrite !in_keys, R, overlap_m. reflexivity.
    - apply modifies_m. intros l [S R]. split; [apply parts_m, S|]. intros e. rewrite in_keys, R, rest_m. reflexivity.
    - intros E. rewrite <- (omap_id a). revert E. apply modifies_m. intros r [(A & B & ->)|(A & B & C)].
      + left. rewrite hits_m. auto.
      + right. rewrite hits_m. split; [exact A|]. split; [exact B|]. intros j. rewrite !in_keys, C. apply or_iff_compat_r. split; congruence.
    - apply modifies_m. intros l [S R]. split; [apply parts_m, S|]. intros j. rewrite in_keys, R, rest_m. apply or_iff_compat_r. split; congruence.
    - apply modifies_m. intros r [(A & -> & ->)|(A & r' & -> & M)].
      + left. rewrite hits_m. auto.
      + right. rewrite hits_m. split; [exact A|]. exists (unmirror r'). split; [reflexivity|]. eapply joined_m; [|exact M]. intros e. symmetry. apply touch_m.
    - apply modifies_m. intros r M. eapply joined_m; [|exact M]. intros e. symmetry. apply overlap_m.
    - apply modifies_m. intros r M. eapply joined_m; [|exact M]. intros e. cbn [fst]. rewrite touch_m, overlap_m. reflexivity.
  Qed.
End DocumentedSet.

Section DocumentedGqdit.
  Context {I : Type} `{PL : PointLaws I}.
  Context {K : Type} {IK : InclusiveInterval I K}.
  Context {D : Type} {OD : Ord D}.

  Lemma rearranges_m {Q} {IQ : InclusiveInterval I Q} (q : Q) (b b' : reversed I -> D -> Prop) a (t : reversed I -> D -> Prop) (t' : I -> D -> Prop) :
    (forall p d, t' p d <-> t (Reverse p) d) ->
    rearranges (Mirror q) b b' a t -> rearranges q (fun p => b (Reverse p)) (fun p => b' (Reverse p)) a t'.
  Proof.
    intros HT [X Y]. split.
    - intros Vq. destruct (X (proj2 (valid_m (Mirror q)) Vq)) as [-> E]. split; [reflexivity|]. intros p d. rewrite E, HT. reflexivity.
    - intros N. destruct Y as [-> E]; [intros Vq; apply N, (proj1 (valid_m (Mirror q)) Vq)|]. split; [reflexivity|]. intros p d. apply E.
  Qed.
  Lemma gdocumented_m (c : gcall I K D) (b b' : reversed I -> D -> Prop) a :
    gdocumented (mgcall c) b b' a -> gdocumented c (fun p => b (Reverse p)) (fun p => b' (Reverse p)) (mganswer c a).
  Proof.
    assert (O : forall {Q} {IQ : InclusiveInterval I Q} (q : Q) x y, overlap (mkInterval x y) q <-> overlap (mkInterval (Reverse y) (Reverse x)) (Mirror q)).
    { intros Q IQ q x y. unfold overlap. split; intros (p & C & C').
      - exists (Reverse p). split; [destruct C; split; assumption|apply covers_m, C'].
      - exists (unreverse p). split; [destruct C; split; assumption|]. apply covers_m in C'. exact C'. }
    destruct c as [p|Q IQ q|d Q IQ q|ids k|ids Q IQ q|Q IQ q]; cbn [gdocumented mgcall mganswer ganswer] in *.
    - intros [U (s & -> & S & E)]. split; [intros x d; apply U|]. exists s. auto.
    - intros [U E]. split; [intros x d; apply U|]. eapply answers_m; [|exact E]. intros l. apply max_runs_m; [intros p; reflexivity|]. intros x y. apply O.
    - intros [U E]. split; [intros x d'; apply U|]. eapply answers_m; [|exact E]. intros l. apply max_runs_m; [intros p; reflexivity|]. intros x y. apply O.
    - apply rearranges_m. intros p d. rewrite covers_m. reflexivity.
    - apply rearranges_m. intros p d. rewrite covers_m. reflexivity.
    - apply rearranges_m. intros p d. rewrite covers_m. reflexivity.
  Qed.
End DocumentedGqdit.
