(** * SetAlgebra: the programs of SetAlgebraOps compute the Boolean operations. *)
From Coq Require Import List ZArith Bool Lia.
From Verif Require Import Base BTree UtilsModel IntervalModel NoditModel NoditSetModel NoditOps NoditSetOps SetAlgebraOps
  Spec PointFacts IntervalFacts ListFacts NoditFacts NoditQueries NoditMutations NoditGaps NoditInv
  NoditSetFacts NoditSetProofs InstancesModel Instances.
Import ListNotations.
Open Scope Z_scope.

Section Algebra.
  Context {I : Type} {OI : Ord I} {DI : DiscreteFinite I} {PL : PointLaws I}.
  Context {K : Type} {IK : InclusiveInterval I K} {IL : IntervalLaws I K} {FI : FromInvalid I K}.
  Implicit Types (s t : NoditSet K).

  Section Kind.
  Variable kind : set_op I K -> Prop.
  Hypothesis all_merging : forall o, merging o -> kind o.
  Local Notation merged := (built_by kind).

  Lemma merged_WF s : merged s -> WF s.
  Proof. intros (os & _ & ->). apply set_run_WF. Qed.
  Lemma merged_step s o : merged s -> merging o -> merged (set_step s o).
  Proof.
    intros (os & F & ->) M. exists (os ++ [o]). split; [apply Forall_app; split; [exact F|]; constructor; [apply all_merging, M|constructor]|]. rewrite set_run_snoc. reflexivity.
  Qed.
  Lemma merged_new : merged set_new.
  Proof. exists []. split; [constructor|reflexivity]. Qed.
  Lemma merged_valid s : merged s -> Forall valid (set_iter s).
  Proof. intros M. rewrite set_iter_fst. apply ascending_WF, merged_WF, M. Qed.

  Lemma each_insert l s : Forall valid l -> merged s -> exists s', each set_insert_merge_touching_or_overlapping l s = Val s' /\ merged s' /\
    forall p, in_set s' p <-> in_set s p \/ exists k, In k l /\ covers k p.
  Proof.
    revert s. induction l as [|k l IH]; intros s F M; cbn [each].
    - exists s. split; [reflexivity|]. split; [exact M|]. intros p. split; [auto|intros [X|(k & [] & _)]; exact X].
    - inversion_clear F as [|? ? Vk F']. pose proof (merged_step s (SInsertMergeTouchingOrOverlapping k) M Logic.I) as M1.
      destruct (tor_points s k (merged_WF s M) Vk) as (s1 & r & E & _ & _ & P). cbn [set_step] in M1. rewrite E in M1 |- *. cbn [fst] in M1.
      destruct (IH s1 F' M1) as (s2 & E2 & M2 & P2). exists s2. split; [exact E2|]. split; [exact M2|]. intros p. rewrite P2, P. split.
      + intros [[X|X]|(k' & Hi & X)]; [left; exact X|right; exists k; split; [left; reflexivity|exact X]|right; exists k'; split; [right; exact Hi|exact X]].
      + intros [X|(k' & [<-|Hi] & X)]; [auto|auto|right; exists k'; auto].
  Qed.
  Lemma each_cut l s : Forall valid l -> merged s -> exists s', each set_cut l s = Val s' /\ merged s' /\
    forall p, in_set s' p <-> in_set s p /\ ~ exists k, In k l /\ covers k p.
  Proof.
    revert s. induction l as [|k l IH]; intros s F M; cbn [each].
    - exists s. split; [reflexivity|]. split; [exact M|]. intros p. split; [intros X; split; [exact X|intros (k & [] & _)]|tauto].
    - inversion_clear F as [|? ? Vk F']. pose proof (merged_step s (SCut k) M Logic.I) as M1.
      destruct (cut_points s k (merged_WF s M) Vk) as (s1 & r & E & _ & P & _). cbn [set_step] in M1. rewrite E in M1 |- *. cbn [fst] in M1.
      destruct (IH s1 F' M1) as (s2 & E2 & M2 & P2). exists s2. split; [exact E2|]. split; [exact M2|]. intros p. rewrite P2, P. split.
      + intros [[X N] N2]. split; [exact X|]. intros (k' & [<-|Hi] & Y); [exact (N Y)|]. apply N2. exists k'. auto.
      + intros [X N]. split; [split; [exact X|]|]; [intros Y; apply N; exists k; split; [left; reflexivity|exact Y]|].
        intros (k' & Hi & Y). apply N. exists k'. split; [right; exact Hi|exact Y].
  Qed.

  Lemma union_spec s t : merged s -> merged t -> exists r, set_union s t = Val r /\ merged r /\ forall p, in_set r p <-> in_set s p \/ in_set t p.
  Proof. intros M N. apply (each_insert (set_iter t) s (merged_valid t N) M). Qed.
  Lemma minus_spec s t : merged s -> merged t -> exists r, set_minus s t = Val r /\ merged r /\ forall p, in_set r p <-> in_set s p /\ ~ in_set t p.
  Proof. intros M N. apply (each_cut (set_iter t) s (merged_valid t N) M). Qed.
  Lemma uu_spec : exists u : Interval I, uu = Val u /\ valid u /\ forall p, covers u p.
  Proof.
    exists (mkInterval MIN MAX). assert (V : valid (mkInterval MIN MAX : Interval I)).
    { apply valid_rk. unfold lo, hi. cbn. pose proof (rk_min (MAX : I)). lia. }
    split; [|split; [exact V|]].
    - unfold uu, IntervalModel.checked, invalid_interval_panic. apply is_valid_true in V. rewrite V. reflexivity.
    - intros p. apply covers_rk. unfold lo, hi. cbn. split; [apply rk_min|apply rk_max].
  Qed.
  Lemma complement_spec s : merged s -> exists r, set_complement s = Val r /\ merged r /\ forall p, in_set r p <-> ~ in_set s p.
  Proof.
    intros M. unfold set_complement. destruct uu_spec as (u & -> & Vu & Cu). cbn [obind]. unfold set_gaps_trimmed.
    pose proof (merged_WF s M) as W.
    destruct (gaps_trimmed_spec s u W Vu (quiet_at_FI s u)) as (tl & E & _ & Hm & _).
    destruct (gaps_trimmed_points s u W Vu (quiet_at_FI s u)) as (tl' & E' & Hp). rewrite E in E'. injection E' as <-. rewrite E. cbn [obind].
    destruct (each_insert tl set_new) as (r & Er & Mr & Pr); [apply Forall_forall; intros g Hg; apply (Hm g Hg)|exact merged_new|].
    exists r. split; [exact Er|]. split; [exact Mr|]. intros p. rewrite Pr, in_set_covered, <- (Hp p (Cu p)), in_set_covered.
    split; [intros [(k & v & [] & _)|X]; exact X|auto].
  Qed.
  Lemma intersection_spec s t : merged s -> merged t -> exists r, set_intersection s t = Val r /\ merged r /\ forall p, in_set r p <-> in_set s p /\ in_set t p.
  Proof.
    intros M N. unfold set_intersection. destruct (complement_spec t N) as (c & -> & Mc & Pc). cbn [obind].
    destruct (minus_spec s c M Mc) as (r & E & Mr & Pr). exists r. split; [exact E|]. split; [exact Mr|]. intros p. rewrite Pr, Pc.
    destruct (set_contains_point_spec t p (merged_WF t N)) as [A B].
    assert (D : in_set t p \/ ~ in_set t p).
    { unfold set_contains_point in A, B. destruct (map_contains_point_spec t p (merged_WF t N)) as (b & Eb & _). rewrite Eb in A, B.
      destruct b; [left; apply A; reflexivity|right; apply B; reflexivity]. }
    tauto.
  Qed.

  Lemma execute_spec env e : (forall n, merged (env n)) -> exists s, execute env e = Val s /\ merged s /\
    forall p b, (forall n, b n = true <-> in_set (env n) p) -> (truth b e = true <-> in_set s p).
  Proof.
    intros M. induction e as [n| |x IHx y IHy|x IHx y IHy|x IHx y IHy|x IHx]; cbn [execute truth].
    - exists (env n). split; [reflexivity|]. split; [apply M|auto].
    - exists set_new. split; [reflexivity|]. split; [exact merged_new|]. intros p b _. split; [discriminate|intros (k & [] & _)].
    - destruct IHx as (s & -> & Ms & Ps), IHy as (t & -> & Mt & Pt). cbn [obind].
      destruct (union_spec s t Ms Mt) as (r & E & Mr & Pr). exists r. split; [exact E|]. split; [exact Mr|]. intros p b Hb.
      rewrite Pr, <- (Ps p b Hb), <- (Pt p b Hb). apply orb_true_iff.
    - destruct IHx as (s & -> & Ms & Ps), IHy as (t & -> & Mt & Pt). cbn [obind].
      destruct (minus_spec s t Ms Mt) as (r & E & Mr & Pr). exists r. split; [exact E|]. split; [exact Mr|]. intros p b Hb.
      rewrite Pr, <- (Ps p b Hb), <- (Pt p b Hb). rewrite andb_true_iff, negb_true_iff, not_true_iff_false. reflexivity.
    - destruct IHx as (s & -> & Ms & Ps), IHy as (t & -> & Mt & Pt). cbn [obind].
      destruct (intersection_spec s t Ms Mt) as (r & E & Mr & Pr). exists r. split; [exact E|]. split; [exact Mr|]. intros p b Hb.
      rewrite Pr, <- (Ps p b Hb), <- (Pt p b Hb). apply andb_true_iff.
    - destruct IHx as (s & -> & Ms & Ps). cbn [obind].
      destruct (complement_spec s Ms) as (r & E & Mr & Pr). exists r. split; [exact E|]. split; [exact Mr|]. intros p b Hb.
      rewrite Pr, <- (Ps p b Hb), negb_true_iff, not_true_iff_false. reflexivity.
  Qed.
  Definition inb s (p : I) : bool := match set_contains_point s p with Val b => b | Panic => false end.
  Lemma inb_spec s p : merged s -> set_contains_point s p = Val (inb s p) /\ (inb s p = true <-> in_set s p).
  Proof.
    intros M. pose proof (merged_WF s M) as W. destruct (set_contains_point_spec s p W) as [A B]. unfold inb.
    unfold set_contains_point in *. destruct (map_contains_point_spec s p W) as (b & Eb & _). rewrite Eb in A, B |- *.
    split; [reflexivity|]. rewrite <- A. destruct b; split; congruence.
  Qed.
  Lemma truth_ext b b' e : (forall n, b n = b' n) -> truth b e = truth b' e.
  Proof. intros X. induction e; cbn [truth]; rewrite ?IHe, ?IHe1, ?IHe2; auto. Qed.
  Lemma execute_points env e s : (forall n, merged (env n)) -> execute env e = Val s ->
    forall p, set_contains_point s p = Val (truth (fun n => inb (env n) p) e).
  Proof.
    intros M E p. destruct (execute_spec env e M) as (s' & E' & Ms & Ps). rewrite E in E'. injection E' as <-.
    destruct (inb_spec s p Ms) as [X Y]. rewrite X. f_equal. apply eq_true_iff_eq. rewrite Y. symmetry. apply Ps.
    intros n. apply inb_spec, M.
  Qed.
  Lemma full_set : exists s, merged s /\ forall p, in_set s p.
  Proof.
    destruct (complement_spec set_new merged_new) as (s & _ & M & P). exists s. split; [exact M|]. intros p. apply P. intros (k & [] & _).
  Qed.
  End Kind.

  Lemma laws_same e e' : (forall b, truth b e = truth b e') -> forall env, (forall n, built_by merging (env n)) ->
    exists s s', execute env e = Val s /\ execute env e' = Val s' /\ Forall2 same_points (set_iter s) (set_iter s').
  Proof.
    intros T env M. destruct (execute_spec merging (fun _ M => M) env e M) as (s & E & (os & F & Es) & _), (execute_spec merging (fun _ M => M) env e' M) as (s' & E' & (os' & F' & Es') & _).
    exists s, s'. split; [exact E|]. split; [exact E'|]. subst s s'. apply canonical_same; [exact F|exact F'|]. intros p.
    rewrite (execute_points merging (fun _ M => M) env e _ M E), (execute_points merging (fun _ M => M) env e' _ M E'). f_equal. apply T.
  Qed.
  Lemma programs_points (env : nat -> NoditSet K) e : (forall n, exists os, env n = set_run (I := I) os) ->
    exists s, execute env e = Val s /\ (exists os, s = set_run (I := I) os) /\
      forall p b, (forall n, set_contains_point (env n) p = Val (b n)) -> set_contains_point s p = Val (truth b e).
  Proof.
    intros M. assert (M' : forall n, built_by (fun _ => True) (env n)).
    { intros n. destruct (M n) as (os & E). exists os. split; [apply Forall_forall; intros; exact Logic.I|exact E]. }
    destruct (execute_spec (fun _ => True) (fun _ _ => Logic.I) env e M') as (s & E & (os & _ & Es) & Ps).
    exists s. split; [exact E|]. split; [exists os; exact Es|]. intros p b Hb.
    rewrite (execute_points (fun _ => True) (fun _ _ => Logic.I) env e s M' E p). f_equal. apply truth_ext. intros n.
    unfold inb. rewrite Hb. reflexivity.
  Qed.
  Lemma laws_differ e e' b : truth b e <> truth b e' ->
    exists (env : nat -> NoditSet K) s s', (forall n, exists os, Forall (merging (I := I)) os /\ env n = set_run os) /\
      execute env e = Val s /\ execute env e' = Val s' /\ forall p, set_contains_point s p <> set_contains_point s' p.
  Proof.
    intros D. destruct (full_set merging (fun _ M => M)) as (f & Mf & Pf). set (env := fun n => if b n then f else set_new).
    assert (M : forall n, built_by merging (env n)) by (intros n; unfold env; destruct (b n); [exact Mf|exists []; split; [constructor|reflexivity]]).
    destruct (execute_spec merging (fun _ M => M) env e M) as (s & E & Ms & Ps), (execute_spec merging (fun _ M => M) env e' M) as (s' & E' & Ms' & Ps').
    exists env, s, s'. split; [exact M|]. split; [exact E|]. split; [exact E'|]. intros p X.
    rewrite (execute_points merging (fun _ M => M) env e s M E), (execute_points merging (fun _ M => M) env e' s' M E') in X. injection X as X. apply D.
    assert (Hb : forall n, inb (env n) p = b n).
    { intros n. apply eq_true_iff_eq. rewrite (proj2 (inb_spec merging (env n) p (M n))). unfold env. destruct (b n); split; try congruence; [intros _; apply Pf|intros (k & [] & _)]. }
    rewrite (truth_ext _ b e Hb), (truth_ext _ b e' Hb) in X. exact X.
  Qed.
End Algebra.

Section Exactly.
  Context {I : Type} {OI : Ord I} {DI : DiscreteFinite I} {PL : PointLaws I} {OL : OrdLaws I}.
  Lemma bool_dec_eq (x y : bool) : ~ x <> y -> x = y.
  Proof. destruct x, y; intros H; try reflexivity; destruct H; discriminate. Qed.
  Lemma laws_equal e e' : (forall b, truth b e = truth b e') <-> forall env : nat -> NoditSet (Interval I), (forall n, built_by merging (env n)) ->
    execute env e = execute env e'.
  Proof.
    split.
    - intros T env M. destruct (execute_spec merging (fun _ M => M) env e M) as (s & E & (os & F & Es) & _),
        (execute_spec merging (fun _ M => M) env e' M) as (s' & E' & (os' & F' & Es') & _).
      rewrite E, E'. f_equal. subst s s'. apply canonical_eq; [exact F|exact F'|]. intros p.
      rewrite (execute_points merging (fun _ M => M) env e _ M E), (execute_points merging (fun _ M => M) env e' _ M E'). f_equal. apply T.
    - intros X b. apply bool_dec_eq. intros D. destruct (laws_differ (I := I) (K := Interval I) e e' b D) as (env & s & s' & M & E & E' & N).
      specialize (X env M). rewrite E, E' in X. injection X as ->. apply (N MIN). reflexivity.
  Qed.
End Exactly.
