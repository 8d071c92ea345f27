(** * PropsFrom: what the gap queries need of the user's [K::from] (C75, C76).

    [try_from] is the user's [K::from(Interval)]: it is right on valid
    intervals; on invalid ones it may return anything or panic.  A gap iterator
    is the list of its steps ([Val g]: yields [g], [Panic]: unwinds);
    [collect] runs it to its end. *)
From Coq Require Import List ZArith Bool Lia Sorting.Sorted.
From Verif Require Import Base BTree UtilsModel IntervalModel NoditModel NoditOps GapsLazyModel Spec InstancesModel Instances
  PointFacts IntervalFacts ListFacts NoditFacts NoditQueries NoditGaps NoditInv GapsLazyFacts PropsNodit.
Import ListNotations.
Open Scope nat_scope.

Section Props.
  Context {I : Type} `{PL : PointLaws I}.
  Context {K : Type} {IK : InclusiveInterval I K} {IL : IntervalLaws I K}.
  Context {Q : Type} {IQ : InclusiveInterval I Q}.
  Context {V : Type}.
  Implicit Types (m : NoditMap K V) (q : Q).

  (** [try_from] converts valid intervals faithfully. *)
  Definition right_on_valid (try_from : Interval I -> outcome K) : Prop :=
    forall i, valid i -> try_from i = Val (ifrom i).

  (** No two of the entries of [m] that overlap [q] touch. *)
  Definition apart m q : Prop := forall k v k' v', In (k, v) (iter m) -> In (k', v') (iter m) ->
    overlap k q -> overlap k' q -> ~ touch k k'.

  (** ** C75: full statement: the same without [apart] *)
  Theorem C75_gap_queries_partial : forall try_from m q, right_on_valid try_from ->
    reachable m -> valid q -> apart m q ->
    exists gl tl b, gaps_untrimmed_lazy try_from m q = Val (map Val gl) /\
      gaps_trimmed_lazy try_from m q = Val (map Val tl) /\
      contains_interval_lazy try_from m q = Val b /\
      lists_max_runs (fun p => ~ covered (iter m) p) (fun g => overlap g q) gl /\
      lists_max_runs (fun p => ~ covered (iter m) p /\ covers q p) (fun _ => True) tl /\
      (b = true <-> forall p, covers q p -> covered (iter m) p).
  Proof.
    intros tf m q Ht R Vq Ha. pose proof (reachable_WF m R) as W.
    destruct (lazy_cases tf Ht m q W Vq) as [(x & y & i & Hx & Hy & Mx & My & E & _)|(gl & tl & E1 & E2 & E3 & E4)].
    { exfalso. destruct x as [k v], y as [k' v']. pose proof (WF_okv _ _ W Hx) as Vx. pose proof (WF_okv _ _ W Hy) as Vy.
      apply valid_rk in Vq. unfold NoditFacts.meets, elo, ehi in *. cbn [fst snd] in *.
      apply (Ha k v k' v' Hx Hy); [apply overlap_rk; lia..|apply touch_rk; lia]. }
    pose proof (patched_laws tf Ht) as PLaws.
    assert (Qt : @quiet_at I H H0 PL K (patched tf) V Q IQ m q).
    { apply (@quiet_at_apart I H H0 PL K (patched tf) V Q IQ); assumption. }
    destruct (@gaps_untrimmed_spec I H H0 PL K (patched tf) PLaws V Q IQ m q W Vq Qt) as (gl' & F1 & G1).
    destruct (@gaps_trimmed_spec I H H0 PL K (patched tf) PLaws V Q IQ m q W Vq Qt) as (tl' & F2 & G2).
    destruct (@map_contains_interval_spec I H H0 PL K (patched tf) PLaws V Q IQ m q W Vq Qt) as (b & F3 & G3).
    rewrite E3 in F1. injection F1 as <-. rewrite E4 in F2. injection F2 as <-.
    exists gl, tl, b. split; [exact E1|]. split; [exact E2|]. split; [|split; [exact G1|split; [exact G2|exact G3]]].
    unfold map_contains_interval in F3. rewrite E3 in F3. unfold contains_interval_lazy. rewrite E1.
    rewrite (iip_valid _ Vq) in *. cbn [obind] in *. destruct gl; exact F3.
  Qed.

  (** ** C76: full statement: [~ valid q] on the right *)
  Theorem C76_gap_queries_panic_partial : forall try_from m q, right_on_valid try_from ->
    (forall i, ~ valid i -> try_from i = Panic) -> reachable m ->
    let touching := exists k v k' v', In (k, v) (iter m) /\ In (k', v') (iter m) /\
      overlap k q /\ overlap k' q /\ touch k k' in
    ((let? l := gaps_untrimmed_lazy try_from m q in collect l) = Panic <-> ~ valid q \/ touching) /\
    ((let? l := gaps_trimmed_lazy try_from m q in collect l) = Panic <-> ~ valid q \/ touching) /\
    (contains_interval_lazy try_from m q = Panic -> ~ valid q \/ touching).
  Proof.
    intros tf m q Ht Hb R touching. pose proof (reachable_WF m R) as W.
    destruct (valid_dec q) as [Vq|Nq].
    2:{ unfold gaps_untrimmed_lazy, gaps_trimmed_lazy, contains_interval_lazy. rewrite (iip_invalid _ Nq). cbn [obind].
        split; [|split]; [split; auto..|auto]. }
    destruct (lazy_shape tf Ht m q W Vq) as (M & f & l & f' & l' & EM & E1 & E2).
    assert (P : collect (inner_steps tf M) = Panic <-> touching).
    { pose proof Vq as Vq'. apply valid_rk in Vq'.
      destruct (overlapping_spec m q W Vq) as (M' & EM' & HS). rewrite EM in EM'. injection EM' as <-.
      pose proof (sub_in _ _ _ HS) as Hin.
      assert (WM : WF M).
      { destruct (split_overlap m q W Vq) as (A & M' & B & -> & HA & HM & HB & _).
        rewrite (overlapping_split q A M' B Vq W HA HM HB) in EM. injection EM as <-.
        apply WF_app in W. destruct W as (_ & W & _). apply WF_app in W. apply W. }
      split.
      - intros EP. destruct (inner_steps_collect tf Ht M WM) as [[_ (x & y & i & Hx & Hy & E & _)]|(gs & Eg & _)].
        + apply Hin in Hx. apply Hin in Hy. destruct Hx as [Hx Ox], Hy as [Hy Oy].
          exists (fst x), (snd x), (fst y), (snd y). destruct x as [k v], y as [k' v'].
          pose proof (WF_okv _ _ W Hx) as Vx. pose proof (WF_okv _ _ W Hy) as Vy.
          unfold elo, ehi in *. cbn [fst snd] in *. repeat (split; [assumption|]).
          apply touch_rk; try lia.
        + rewrite Eg, collect_map_Val in EP. discriminate.
      - intros (k & v & k' & v' & Hk & Hk' & Ok & Ok' & Tk).
        assert (Ik : In (k, v) M) by (apply Hin; auto). assert (Ik' : In (k', v') M) by (apply Hin; auto).
        pose proof (WF_okv _ _ W Hk) as Vk. pose proof (WF_okv _ _ W Hk') as Vk'. unfold elo, ehi in Vk, Vk'. cbn [fst] in *.
        apply touch_rk in Tk; [|assumption..]. destruct Tk as [Tk|Tk].
        + apply (inner_steps_panic tf M (k, v) (k', v')); try assumption. unfold elo, ehi. cbn [fst]. lia.
        + apply (inner_steps_panic tf M (k', v') (k, v)); try assumption. unfold elo, ehi. cbn [fst]. lia. }
    assert (S : forall X, X <-> ~ valid q \/ X) by (intros X; split; [auto|intros [N|Hx]; [contradiction|exact Hx]]).
    rewrite <- !S. split; [|split].
    - rewrite E1. cbn [obind]. rewrite collect_mid. exact P.
    - rewrite E2. cbn [obind]. rewrite collect_mid. exact P.
    - unfold contains_interval_lazy. rewrite (iip_valid _ Vq), E1. cbn [obind]. intros EC. apply P.
      apply (collect_mid f _ l). destruct (map Val f ++ inner_steps tf M ++ map Val l) as [|[g|] r]; [discriminate..|reflexivity].
  Qed.

  (** With a [K::from] that always returns, evaluating the iterators lazily or at
      once makes no difference, and no step panics. *)
  Theorem C76_laziness_is_immaterial : forall m q, reachable m ->
    gaps_untrimmed_lazy (fun i => Val (ifrom i)) m q = omap (map Val) (gaps_untrimmed m q) /\
    gaps_trimmed_lazy (fun i => Val (ifrom i)) m q = omap (map Val) (gaps_trimmed m q) /\
    contains_interval_lazy (fun i => Val (ifrom i)) m q = map_contains_interval m q.
  Proof.
    intros m q R. pose proof (reachable_WF m R) as W. destruct (valid_dec q) as [Vq|Nq].
    - destruct (lazy_cases (fun i => Val (ifrom i)) (fun i _ => eq_refl) m q W Vq)
        as [(x & y & i & _ & _ & _ & _ & _ & _ & _ & E)|(gl & tl & E1 & E2 & E3 & E4)]; [discriminate|].
      rewrite patched_id in E3, E4. unfold contains_interval_lazy, map_contains_interval.
      rewrite E1, E2, E3, E4, (iip_valid _ Vq). cbn [obind omap]. destruct gl; auto.
    - unfold gaps_untrimmed_lazy, gaps_trimmed_lazy, contains_interval_lazy, gaps_untrimmed, gaps_trimmed, map_contains_interval.
      rewrite (iip_invalid _ Nq). cbn. auto.
  Qed.
End Props.

(** A [K::from] that puts the end-points in order, and one that panics on
    invalid intervals. *)
Definition sorting_from (i : Interval u8) : outcome (Interval u8) :=
  Val (if is_valid i then i else mkInterval (ivl_end i) (ivl_start i)).
Definition checking_from (i : Interval u8) : outcome (Interval u8) :=
  if is_valid i then Val i else Panic.
Lemma sorting_right : right_on_valid sorting_from.
Proof. intros i V. apply is_valid_true in V. unfold sorting_from. rewrite V. reflexivity. Qed.
Lemma checking_right : right_on_valid checking_from.
Proof. intros i V. apply is_valid_true in V. unfold checking_from. rewrite V. reflexivity. Qed.
Lemma checking_panics : forall i, ~ valid i -> checking_from i = Panic.
Proof.
  intros i N. unfold checking_from. destruct (is_valid i) eqn:E; [|reflexivity]. apply is_valid_true in E. contradiction.
Qed.

(** The two entries [6,7] and [8,9] cover [6,9], but the empty space between
    them comes back as the gap [7,8]. *)
Theorem C75_gap_queries_refuted : exists try_from (m : NoditMap (Interval u8) nat) (q : Interval u8),
  right_on_valid try_from /\ reachable m /\ valid q /\ (forall p, covers q p -> covered (iter m) p) /\
  contains_interval_lazy try_from m q = Val false /\
  gaps_untrimmed_lazy try_from m q = Val [Val (7 --> 8)] /\ gaps_trimmed_lazy try_from m q = Val [Val (7 --> 8)].
Proof.
  exists sorting_from, ex_map, (6 --> 9). split; [exact sorting_right|]. split; [exact ex_map_reachable|].
  assert (V : valid (6 --> 9 : Interval u8)) by (apply ex_valid; reflexivity). split; [exact V|].
  split; [|repeat split; vm_compute; reflexivity].
  destruct (C06_contains_interval ex_map (6 --> 9) ex_map_reachable V) as (b & E & Hb).
  apply Hb. vm_compute in E. injection E as <-. reflexivity.
Qed.
Theorem C76_gap_queries_panic_refuted : exists try_from (m : NoditMap (Interval u8) nat) (q : Interval u8),
  right_on_valid try_from /\ reachable m /\ valid q /\
  contains_interval_lazy try_from m q = Panic /\
  gaps_untrimmed_lazy try_from m q = Val [Panic] /\ gaps_trimmed_lazy try_from m q = Val [Panic].
Proof.
  exists checking_from, ex_map, (6 --> 9). split; [exact checking_right|]. split; [exact ex_map_reachable|].
  split; [apply ex_valid; reflexivity|]. repeat split; vm_compute; reflexivity.
Qed.

(** The hypotheses are met, non-trivially: [2,4] and [6,7] do not touch. *)
Example C75_example : apart ex_map (1 --> 7 : Interval u8) /\
  gaps_untrimmed_lazy sorting_from ex_map (1 --> 7) = Val [Val (0 --> 1); Val (5 --> 5)].
Proof.
  split; [|vm_compute; reflexivity].
  intros k v k' v' Hk Hk' Ok Ok'. rewrite ex_map_entries in *.
  assert (N1 : ~ overlap (8 --> 9 : Interval u8) (1 --> 7 : Interval u8)).
  { intros (p & [A1 _] & [_ A2]). change (8 <= ival p)%Z in A1. change (ival p <= 7)%Z in A2. lia. }
  assert (N2 : ~ overlap (20 --> 30 : Interval u8) (1 --> 7 : Interval u8)).
  { intros (p & [A1 _] & [_ A2]). change (20 <= ival p)%Z in A1. change (ival p <= 7)%Z in A2. lia. }
  assert (N3 : between (2 --> 4 : Interval u8) (6 --> 7 : Interval u8) '5).
  { split; intros p [A1 A2].
    - change (ival p <= 4)%Z in A2. change (ival p < 5)%Z. lia.
    - change (6 <= ival p)%Z in A1. change (5 < ival p)%Z. lia. }
  assert (N4 : forall a b : u8, valid (mkInterval a b) -> ~ touch (mkInterval a b) (mkInterval a b)).
  { intros a b (p & P) [N _]. apply N. exists p. auto. }
  cbn [In] in *.
  destruct Hk as [[= <- <-]|[[= <- <-]|[[= <- <-]|[[= <- <-]|[]]]]]; try contradiction;
  destruct Hk' as [[= <- <-]|[[= <- <-]|[[= <- <-]|[[= <- <-]|[]]]]]; try contradiction.
  - apply N4, ex_valid. reflexivity.
  - intros [_ T]. destruct (T '5) as [T1 T2]. contradiction.
  - intros [_ T]. destruct (T '5) as [T1 T2]. contradiction.
  - apply N4, ex_valid. reflexivity.
Qed.
Example C76_example :
  gaps_untrimmed_lazy checking_from ex_map (5 --> 25 : Interval u8) = Val [Val (5 --> 5); Panic] /\
  collect [Val (5 --> 5 : Interval u8); Panic] = Panic /\
  contains_interval_lazy checking_from ex_map (5 --> 25 : Interval u8) = Val false /\
  gaps_trimmed_lazy checking_from ex_map (8 --> 25 : Interval u8) = Val [Val (10 --> 19)].
Proof. vm_compute. auto. Qed.
Print Assumptions C75_gap_queries_partial.
Print Assumptions C76_gap_queries_panic_partial.
Print Assumptions C76_laziness_is_immaterial.
Print Assumptions C75_gap_queries_refuted.
Print Assumptions C76_gap_queries_panic_refuted.
