(** * PropsFromExact: exactly what the gap queries need of the user's
    [K::from] (C75, C76).

    As in [PropsFrom], [try_from] is the user's [K::from(Interval)], right on
    valid intervals and arbitrary, possibly panicking, on invalid ones. *)
From Coq Require Import List ZArith Bool Lia Sorting.Sorted.
From Verif Require Import Base BTree UtilsModel IntervalModel NoditModel NoditOps GapsLazyModel Spec InstancesModel Instances
  PointFacts IntervalFacts ListFacts NoditFacts NoditQueries NoditGaps NoditInv GapsLazyFacts TransportFacts GapsExact PropsNodit PropsFrom.
Import ListNotations.
Open Scope nat_scope.

Section Props.
  Context {I : Type} {OI : Ord I} {DI : DiscreteFinite I} {PL : PointLaws I}.
  Context {K : Type} {IK : InclusiveInterval I K} {IL : IntervalLaws I K}.
  Context {Q : Type} {IQ : InclusiveInterval I Q}.
  Context {V : Type}.
  Implicit Types (m : NoditMap K V) (q : Q).

  (** [k] and, right after it with no point between, [k'] are stored and
      overlap [q]; the code asks [K::from] for the interval from [u] to [d]. *)
  Definition asked m q (k k' : K) (u d : I) : Prop :=
    (exists v, In (k, v) (iter m)) /\ (exists v', In (k', v') (iter m)) /\ overlap k q /\ overlap k' q /\
    touch k k' /\ before k k' /\ up (iend k) = Some u /\ down (istart k') = Some d.

  (** What comes back is an invalid interval. *)
  Definition stays_invalid (o : outcome K) : Prop := exists g, o = Val g /\ ~ valid g.

  Definition always_stays_invalid (try_from : Interval I -> outcome K) m q : Prop :=
    forall k k' u d, asked m q k k' u d -> stays_invalid (try_from (mkInterval u d)).

  Lemma asked_pairs m q M k k' u d : WF m -> sub (fun x => overlap (fst x) q) m M ->
    (asked m q k k' u d <-> exists x y, In x M /\ In y M /\ fst x = k /\ fst y = k' /\ elo y = (ehi x + 1)%Z /\
       up (iend k) = Some u /\ down (istart k') = Some d).
  Proof.
    intros W HS. pose proof (sub_in _ _ _ HS) as Hin. split.
    - intros ((v & Hk) & (v' & Hk') & Ok & Ok' & Tk & Bk & Eu & Ed). exists (k, v), (k', v').
      pose proof (WF_okv _ _ W Hk) as Vk. pose proof (WF_okv _ _ W Hk') as Vk'. unfold elo, ehi in *. cbn [fst] in *.
      apply touch_rk in Tk; [|assumption..]. apply IntervalFacts.before_rk in Bk; [|assumption..].
      split; [apply Hin; auto|]. split; [apply Hin; auto|]. repeat (split; [reflexivity|]). split; [lia|]. auto.
    - intros ((k1 & v) & (k1' & v') & Hx & Hy & <- & <- & E & Eu & Ed). apply Hin in Hx, Hy. destruct Hx as [Hx Ox], Hy as [Hy Oy].
      pose proof (WF_okv _ _ W Hx) as Vk. pose proof (WF_okv _ _ W Hy) as Vk'. unfold elo, ehi in *. cbn [fst] in *.
      split; [exists v; exact Hx|]. split; [exists v'; exact Hy|]. split; [exact Ox|]. split; [exact Oy|].
      split; [apply touch_rk; try assumption; lia|]. split; [apply IntervalFacts.before_rk; try assumption; lia|]. auto.
  Qed.
  Lemma not_valid_false (g : K) : ~ valid g <-> is_valid g = false.
  Proof. rewrite <- is_valid_true. destruct (is_valid g); split; congruence. Qed.
  Lemma harmless_asked try_from m q M : WF m -> sub (fun x => overlap (fst x) q) m M ->
    (harmless try_from M <-> always_stays_invalid try_from m q).
  Proof.
    intros W HS. split.
    - intros Hm k k' u d A. apply (asked_pairs m q M) in A; [|assumption..].
      destruct A as (x & y & Hx & Hy & <- & <- & E & Eu & Ed). destruct (Hm x y u d Hx Hy E Eu Ed) as (g & E1 & E2).
      exists g. split; [exact E1|]. apply not_valid_false, E2.
    - intros Hm x y u d Hx Hy E Eu Ed. destruct (Hm (fst x) (fst y) u d) as (g & E1 & E2).
      + apply (asked_pairs m q M); [assumption..|]. exists x, y. auto 10.
      + exists g. split; [exact E1|]. apply not_valid_false, E2.
  Qed.

  (** ** C75: the gap queries are right exactly when no interval [K::from] makes of
      the space between two touching entries is valid *)
  Theorem C75_gap_queries_exact : forall try_from m q, right_on_valid try_from -> reachable m -> valid q ->
    ((exists gl, gaps_untrimmed_lazy try_from m q = Val (map Val gl) /\
        lists_max_runs (fun p => ~ covered (iter m) p) (fun g => overlap g q) gl) <->
     always_stays_invalid try_from m q) /\
    ((exists tl, gaps_trimmed_lazy try_from m q = Val (map Val tl) /\
        lists_max_runs (fun p => ~ covered (iter m) p /\ covers q p) (fun _ => True) tl) <->
     always_stays_invalid try_from m q) /\
    (contains_interval_lazy try_from m q = Val true <->
     (forall p, covers q p -> covered (iter m) p) /\ always_stays_invalid try_from m q).
  Proof.
    intros tf m q Ht R Vq. pose proof (reachable_WF m R) as W. unfold iter.
    destruct (both_shapes tf Ht m q W Vq) as (M & s & e & s' & e' & EM & WM & HS & Vs & Ve & Vs' & Ve' & E1 & E2 & F1 & F2 & _).
    rewrite <- (harmless_asked tf m q M W HS).
    pose proof (plain_WF m W) as WP. set (mp := tr hk (fun v => v) m) in *.
    destruct (gaps_untrimmed_spec mp q WP Vq (quiet_at_FI mp q)) as (gl & G1 & R1).
    destruct (gaps_trimmed_spec mp q WP Vq (quiet_at_FI mp q)) as (tl & G2 & R2).
    destruct (map_contains_interval_spec mp q WP Vq (quiet_at_FI mp q)) as (b & G3 & R3).
    destruct (inner_exact tf Ht M WM) as (gs & Eg & Vg & Hh & Hl).
    destruct (lazy_cases (K := Interval I) (fun i => Val (ifrom i)) (fun i _ => eq_refl) mp q WP Vq)
      as [(x & y & i & _ & _ & _ & _ & _ & _ & _ & Ei)|(gl' & tl' & H1 & H2 & H3 & H4)]; [discriminate|].
    rewrite patched_id in H3, H4. pose proof (lazy_ext (fun i => Val (ifrom i)) Val mp q) as X. destruct X as [X1 X2].
    { intros [i j]. reflexivity. }
    rewrite X1 in H1. rewrite X2 in H2. clear X1 X2.
    rewrite G1 in H3. injection H3 as <-. rewrite G2 in H4. injection H4 as <-.
    rewrite F1 in H1. injection H1 as H1. rewrite F2 in H2. injection H2 as H2.
    rewrite Eg, <- !map_app in H1, H2. apply map_Val_inj in H1, H2.
    assert (Cv : forall p, covered mp p <-> covered m p) by (apply plain_covered).
    assert (X1 : forall l : list (outcome K), (exists gl, Val l = Val (map Val gl) /\
        lists_max_runs (fun p => ~ covered m p) (fun g => overlap g q) gl) <-> (exists gl, l = map Val gl /\
        lists_max_runs (fun p => ~ covered m p) (fun g => overlap g q) gl)).
    { intros l. split; intros (a & A & B); exists a; (split; [congruence|exact B]). }
    assert (X2 : forall l : list (outcome K), (exists gl, Val l = Val (map Val gl) /\
        lists_max_runs (fun p => ~ covered m p /\ covers q p) (fun _ => True) gl) <-> (exists gl, l = map Val gl /\
        lists_max_runs (fun p => ~ covered m p /\ covers q p) (fun _ => True) gl)).
    { intros l. split; intros (a & A & B); exists a; (split; [congruence|exact B]). }
    rewrite E1, E2, X1, X2. split; [|split].
    - apply (exact_runs tf Ht M (fun p => ~ covered mp p) _ _ s e gs gl); auto.
      + intros p. rewrite Cv. reflexivity.
      + intros a b0 Sab (p & Hp & Hq). exists p. split; [apply Sab, Hp|exact Hq].
    - apply (exact_runs tf Ht M (fun p => ~ covered mp p /\ covers q p) _ _ s' e' gs tl); auto.
      intros p. rewrite Cv. reflexivity.
    - unfold contains_interval_lazy. rewrite (iip_valid _ Vq), E1. cbn [obind].
      unfold map_contains_interval in G3. rewrite (iip_valid _ Vq), G1 in G3. cbn [obind] in G3.
      assert (R4 : gl = [] <-> forall p, covers q p -> covered m p).
      { assert (Eb : gl = [] <-> b = true) by (destruct gl; injection G3 as <-; split; congruence).
        rewrite Eb, R3. split; intros Hc p Hp; apply Cv, Hc, Hp. }
      rewrite <- R4, <- H1. split.
      + intros Et. destruct s as [|g0 s]; [|discriminate]. cbn [map app] in *.
        destruct (inner_steps tf M) as [|[g0|] l] eqn:Es; try discriminate. cbn [app] in Et.
        destruct e as [|g0 e]; [|discriminate].
        destruct (Hl [] eq_refl) as [L1 L2]. destruct gs; [|cbn in L1; lia]. split; [reflexivity|]. apply L2. cbn. lia.
      + intros [En Hm]. destruct s; [|discriminate]. destruct gs; [|discriminate]. cbn [app] in En. subst e.
        rewrite (Hh Hm). reflexivity.
  Qed.

  (** ** C76: exactly when [contains_interval] panics: the query is invalid, or
      [K::from] panics between two touching entries up to which the query is
      covered, having returned invalid intervals until then *)
  Theorem C76_contains_interval_panics_exact : forall try_from m q, right_on_valid try_from -> reachable m ->
    (contains_interval_lazy try_from m q = Panic <->
     ~ valid q \/ exists k k' u d, asked m q k k' u d /\ try_from (mkInterval u d) = Panic /\
       (forall p, covers q p -> ple p (iend k) -> covered (iter m) p) /\
       (forall j j' u' d', asked m q j j' u' d' -> before j k -> stays_invalid (try_from (mkInterval u' d')))).
  Proof.
    intros tf m q Ht R. pose proof (reachable_WF m R) as W. unfold iter.
    destruct (valid_dec q) as [Vq|Nq].
    2:{ unfold contains_interval_lazy. rewrite (iip_invalid _ Nq). cbn [obind]. split; auto. }
    destruct (both_shapes tf Ht m q W Vq) as (M & s & e & s' & e' & EM & WM & HS & Vs & Ve & Vs' & Ve' & E1 & E2 & F1 & F2 & Hn & Hg).
    assert (S : forall X, ~ valid q \/ X <-> X) by (intros X; split; [intros [N|Hx]; [contradiction|exact Hx]|auto]).
    rewrite S. clear S. unfold contains_interval_lazy. rewrite (iip_valid _ Vq), E1. cbn [obind].
    pose proof (sub_in _ _ _ HS) as Hin. apply valid_rk in Vq as Lq.
    assert (HM : forall x, In x M -> meets (lo q) (hi q) x).
    { intros [k v] Hx. apply Hin in Hx. destruct Hx as [Hx Ox]. apply overlap_rk in Ox. unfold meets, elo, ehi. cbn [fst] in *. lia. }
    assert (HC : forall p, covers q p -> (covered m p <-> exists x, In x M /\ (elo x <= rk p <= ehi x)%Z)).
    { intros p Hp. split.
      - intros (k & v & Hk & Hc). exists (k, v). split; [|apply covers_rk in Hc; exact Hc]. apply Hin. split; [exact Hk|]. exists p. auto.
      - intros ([k v] & Hx & Hc). apply Hin in Hx. exists k, v. split; [apply Hx|]. apply covers_rk. exact Hc. }
    assert (Hd : match map (fun i => Val (ifrom i)) s ++ inner_steps tf M ++ map (fun i => Val (ifrom i)) e with
                 | [] => Val true | Val _ :: _ => Val false | Panic :: _ => Panic end = Panic <->
                 s = [] /\ exists l, inner_steps tf M = Panic :: l).
    { destruct s as [|g s]; cbn [map app]; [|split; [discriminate|intros [E _]; discriminate]].
      destruct (inner_steps tf M) as [|[g|] l]; cbn [app].
      - split; [|intros [_ (l & E)]; discriminate]. destruct e; discriminate.
      - split; [discriminate|intros [_ (l' & E)]; discriminate].
      - split; [|reflexivity]. intros _. split; [reflexivity|]. exists l. reflexivity. }
    rewrite Hd. clear Hd. split.
    - intros [-> Hp]. destruct (Hn eq_refl) as (x & r & -> & Lx). apply (inner_head tf Ht x r WM) in Hp.
      destruct Hp as (a & b & u & d & Ha & Hb & E & Eu & Ed & EP & C & F). exists (fst a), (fst b), u, d.
      split; [apply (asked_pairs m q (x :: r)); [assumption..|]; exists a, b; auto 10|]. split; [exact EP|]. split.
      + intros p Hp Lp. apply HC; [exact Hp|]. apply C. apply covers_rk in Hp. apply ple_rk in Lp. unfold ehi, hi. lia.
      + intros j j' u' d' Aj Bj. apply (asked_pairs m q (x :: r)) in Aj; [|assumption..].
        destruct Aj as (y & z & Hy & Hz & <- & <- & E' & Eu' & Ed').
        apply IntervalFacts.before_rk in Bj; [|apply (WF_okv _ _ WM Hy)|apply (WF_okv _ _ WM Ha)].
        destruct (F y z u' d' Hy Hz E' Bj Eu' Ed') as (g & G1 & G2). exists g. split; [exact G1|apply not_valid_false, G2].
    - intros (k & k' & u & d & A & EP & C & F). apply (asked_pairs m q M) in A; [|assumption..].
      destruct A as (a & b & Ha & Hb & <- & <- & E & Eu & Ed).
      assert (Es : s = []).
      { destruct s as [|g s]; [reflexivity|exfalso]. pose proof (Hg g (or_introl eq_refl)) as Hl.
        assert (Cq : covers q (istart q)) by (apply covers_rk; unfold lo, hi in *; lia).
        assert (Lq' : ple (istart q) (iend (fst a))).
        { apply ple_rk. specialize (Hl a Ha). pose proof (WF_okv _ _ WM Ha). unfold elo, ehi, lo, hi in *. lia. }
        specialize (C _ Cq Lq'). apply HC in C; [|exact Cq]. destruct C as (x & Hx & Bx). specialize (Hl x Hx). unfold lo in Hl. lia. }
      split; [exact Es|]. destruct (Hn Es) as (x & r & -> & Lx). apply (inner_head tf Ht x r WM).
      exists a, b, u, d. repeat (split; [assumption|]). split.
      + intros z Bz. destruct (Z_lt_le_dec z (lo q)) as [Lz|Lz].
        * exists x. split; [left; reflexivity|]. specialize (HM x (or_introl eq_refl)). unfold meets in HM. lia.
        * pose proof (HM b Hb) as Mb. unfold meets in Mb.
          destruct (rk_surj (istart q) (iend q) z) as (p & Hp); [unfold lo, hi in *; lia|]. subst z.
          apply HC; [apply covers_rk; lia|]. apply C; [apply covers_rk; lia|]. apply ple_rk. unfold ehi, hi in Bz. lia.
      + intros y z u' d' Hy Hz E' Bj Eu' Ed'. destruct (F (fst y) (fst z) u' d') as (g & G1 & G2).
        * apply (asked_pairs m q (x :: r)); [assumption..|]. exists y, z. auto 10.
        * apply IntervalFacts.before_rk; [apply (WF_okv _ _ WM Hy)|apply (WF_okv _ _ WM Ha)|exact Bj].
        * exists g. split; [exact G1|apply not_valid_false, G2].
  Qed.

  (** In particular for every [K::from] that turns invalid intervals into invalid
      ones. *)
  Theorem C75_gap_queries_keeping_invalid : forall try_from m q, right_on_valid try_from ->
    (forall i, ~ valid i -> stays_invalid (try_from i)) -> reachable m -> valid q ->
    (exists gl, gaps_untrimmed_lazy try_from m q = Val (map Val gl) /\
       lists_max_runs (fun p => ~ covered (iter m) p) (fun g => overlap g q) gl) /\
    (exists tl, gaps_trimmed_lazy try_from m q = Val (map Val tl) /\
       lists_max_runs (fun p => ~ covered (iter m) p /\ covers q p) (fun _ => True) tl) /\
    (contains_interval_lazy try_from m q = Val true <-> forall p, covers q p -> covered (iter m) p).
  Proof.
    intros tf m q Ht Hk R Vq. destruct (C75_gap_queries_exact tf m q Ht R Vq) as (H1 & H2 & H3).
    assert (A : always_stays_invalid tf m q).
    { intros k k' u d ((v & Ik) & (v' & Ik') & _ & _ & T & B & Eu & Ed). apply Hk. rewrite valid_rk.
      pose proof (reachable_WF m R) as W. pose proof (WF_okv _ _ W Ik) as Vk. pose proof (WF_okv _ _ W Ik') as Vk'.
      unfold elo, ehi in *. cbn [fst] in *. apply touch_rk in T; [|assumption..]. apply IntervalFacts.before_rk in B; [|assumption..].
      apply up_rk in Eu. apply down_rk in Ed. unfold lo, hi in *. cbn. lia. }
    split; [apply H1, A|]. split; [apply H2, A|]. rewrite H3. tauto.
  Qed.
End Props.

(** [6,7] and [8,9] touch inside [6,9]; between them the code asks for [8,7]. *)
Example ex_asked : asked ex_map (6 --> 9 : Interval u8) (6 --> 7) (8 --> 9) '8 '7.
Proof.
  unfold asked. rewrite ex_map_entries. split; [exists 2; cbn; auto|]. split; [exists 2; cbn; auto|].
  split; [exists '6; split; split; vm_compute; discriminate|]. split; [exists '8; split; split; vm_compute; discriminate|].
  split; [|split; [|split; reflexivity]].
  - split.
    + intros (p & [_ A1] & [A2 _]). change (ival p <= 7)%Z in A1. change (8 <= ival p)%Z in A2. lia.
    + intros p. assert (C7 : covers (6 --> 7 : Interval u8) '7) by (split; vm_compute; discriminate).
      assert (C8 : covers (8 --> 9 : Interval u8) '8) by (split; vm_compute; discriminate). split; intros [A1 A2].
      * specialize (A1 _ C7). specialize (A2 _ C8). change (7 < ival p)%Z in A1. change (ival p < 8)%Z in A2. lia.
      * specialize (A1 _ C8). specialize (A2 _ C7). change (8 < ival p)%Z in A1. change (ival p < 7)%Z in A2. lia.
  - intros x y [_ A1] [A2 _]. change (ival x <= 7)%Z in A1. change (8 <= ival y)%Z in A2. change (ival x < ival y)%Z. lia.
Qed.
(** A sorting [K::from] fails the condition, one that keeps the end-points
    meets it, and so does one that panics at other places only. *)
Definition picky_from (i : Interval u8) : outcome (Interval u8) :=
  if is_valid i then Val i else if eqb (ivl_start i) '8 then Val i else Panic.
Example C75_exact_example : ~ always_stays_invalid sorting_from ex_map (6 --> 9 : Interval u8) /\
  stays_invalid (picky_from (8 --> 7)) /\
  gaps_untrimmed_lazy picky_from ex_map (5 --> 9 : Interval u8) = Val [Val (5 --> 5)] /\
  contains_interval_lazy picky_from ex_map (6 --> 9 : Interval u8) = Val true.
Proof.
  split; [|split; [|split; vm_compute; reflexivity]].
  - intros A. destruct (A _ _ _ _ ex_asked) as (g & E & N). vm_compute in E. injection E as <-. apply N.
    exists '7. split; vm_compute; discriminate.
  - exists (8 --> 7). split; [vm_compute; reflexivity|]. intros (p & A1 & A2). change (8 <= ival p)%Z in A1.
    change (ival p <= 7)%Z in A2. lia.
Qed.
Example C76_exact_example : checking_from (8 --> 7) = Panic /\
  contains_interval_lazy checking_from ex_map (6 --> 9 : Interval u8) = Panic /\
  contains_interval_lazy checking_from ex_map (5 --> 9 : Interval u8) = Val false /\
  contains_interval_lazy sorting_from ex_map (6 --> 9 : Interval u8) = Val false.
Proof. vm_compute. auto. Qed.
Print Assumptions C75_gap_queries_exact.
Print Assumptions C76_contains_interval_panics_exact.
Print Assumptions C75_gap_queries_keeping_invalid.
