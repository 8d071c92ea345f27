(** * PropsSplit: a call about an interval made of two is the two calls (C146). *)
From Coq Require Import List ZArith Bool Lia.
From Verif Require Import Base BTree UtilsModel IntervalModel NoditModel NoditOps Spec CompleteOps SplitOps InstancesModel Instances
  PointFacts IntervalFacts NoditFacts NoditInv NoditQueries NoditGaps NoditMutations NoditMerges SplitFacts PropsNodit PropsUndo.
Import ListNotations.
Open Scope nat_scope.

Section Props.
  Context {I : Type} `{PL : PointLaws I}.
  Context {K : Type} {IK : InclusiveInterval I K} {IL : IntervalLaws I K} {FI : FromInvalid I K}.
  Context {V : Type}.
  Implicit Types (m : NoditMap K V) (v : V).

  Section Queries.
    Context {Q Q1 Q2 : Type} {IQ : InclusiveInterval I Q} {IQ1 : InclusiveInterval I Q1} {IQ2 : InclusiveInterval I Q2}.

    Local Lemma whole (q : Q) (q1 : Q1) (q2 : Q2) : made_of q q1 q2 -> valid q.
    Proof. intros M. apply (made_of_rk q q1 q2 M). Qed.

    (** ** C146 *)
    (** Questions answered by yes or no. *)
    Theorem C146_overlaps : forall m (q : Q) (q1 : Q1) (q2 : Q2), reachable m -> made_of q q1 q2 ->
      exists b1 b2, map_overlaps m q1 = Val b1 /\ map_overlaps m q2 = Val b2 /\ map_overlaps m q = Val (b1 || b2).
    Proof.
      intros m q q1 q2 R M. apply reachable_WF in R. pose proof M as (V1 & V2 & _). pose proof (whole q q1 q2 M) as Vq.
      destruct (map_overlaps_spec m q R Vq) as (b & E & H'). destruct (map_overlaps_spec m q1 R V1) as (b1 & E1 & H1).
      destruct (map_overlaps_spec m q2 R V2) as (b2 & E2 & H2). exists b1, b2. split; [exact E1|]. split; [exact E2|]. rewrite E. f_equal.
      apply eq_true_iff_eq. rewrite orb_true_iff, H', H1, H2. split.
      - intros (k & v & Hi & O). apply (overlap_made k q q1 q2 M) in O. destruct O as [O|O]; [left|right]; exists k, v; auto.
      - intros [(k & v & Hi & O)|(k & v & Hi & O)]; exists k, v; (split; [exact Hi|]); apply (overlap_made k q q1 q2 M); auto.
    Qed.
    Theorem C146_contains_interval : forall m (q : Q) (q1 : Q1) (q2 : Q2), reachable m -> made_of q q1 q2 ->
      exists b1 b2, map_contains_interval m q1 = Val b1 /\ map_contains_interval m q2 = Val b2 /\ map_contains_interval m q = Val (b1 && b2).
    Proof.
      intros m q q1 q2 R M. apply reachable_WF in R. pose proof M as (V1 & V2 & C). pose proof (whole q q1 q2 M) as Vq.
      destruct (map_contains_interval_spec m q R Vq (quiet_at_FI m q)) as (b & E & H'). destruct (map_contains_interval_spec m q1 R V1 (quiet_at_FI m q1)) as (b1 & E1 & H1).
      destruct (map_contains_interval_spec m q2 R V2 (quiet_at_FI m q2)) as (b2 & E2 & H2). exists b1, b2. split; [exact E1|]. split; [exact E2|]. rewrite E. f_equal.
      apply eq_true_iff_eq. rewrite andb_true_iff, H', H1, H2. split.
      - intros X. split; intros p Hp; apply X, C; auto.
      - intros [X Y] p Hp. apply C in Hp. destruct Hp; auto.
    Qed.
    (** Of the entries that overlap, at most one is listed for both parts. *)
    Theorem C146_overlapping : forall m (q : Q) (q1 : Q1) (q2 : Q2), reachable m -> made_of q q1 q2 -> before q1 q2 ->
      exists l1 l l2, overlapping m q1 = Val (l1 ++ l) /\ overlapping m q2 = Val (l ++ l2) /\
        overlapping m q = Val (l1 ++ l ++ l2) /\ length l <= 1.
    Proof.
      intros m q q1 q2 R M B. apply reachable_WF in R. pose proof M as (V1 & V2 & C). pose proof (whole q q1 q2 M) as Vq.
      destruct (overlap_chop q q1 q2 M m R B) as (a & s & b & S & S1 & S2 & Ls & _). exists a, s, b.
      destruct (overlapping_spec m q R Vq) as (l & E & L). destruct (overlapping_spec m q1 R V1) as (l1 & E1 & L1). destruct (overlapping_spec m q2 R V2) as (l2 & E2 & L2).
      rewrite (ListFacts.sub_unique _ _ _ _ L S) in E. rewrite (ListFacts.sub_unique _ _ _ _ L1 S1) in E1. rewrite (ListFacts.sub_unique _ _ _ _ L2 S2) in E2. auto.
    Qed.
    (** Of the gaps, at most one is listed for both parts ... *)
    Theorem C146_gaps_untrimmed : forall m (q : Q) (q1 : Q1) (q2 : Q2), reachable m -> made_of q q1 q2 -> before q1 q2 ->
      exists a s b g1 g2, gaps_untrimmed m q = Val (a ++ s ++ b) /\ gaps_untrimmed m q1 = Val g1 /\ gaps_untrimmed m q2 = Val g2 /\
        length s <= 1 /\ Forall2 same_points g1 (a ++ s) /\ Forall2 same_points g2 (s ++ b).
    Proof.
      intros m q q1 q2 R M B. destruct (gaps_chop q q1 q2 M m (reachable_WF m R) B) as (g & g1 & g2 & a & s & b & E & E1 & E2 & -> & Ls & S1 & S2 & _).
      exists a, s, b, g1, g2. auto 8.
    Qed.
    (** ... and chopped when the gaps are trimmed. *)
    Theorem C146_gaps_trimmed : forall m (q : Q) (q1 : Q1) (q2 : Q2), reachable m -> made_of q q1 q2 -> before q1 q2 ->
      exists t t1 t2, gaps_trimmed m q = Val t /\ gaps_trimmed m q1 = Val t1 /\ gaps_trimmed m q2 = Val t2 /\
        chopped q1 q2 (unmarked t) (unmarked t1) (unmarked t2).
    Proof. intros m q q1 q2 R M B. exact (trimmed_chop q q1 q2 M m (reachable_WF m R) B). Qed.

    (** Removals. *)
    Theorem C146_remove_overlapping : forall m (q : Q) (q1 : Q1) (q2 : Q2), reachable m -> made_of q q1 q2 -> before q1 q2 ->
      exists m' m1 l1 l2, remove_overlapping q1 m = (m1, Val l1) /\ remove_overlapping q2 m1 = (m', Val l2) /\
        remove_overlapping q m = (m', Val (l1 ++ l2)).
    Proof.
      intros m q q1 q2 R M B. destruct (remove_chop q q1 q2 M m (reachable_WF m R) B) as (m' & l & m1 & l1 & l2 & E & E1 & E2 & ->).
      exists m', m1, l1, l2. auto.
    Qed.
    Theorem C146_cut : forall m (q : Q) (q1 : Q1) (q2 : Q2), reachable m -> made_of q q1 q2 -> before q1 q2 ->
      exists m' l m1 l1 m2 l2, cut q m = (m', Val l) /\ cut q1 m = (m1, Val l1) /\ cut q2 m1 = (m2, Val l2) /\
        same_entries m2 m' /\ chopped q1 q2 l l1 l2.
    Proof. intros m q q1 q2 R M B. exact (cut_chop q q1 q2 M m (reachable_WF m R) B). Qed.
    (** What is left does not depend on the order, nor on the parts being apart. *)
    Theorem C146_cut_left : forall m (q : Q) (q1 : Q1) (q2 : Q2), reachable m -> made_of q q1 q2 ->
      same_entries (iter (fst (cut q2 (fst (cut q1 m))))) (iter (fst (cut q m))).
    Proof.
      intros m q q1 q2 R M. apply reachable_WF in R. pose proof M as (V1 & V2 & _). pose proof (whole q q1 q2 M) as Vq.
      destruct (cut_entries m q R Vq) as (m' & l & E & _). destruct (cut_entries m q1 R V1) as (m1 & l1 & E1 & W1 & _).
      destruct (cut_entries m1 q2 W1 V2) as (m2 & l2 & E2 & _). rewrite E, E1. cbn [fst]. rewrite E2. cbn [fst]. exact (cut_left q q1 q2 M m m' l m1 l1 m2 l2 R E E1 E2).
    Qed.
  End Queries.

  (** Insertions: overwriting ... *)
  Theorem C146_insert_overwrite : forall m (k k1 k2 : K) v, reachable m -> made_of k k1 k2 ->
    exists m' l m1 l1 m2 l2, insert_overwrite k v m = (m', Val l) /\ insert_overwrite k1 v m = (m1, Val l1) /\
      insert_overwrite k2 v m1 = (m2, Val l2) /\ (forall p, get_at_point m2 p = get_at_point m' p) /\
      (before k1 k2 -> chopped k1 k2 l l1 l2).
  Proof.
    intros m k k1 k2 v R M. apply reachable_WF in R. destruct (overwrite_split k k1 k2 v M m R) as (m' & l & m1 & l1 & m2 & l2 & E & E1 & E2 & S & C).
    exists m', l, m1, l1, m2, l2. do 3 (split; [assumption|]). split; [|exact C]. pose proof M as (V1 & V2 & _).
    destruct (insert_overwrite_spec m k v R (whole k k1 k2 M)) as (x & y & Ex & _ & W' & _). rewrite E in Ex. injection Ex as <- <-.
    destruct (insert_overwrite_spec m k1 v R V1) as (x & y & Ex & _ & W1 & _). rewrite E1 in Ex. injection Ex as <- <-.
    destruct (insert_overwrite_spec m1 k2 v W1 V2) as (x & y & Ex & _ & W2 & _). rewrite E2 in Ex. injection Ex as <- <-.
    intros p. apply same_map_get; assumption.
  Qed.
  (** ... strict: the whole is refused exactly if one of the parts is ... *)
  Theorem C146_insert_strict : forall m (k k1 k2 : K) v, reachable m -> made_of k k1 k2 -> ~ overlap k1 k2 ->
    (insert_strict k v m = (m, Val (Err v)) /\
      (insert_strict k1 v m = (m, Val (Err v)) \/
       exists m1, insert_strict k1 v m = (m1, Val (Ok tt)) /\ insert_strict k2 v m1 = (m1, Val (Err v)))) \/
    exists m' m1 m2, insert_strict k v m = (m', Val (Ok tt)) /\ insert_strict k1 v m = (m1, Val (Ok tt)) /\
      insert_strict k2 v m1 = (m2, Val (Ok tt)) /\ forall p, get_at_point m2 p = get_at_point m' p.
  Proof.
    intros m k k1 k2 v R M N. apply reachable_WF in R. pose proof M as (V1 & V2 & _). pose proof (whole k k1 k2 M) as Vk.
    destruct (strict_split k k1 k2 v M m N R) as [X|(m' & m1 & m2 & E & E1 & E2 & S)]; [left; exact X|right]. exists m', m1, m2. do 3 (split; [assumption|]).
    intros p. assert (G : forall x y (j : K), WF x -> valid j -> insert_strict j v x = (y, Val (Ok tt)) -> WF y).
    { intros x y j Wx Vj Ex. destruct (overlap_dec x j Wx Vj) as [O|O]; [rewrite insert_strict_refused in Ex by assumption; discriminate|].
      destruct (insert_strict_done x j v Wx Vj O) as (c & d & _ & Ex' & Wy). rewrite Ex in Ex'. injection Ex' as ->. exact Wy. }
    pose proof (G m m1 k1 R V1 E1) as W1. apply same_map_get; [apply (G m1 m2 k2 W1 V2 E2)|apply (G m m' k R Vk E)|exact S].
  Qed.
  (** ... and merging, where the entries are the same in the end. *)
  Theorem C146_insert_merge_touching : forall m (k k1 k2 : K) v, reachable m -> made_of k k1 k2 -> ~ overlap k1 k2 ->
    (insert_merge_touching k v m = (m, Val (Err v)) /\
      (insert_merge_touching k1 v m = (m, Val (Err v)) \/
       exists m1 r1, insert_merge_touching k1 v m = (m1, Val (Ok r1)) /\ insert_merge_touching k2 v m1 = (m1, Val (Err v)))) \/
    exists m' r m1 r1 m2 r2, insert_merge_touching k v m = (m', Val (Ok r)) /\ insert_merge_touching k1 v m = (m1, Val (Ok r1)) /\
      insert_merge_touching k2 v m1 = (m2, Val (Ok r2)) /\ same_points r2 r /\ same_entries (iter m2) (iter m').
  Proof.
    intros m k k1 k2 v R M N. apply reachable_WF in R. pose proof (whole k k1 k2 M) as Vk.
    destruct (overlap_dec m k R Vk) as [O|O]; [left; exact (touching_split_refused k k1 k2 v M m N R O)|right].
    destruct (insert_merge_touching_done m k v R Vk O) as (m' & r & E & _).
    destruct (touching_split k k1 k2 v M m m' r N R E) as (m1 & r1 & m2 & r2 & E1 & E2 & S). exists m', r, m1, r1, m2, r2. auto.
  Qed.
  Theorem C146_insert_merge_touching_if_values_equal : forall veq m (k k1 k2 : K) v, veq v v = true -> reachable m -> made_of k k1 k2 -> ~ overlap k1 k2 ->
    (insert_merge_touching_if_values_equal veq k v m = (m, Val (Err v)) /\
      (insert_merge_touching_if_values_equal veq k1 v m = (m, Val (Err v)) \/
       exists m1 r1, insert_merge_touching_if_values_equal veq k1 v m = (m1, Val (Ok r1)) /\
         insert_merge_touching_if_values_equal veq k2 v m1 = (m1, Val (Err v)))) \/
    exists m' r m1 r1 m2 r2, insert_merge_touching_if_values_equal veq k v m = (m', Val (Ok r)) /\
      insert_merge_touching_if_values_equal veq k1 v m = (m1, Val (Ok r1)) /\
      insert_merge_touching_if_values_equal veq k2 v m1 = (m2, Val (Ok r2)) /\ same_points r2 r /\ same_entries (iter m2) (iter m').
  Proof.
    intros veq m k k1 k2 v Ev R M N. apply reachable_WF in R. pose proof (whole k k1 k2 M) as Vk.
    destruct (overlap_dec m k R Vk) as [O|O]; [left; exact (touching_if_equal_split_refused k k1 k2 v M veq m N R O)|right].
    destruct (insert_merge_touching_if_equal_done veq m k v R Vk O) as (m' & r & E & _).
    destruct (touching_if_equal_split k k1 k2 v M veq m m' r Ev N R E) as (m1 & r1 & m2 & r2 & E1 & E2 & S). exists m', r, m1, r1, m2, r2. auto.
  Qed.
  Theorem C146_insert_merge_touching_or_overlapping : forall m (k k1 k2 : K) v, reachable m -> made_of k k1 k2 ->
    exists m' r m1 r1 m2 r2, insert_merge_touching_or_overlapping k v m = (m', Val r) /\ insert_merge_touching_or_overlapping k1 v m = (m1, Val r1) /\
      insert_merge_touching_or_overlapping k2 v m1 = (m2, Val r2) /\ same_points r2 r /\ same_entries (iter m2) (iter m').
  Proof. intros m k k1 k2 v R M. exact (tor_split k k1 k2 v M m (reachable_WF m R)). Qed.
  (** (The parts only touch, so the second call need not merge with the first.) *)
  Theorem C146_insert_merge_overlapping : forall m (k k1 k2 : K) v, reachable m -> made_of k k1 k2 ->
    exists m' r m1 r1 m2 r2, insert_merge_overlapping k v m = (m', Val r) /\ insert_merge_overlapping k1 v m = (m1, Val r1) /\
      insert_merge_overlapping k2 v m1 = (m2, Val r2) /\ forall p, get_at_point m2 p = get_at_point m' p.
  Proof.
    intros m k k1 k2 v R M. apply reachable_WF in R. pose proof M as (V1 & V2 & _).
    destruct (overlapping_split k k1 k2 v M m R) as (m' & r & m1 & r1 & m2 & r2 & E & E1 & E2 & S). exists m', r, m1, r1, m2, r2. do 3 (split; [assumption|]).
    destruct (insert_merge_overlapping_spec m k v R (whole k k1 k2 M)) as (x & y & Ex & W' & _). rewrite E in Ex. injection Ex as <- <-.
    destruct (insert_merge_overlapping_spec m k1 v R V1) as (x & y & Ex & W1 & _). rewrite E1 in Ex. injection Ex as <- <-.
    destruct (insert_merge_overlapping_spec m1 k2 v W1 V2) as (x & y & Ex & W2 & _). rewrite E2 in Ex. injection Ex as <- <-.
    intros p. apply same_map_get; assumption.
  Qed.
  (** Where intervals are what their points are, the same entries are equal ones. *)
  Theorem C146_same_entries : determined_by_points I K -> forall m m', reachable m -> same_entries (iter m) (iter m') -> m = m'.
  Proof.
    intros D m m' R F. apply reachable_WF in R. unfold iter in F. induction F as [|[k v] [k' v'] l l' [S E] F IH]; [reflexivity|]. cbn in S, E.
    apply WF_cons in R. destruct R as (Vk & R & _). rewrite (IH R), E, (D k k'); [reflexivity|apply valid_rk, Vk|exact S].
  Qed.
End Props.

(** The hypotheses are met, non-trivially: two intervals that together are a third, ... *)
Lemma ex_covers (a b p : u8) : covers (mkInterval a b) p <-> (ival a <= ival p <= ival b)%Z.
Proof. split; intros [A B]; split; assumption. Qed.
Ltac ex_made := split; [apply ex_valid; reflexivity|]; split; [apply ex_valid; reflexivity|]; intros p; rewrite !ex_covers; cbn; lia.
Example C146_example_made_of :
  made_of (3 --> 8 : Interval u8) (3 --> 7 : Interval u8) (8 --> 8 : Interval u8) /\
  made_of (3 --> 22 : Interval u8) (3 --> 20 : Interval u8) (21 --> 22 : Interval u8) /\
  made_of (8 --> 25 : Interval u8) (8 --> 12 : Interval u8) (13 --> 25 : Interval u8) /\
  made_of (10 --> 19 : Interval u8) (10 --> 14 : Interval u8) (15 --> 19 : Interval u8) /\
  made_of (10 --> 19 : Interval u8) (10 --> 19 : Interval u8) (15 --> 16 : Interval u8).
Proof. split; [ex_made|]. split; [ex_made|]. split; [ex_made|]. split; ex_made. Qed.
Example C146_example_before : before (3 --> 20 : Interval u8) (21 --> 22 : Interval u8) /\ ~ overlap (10 --> 14 : Interval u8) (15 --> 19 : Interval u8).
Proof.
  split.
  - intros p p' A B. rewrite ex_covers in A, B. cbn in A, B. unfold plt. cbn. apply Z.compare_lt_iff. lia.
  - intros (p & A & B). rewrite ex_covers in A, B. cbn in A, B. lia.
Qed.
(** ... an entry and a gap that reach across the boundary, ... *)
Example C146_example_cut :
  snd (cut (3 --> 22 : Interval u8) ex_map) = Val [(3 --> 4, 1); (6 --> 7, 2); (8 --> 9, 2); (20 --> 22, 3)] /\
  snd (cut (3 --> 20 : Interval u8) ex_map) = Val [(3 --> 4, 1); (6 --> 7, 2); (8 --> 9, 2); (20 --> 20, 3)] /\
  snd (cut (21 --> 22 : Interval u8) (fst (cut (3 --> 20 : Interval u8) ex_map))) = Val [(21 --> 22, 3)] /\
  overlapping ex_map (3 --> 20 : Interval u8) = Val ([(2 --> 4, 1); (6 --> 7, 2); (8 --> 9, 2)] ++ [(20 --> 30, 3)]) /\
  overlapping ex_map (21 --> 22 : Interval u8) = Val ([(20 --> 30, 3)] ++ []) /\
  gaps_untrimmed ex_map (8 --> 25 : Interval u8) = Val [10 --> 19] /\ gaps_untrimmed ex_map (13 --> 25 : Interval u8) = Val [10 --> 19] /\
  gaps_trimmed ex_map (8 --> 12 : Interval u8) = Val [10 --> 12] /\ gaps_trimmed ex_map (13 --> 25 : Interval u8) = Val [13 --> 19].
Proof. vm_compute. repeat split. Qed.
(** ... insertions that go through and merge, and one whose first half goes through before the
    second is refused; the second call finds what the first left behind. *)
Example C146_example_insert :
  snd (insert_merge_touching (10 --> 19) 7 ex_map) = Val (Ok (8 --> 30)) /\
  snd (insert_merge_touching (10 --> 14) 7 ex_map) = Val (Ok (8 --> 14)) /\
  insert_merge_touching (15 --> 19) 7 (fst (insert_merge_touching (10 --> 14) 7 ex_map)) = insert_merge_touching (10 --> 19) 7 ex_map /\
  snd (insert_strict (8 --> 25) 7 ex_map) = Val (Err 7) /\
  snd (insert_strict (10 --> 22) 7 ex_map) = Val (Err 7) /\ snd (insert_strict (10 --> 14) 7 ex_map) = Val (Ok tt) /\
  snd (insert_strict (15 --> 22) 7 (fst (insert_strict (10 --> 14) 7 ex_map))) = Val (Err 7) /\
  iter (fst (insert_strict (10 --> 19) 7 ex_map)) <> iter (fst (insert_strict (15 --> 19) 7 (fst (insert_strict (10 --> 14) 7 ex_map)))).
Proof. vm_compute. repeat split. discriminate. Qed.
(** Strict insertion of overlapping parts is refused although the whole is not. *)
Example C146_example_overlapping_parts :
  snd (insert_strict (10 --> 19) 7 ex_map) = Val (Ok tt) /\
  snd (insert_strict (15 --> 16) 7 (fst (insert_strict (10 --> 19) 7 ex_map))) = Val (Err 7).
Proof. vm_compute. repeat split. Qed.

Print Assumptions C146_overlaps.
Print Assumptions C146_contains_interval.
Print Assumptions C146_overlapping.
Print Assumptions C146_gaps_untrimmed.
Print Assumptions C146_gaps_trimmed.
Print Assumptions C146_remove_overlapping.
Print Assumptions C146_cut.
Print Assumptions C146_cut_left.
Print Assumptions C146_insert_overwrite.
Print Assumptions C146_insert_strict.
Print Assumptions C146_insert_merge_touching.
Print Assumptions C146_insert_merge_touching_if_values_equal.
Print Assumptions C146_insert_merge_touching_or_overlapping.
Print Assumptions C146_insert_merge_overlapping.
Print Assumptions C146_same_entries.
