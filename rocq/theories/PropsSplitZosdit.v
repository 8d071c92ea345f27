(** * PropsSplitZosdit: a ZosditMap and an interval made of two (C147). *)
From Coq Require Import List ZArith Bool Lia.
From Verif Require Import Base BTree UtilsModel IntervalModel NoditModel ZosditModel Spec ZosditOps WalkOps SplitOps InstancesModel Instances
  PointFacts IntervalFacts ListFacts NoditFacts ZosditFacts ZosditMut ZosditProofs WalkFacts PutBackFacts SplitFacts SplitZosditFacts PropsNodit PropsSplit.
Import ListNotations.
Open Scope nat_scope.

(** A [cut] of [q] does what it is to do, or has nothing to do (see C37). *)
Definition cut_finds {I} `{Ord I} {K} `{InclusiveInterval I K} {V Q} `{InclusiveInterval I Q} (q : Q) (l : list (K * V)) : Prop :=
  cut_reaches q l \/ forall e, In e l -> ~ overlap (fst e) q.

Section Props.
  Context {I : Type} `{PL : PointLaws I}.
  Context {K : Type} {IK : InclusiveInterval I K} {IL : IntervalLaws I K}.
  Context {V : Type}.
  Context {Q Q1 Q2 : Type} {IQ : InclusiveInterval I Q} {IQ1 : InclusiveInterval I Q1} {IQ2 : InclusiveInterval I Q2}.
  Implicit Types (z : ZosditMap K V).

  Local Lemma whole (q : Q) (q1 : Q1) (q2 : Q2) : made_of q q1 q2 -> valid q.
  Proof. intros M. apply (made_of_rk q q1 q2 M). Qed.

  (** ** C147 *)
  Theorem C147_overlapping : forall z (q : Q) (q1 : Q1) (q2 : Q2), zreachable z -> made_of q q1 q2 -> before q1 q2 ->
    exists l1 l l2, zosdit_overlapping z q1 = Val (l1 ++ l) /\ zosdit_overlapping z q2 = Val (l ++ l2) /\
      zosdit_overlapping z q = Val (l1 ++ l ++ l2) /\ length l <= 1.
  Proof.
    intros z q q1 q2 R M B. apply zreachable_ZWF in R. pose proof M as (V1 & V2 & _). pose proof (whole q q1 q2 M) as Vq.
    destruct (zchop q q1 q2 M (zosdit_iter z) (iter_ZS z R) B) as (a & s & b & S & S1 & S2 & Ls & _). exists a, s, b.
    destruct (overlapping_lists q z R Vq) as (l & E & L). destruct (overlapping_lists q1 z R V1) as (l1 & E1 & L1). destruct (overlapping_lists q2 z R V2) as (l2 & E2 & L2).
    rewrite (sub_unique _ _ _ _ L S) in E. rewrite (sub_unique _ _ _ _ L1 S1) in E1. rewrite (sub_unique _ _ _ _ L2 S2) in E2. auto.
  Qed.

  (** Full claim: cutting [q1] and [q2], in either order, leaves the entries and gives the
      output, chopped, of cutting [q].  False in either order, see below.  From right to
      left it holds wherever the cuts of [q] and of [q2] find what there is to cut, ... *)
  Theorem C147_cut_right_first_partial : forall z (q : Q) (q1 : Q1) (q2 : Q2), zreachable z -> made_of q q1 q2 -> before q1 q2 ->
    cut_finds q (zosdit_iter z) -> cut_finds q2 (zosdit_iter z) ->
    exists z' l z1 l2 z2 l1, zosdit_cut q z = (z', Val l) /\ zosdit_cut q2 z = (z1, Val l2) /\ zosdit_cut q1 z1 = (z2, Val l1) /\
      same_entries (zosdit_iter z2) (zosdit_iter z') /\ zosdit_len z2 = zosdit_len z' /\ chopped q1 q2 l l1 l2.
  Proof.
    intros z q q1 q2 R M B F F2. apply zreachable_ZWF in R. pose proof M as (V1 & V2 & _). pose proof (whole q q1 q2 M) as Vq.
    apply finds_iff in F; [|exact R|exact Vq]. apply finds_iff in F2; [|exact R|exact V2].
    destruct (cut_ok q z R Vq F) as (z' & l & E & _). destruct (cut_ok q2 z R V2 F2) as (z1 & l2 & E2 & W1 & _). pose proof (right_finds q q1 q2 M z z1 l2 B R F F2 E2) as F1.
    destruct (cut_ok q1 z1 W1 V1 F1) as (z2 & l1 & E1 & _). exists z', l, z1, l2, z2, l1. do 3 (split; [assumption|]).
    assert (N : ~ overlap q2 q1) by (intros (p & X & Y); apply (apart_before q1 q2 B); exists p; auto).
    destruct (cut_twice q q2 q1 (made_sym q q1 q2 M) z z' l z1 l2 z2 l1 N R F F2 E E2 E1 F1) as (S & Ln & P & P2 & P1). split; [exact S|]. split; [exact Ln|].
    destruct (zchop q q1 q2 M (zosdit_iter z) (iter_ZS z R) B) as (a & s & b & C & C1 & C2 & Ls & Na & Nb). apply (parts_chop q q1 q2 M a s b); auto.
  Qed.
  (** ... so in every map without a pause (C138). *)
  Theorem C147_cut_right_first_gapless_partial : forall z (q : Q) (q1 : Q1) (q2 : Q2), zreachable z -> made_of q q1 q2 -> before q1 q2 ->
    gapless (zosdit_iter z) ->
    exists z' l z1 l2 z2 l1, zosdit_cut q z = (z', Val l) /\ zosdit_cut q2 z = (z1, Val l2) /\ zosdit_cut q1 z1 = (z2, Val l1) /\
      same_entries (zosdit_iter z2) (zosdit_iter z') /\ zosdit_len z2 = zosdit_len z' /\ chopped q1 q2 l l1 l2.
  Proof.
    intros z q q1 q2 R M B G. pose proof M as (V1 & V2 & _). pose proof (whole q q1 q2 M) as Vq. pose proof (zreachable_ZWF z R) as W.
    apply C147_cut_right_first_partial; try assumption; apply finds_iff; try assumption; apply gapless_finds; assumption.
  Qed.
  (** From left to right it holds if nothing is stored before [q] ... *)
  Theorem C147_cut_left_first_partial : forall z (q : Q) (q1 : Q1) (q2 : Q2), zreachable z -> made_of q q1 q2 -> before q1 q2 ->
    (forall e x, In e (zosdit_iter z) -> covers (fst e) x -> exists y, covers q y /\ ple y x) ->
    exists z' l z1 l1 z2 l2, zosdit_cut q z = (z', Val l) /\ zosdit_cut q1 z = (z1, Val l1) /\ zosdit_cut q2 z1 = (z2, Val l2) /\
      same_entries (zosdit_iter z2) (zosdit_iter z') /\ zosdit_len z2 = zosdit_len z' /\ chopped q1 q2 l l1 l2.
  Proof.
    intros z q q1 q2 R M B A. apply zreachable_ZWF in R. pose proof M as (V1 & V2 & _). pose proof (whole q q1 q2 M) as Vq.
    assert (A' : forall e, In e (zosdit_iter z) -> (lo q <= elo e)%Z).
    { intros e He. destruct (A e (istart (fst e)) He) as (y & Hy & Le); [apply elo_covers, (iter_okv z e R He)|]. apply covers_rk in Hy. apply ple_rk in Le. unfold elo, lo, hi in *. lia. }
    destruct (zosdit_cut q1 z) as [z1 [l1|]] eqn:E1.
    2: { exfalso. destruct (cut_ok q1 z R V1) as (x & y & Ex & _); [|rewrite E1 in Ex; discriminate]. apply (left_finds q q1 q2 M z B). left. right. intros e He. pose proof (A' e He). pose proof (iter_okv z e R He). lia. }
    destruct (left_first_alone q q1 q2 M z z1 l1 B R A' E1) as [F F2]. pose proof (left_finds q q1 q2 M z B F) as F1.
    destruct (cut_ok q z R Vq F) as (z' & l & E & _). destruct (cut_ok q1 z R V1 F1) as (x & y & Ex & W1 & _). rewrite E1 in Ex. injection Ex as <- <-.
    destruct (cut_ok q2 z1 W1 V2 F2) as (z2 & l2 & E2 & _). exists z', l, z1, l1, z2, l2. do 2 (split; [assumption || reflexivity|]). split; [exact E2|].
    destruct (cut_twice q q1 q2 M z z' l z1 l1 z2 l2 (apart_before q1 q2 B) R F F1 E E1 E2 F2) as (S & Ln & P & P1 & P2). split; [exact S|]. split; [exact Ln|].
    destruct (zchop q q1 q2 M (zosdit_iter z) (iter_ZS z R) B) as (a & s & b & C & C1 & C2 & Ls & Na & Nb). apply (parts_chop q q1 q2 M a s b); auto.
  Qed.
  (** ... and in no other map where the cut of [q] reaches: the second cut finds nothing. *)
  Theorem C147_cut_left_first_stuck_partial : forall z (q : Q) (q1 : Q1) (q2 : Q2), zreachable z -> made_of q q1 q2 -> before q1 q2 ->
    cut_reaches q (zosdit_iter z) ->
    (exists e x, In e (zosdit_iter z) /\ covers (fst e) x /\ forall y, covers q y -> plt x y) ->
    exists z1 l1, zosdit_cut q1 z = (z1, Val l1) /\ zosdit_cut q2 z1 = (z1, Val []).
  Proof.
    intros z q q1 q2 R M B C (e & x & He & Hx & Hy). apply zreachable_ZWF in R. pose proof M as (V1 & V2 & _). pose proof (whole q q1 q2 M) as Vq.
    apply cut_reaches_spec in C; [|exact R|exact Vq]. destruct (cut_ok q1 z R V1) as (z1 & l1 & E1 & _); [apply (left_finds q q1 q2 M z B); left; exact C|].
    exists z1, l1. split; [exact E1|]. apply (left_first_stuck q q1 q2 M z z1 l1 e B R C He); [|exact E1].
    pose proof (Hy (istart q)) as L. rewrite covers_rk, plt_rk in L. apply valid_rk in Vq. apply covers_rk in Hx. unfold elo, lo, hi in *. lia.
  Qed.
End Props.

(** The full claim fails from left to right for a single entry, and from right to left for two
    entries with a pause between them. *)
Lemma ex_before (a b c d : u8) : (ival b < ival c)%Z -> before (mkInterval a b) (mkInterval c d).
Proof. intros L p p' A B. rewrite ex_covers in A, B. unfold plt. cbn. apply Z.compare_lt_iff. lia. Qed.
Theorem C147_cut_left_first_refuted : exists (ops : list (zop u8 (Interval u8) nat)) (q q1 q2 : Interval u8),
  made_of q q1 q2 /\ before q1 q2 /\
  zosdit_iter (fst (zosdit_cut q2 (fst (zosdit_cut q1 (zrun ops))))) = [(0 --> 2, 1); (5 --> 9, 1)] /\
  zosdit_iter (fst (zosdit_cut q (zrun ops))) = [(0 --> 2, 1); (7 --> 9, 1)] /\
  snd (zosdit_cut q2 (fst (zosdit_cut q1 (zrun ops)))) = Val [].
Proof.
  exists [ZInsertStrictBack (0 --> 9) 1], (3 --> 6), (3 --> 4), (5 --> 6). split; [ex_made|]. split; [apply ex_before; reflexivity|]. vm_compute. repeat split.
Qed.
Theorem C147_cut_right_first_refuted : exists (ops : list (zop u8 (Interval u8) nat)) (q q1 q2 : Interval u8),
  made_of q q1 q2 /\ before q1 q2 /\
  zosdit_iter (fst (zosdit_cut q1 (fst (zosdit_cut q2 (zrun ops))))) = [(0 --> 1, 1); (6 --> 9, 2)] /\
  zosdit_iter (fst (zosdit_cut q (zrun ops))) = [(0 --> 1, 1); (9 --> 9, 2)] /\
  snd (zosdit_cut q2 (zrun ops)) = Val [].
Proof.
  exists [ZInsertStrictBack (0 --> 3) 1; ZInsertStrictBack (6 --> 9) 2], (2 --> 8), (2 --> 5), (6 --> 8). split; [ex_made|]. split; [apply ex_before; reflexivity|]. vm_compute. repeat split.
Qed.

(** The hypotheses are met, non-trivially: from right to left in the map of one entry and in a
    gapless one; from left to right where nothing is stored before. *)
Definition C147_ops : list (zop u8 (Interval u8) nat) := [ZInsertStrictBack (2 --> 4) 1; ZInsertStrictBack (4 --> 4) 2; ZInsertStrictBack (4 --> 8) 3].
Definition C147_gapless : ZosditMap (Interval u8) nat := zrun C147_ops.
Example C147_example_right :
  zreachable C147_gapless /\ made_of (3 --> 6 : Interval u8) (3 --> 4 : Interval u8) (5 --> 6 : Interval u8) /\
  before (3 --> 4 : Interval u8) (5 --> 6 : Interval u8) /\ gapless (zosdit_iter C147_gapless) /\
  snd (zosdit_cut (3 --> 6 : Interval u8) C147_gapless) = Val [(3 --> 4, 1); (4 --> 4, 2); (4 --> 6, 3)] /\
  snd (zosdit_cut (5 --> 6 : Interval u8) C147_gapless) = Val [(5 --> 6, 3)] /\
  snd (zosdit_cut (3 --> 4 : Interval u8) (fst (zosdit_cut (5 --> 6 : Interval u8) C147_gapless))) = Val [(3 --> 4, 1); (4 --> 4, 2); (4 --> 4, 3)] /\
  zosdit_iter (fst (zosdit_cut (3 --> 6 : Interval u8) C147_gapless)) = [(2 --> 2, 1); (7 --> 8, 3)] /\
  zosdit_overlapping C147_gapless (3 --> 4 : Interval u8) = Val ([(2 --> 4, 1); (4 --> 4, 2)] ++ [(4 --> 8, 3)]) /\
  zosdit_overlapping C147_gapless (5 --> 6 : Interval u8) = Val ([(4 --> 8, 3)] ++ []).
Proof.
  split; [exists C147_ops; reflexivity|]. split; [ex_made|]. split; [apply ex_before; reflexivity|]. split.
  - intros w1 a b w2 E. assert (E' : zosdit_iter C147_gapless = [(2 --> 4, 1); (4 --> 4, 2); (4 --> 8, 3)]) by (vm_compute; reflexivity). rewrite E' in E.
    destruct w1 as [|x [|y w1]]; cbn in E.
    + injection E as <- <- _. exists ('4). split; apply ex_covers; vm_compute; split; discriminate.
    + injection E as _ <- <- _. exists ('4). split; apply ex_covers; vm_compute; split; discriminate.
    + injection E as _ _ E. destruct w1 as [|? [|? ?]]; discriminate.
  - vm_compute. repeat split.
Qed.
Example C147_example_left :
  (forall e x, In e (zosdit_iter C147_gapless) -> covers (fst e) x -> exists y, covers (2 --> 6 : Interval u8) y /\ ple y x) /\
  snd (zosdit_cut (2 --> 6 : Interval u8) C147_gapless) = Val [(2 --> 4, 1); (4 --> 4, 2); (4 --> 6, 3)] /\
  snd (zosdit_cut (2 --> 4 : Interval u8) C147_gapless) = Val [(2 --> 4, 1); (4 --> 4, 2); (4 --> 4, 3)] /\
  snd (zosdit_cut (5 --> 6 : Interval u8) (fst (zosdit_cut (2 --> 4 : Interval u8) C147_gapless))) = Val [(5 --> 6, 3)].
Proof.
  split; [|vm_compute; repeat split]. intros e x He Hx. exists ('2). split; [apply ex_covers; vm_compute; split; discriminate|].
  assert (E' : zosdit_iter C147_gapless = [(2 --> 4, 1); (4 --> 4, 2); (4 --> 8, 3)]) by (vm_compute; reflexivity). rewrite E' in He.
  destruct He as [<-|[<-|[<-|[]]]]; apply ex_covers in Hx; destruct Hx as [Hx _]; unfold ple; cbn; change (2 <= ival x)%Z; (eapply Z.le_trans; [|exact Hx]); vm_compute; discriminate.
Qed.
(** In the gapless map something is stored before [3 --> 6], so from left to right the second cut is stuck. *)
Example C147_example_stuck :
  cut_reaches (3 --> 6 : Interval u8) (zosdit_iter C147_gapless) /\
  (exists e x, In e (zosdit_iter C147_gapless) /\ covers (fst e) x /\ forall y, covers (3 --> 6 : Interval u8) y -> plt x y) /\
  snd (zosdit_cut (5 --> 6 : Interval u8) (fst (zosdit_cut (3 --> 4 : Interval u8) C147_gapless))) = Val [].
Proof.
  assert (L : forall y : u8, covers (3 --> 6 : Interval u8) y -> plt ('2) y) by (intros y Hy; rewrite ex_covers in Hy; cbn in Hy; change ((2 ?= ival y)%Z = Lt); apply Z.compare_lt_iff; lia).
  split; [left; exists (2 --> 4, 1), ('2); split; [vm_compute; auto|]; split; [exists ('3); split; apply ex_covers; vm_compute; split; discriminate|]; split; [apply ex_covers; vm_compute; split; discriminate|exact L]|].
  split; [|vm_compute; reflexivity]. exists (2 --> 4, 1), ('2). split; [vm_compute; auto|]. split; [apply ex_covers; vm_compute; split; discriminate|exact L].
Qed.

Print Assumptions C147_overlapping.
Print Assumptions C147_cut_right_first_partial.
Print Assumptions C147_cut_right_first_gapless_partial.
Print Assumptions C147_cut_left_first_partial.
Print Assumptions C147_cut_left_first_stuck_partial.
Print Assumptions C147_cut_left_first_refuted.
Print Assumptions C147_cut_right_first_refuted.
