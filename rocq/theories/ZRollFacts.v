(** * ZRollFacts: moving a whole ZosditMap round the end of the type (the proofs of C183). *)
From Coq Require Import List ZArith Bool Lia Sorting.
From Verif Require Import Base BTree UtilsModel IntervalModel NoditModel ZosditModel ZosditOps CompleteZosditOps InstancesModel Instances Spec FirstFitOps ShiftOps ZShiftOps
  PointFacts IntervalFacts ListFacts NoditFacts IntervalProofs IntervalRelease FirstFitFacts ZosditFacts ZosditProofs PropsCompleteZosdit ShiftFacts ZShiftFacts.
Import ListNotations.
Open Scope Z_scope.

Lemma Forall2_same_length {A B} (R : A -> B -> Prop) l l' : Forall2 R l l' -> length l = length l'.
Proof. induction 1; cbn; congruence. Qed.
Lemma split_unique {A} (P : A -> Prop) (l1 l2 m1 m2 : list A) : l1 ++ l2 = m1 ++ m2 -> Forall P l1 -> Forall P m1 -> Forall (fun x => ~ P x) l2 -> Forall (fun x => ~ P x) m2 -> l1 = m1 /\ l2 = m2.
Proof.
  revert m1. induction l1 as [|x l1 IH]; intros [|y m1] E P1 Q1 P2 Q2; cbn in E.
  - auto.
  - subst l2. inversion P2. inversion Q1. contradiction.
  - subst m2. inversion Q2. inversion P1. contradiction.
  - injection E as <- E. inversion P1; inversion Q1; subst. destruct (IH m1 E) as [-> ->]; auto.
Qed.

Section Before.
  Context {I : Type} `{PL : PointLaws I}.
  Context {K : Type} {IK : InclusiveInterval I K} {IL : IntervalLaws I K} {FI : FromInvalid I K}.
  Context {V : Type}.
  Implicit Types (z : ZosditMap K V).

  (** Loading entries that belong between the ones that are there. *)
  Lemma rebuild_before (post : list (K * V)) r : forall pre z, ZWF z -> ZD (z_inner z) -> ZS ((pre ++ r) ++ post) -> (forall x y, In x (pre ++ r) -> In y post -> ehi x < elo y) ->
    Forall2 same_entry (pre ++ post) (zosdit_iter z) ->
    exists z', extend_strict_back r z = Val (Ok z') /\ ZWF z' /\ ZD (z_inner z') /\ Forall2 same_entry ((pre ++ r) ++ post) (zosdit_iter z') /\ (z_len z' = z_len z + length r)%nat.
  Proof.
    induction r as [|[k v] r IH]; intros pre z Wf HD W G F.
    - exists z. rewrite app_nil_r. repeat split; try apply Wf; try assumption. cbn. lia.
    - pose proof W as W0. apply ZS_app in W. destruct W as (W & Wq & _). apply ZS_app in W. destruct W as (Wp & Wr & Hpr). apply ZS_cons in Wr. destruct Wr as (Vk & Wr & Hk).
      destruct (Forall2_app_inv_l _ _ F) as (p' & q' & Fp & Fq & Ez).
      assert (Hp : Forall (fun e => ehi e <= lo k) p').
      { apply Forall_forall. intros e He. destruct (Forall2_in_r _ _ _ _ Fp He) as (x & Hx & S).
        assert (Ve : okv e) by (apply (ZS_okv (flatten (z_inner z))); [apply flatten_ZS; apply Wf|]; change (In e (zosdit_iter z)); rewrite Ez; apply in_app_iff; auto).
        destruct (same_entry_ext x e (ZS_okv _ _ Wp Hx) S Ve) as [_ <-]. apply (Hpr x (k, v) Hx). left. reflexivity. }
      assert (Hq : Forall (fun e => hi k < elo e /\ elo e <= ehi e) q').
      { apply Forall_forall. intros e He. destruct (Forall2_in_r _ _ _ _ Fq He) as (x & Hx & S).
        assert (Ve : okv e) by (apply (ZS_okv (flatten (z_inner z))); [apply flatten_ZS; apply Wf|]; change (In e (zosdit_iter z)); rewrite Ez; apply in_app_iff; auto).
        destruct (same_entry_ext x e (ZS_okv _ _ Wq Hx) S Ve) as [<- _]. split; [|destruct (same_entry_ext x e (ZS_okv _ _ Wq Hx) S Ve) as [-> _]; exact Ve]. apply (G (k, v) x); [apply in_app_iff; right; left; reflexivity|exact Hx]. }
      assert (Ha : Forall (apart_from (lo k) (hi k)) (z_inner z)).
      { apply apart_iter; [exact Wf|]. rewrite Ez. apply Forall_app. split; [eapply Forall_impl; [|exact Hp]; intros e L; left; exact L|eapply Forall_impl; [|exact Hq]; intros e [L _]; right; lia]. }
      destruct (insert_back_cases z k v Wf) as [(X & _)|[(_ & X & _)|(_ & _ & l1 & l2 & k' & inner' & E & E1 & E2 & L1 & L2 & _ & F1 & F2 & Wf' & F3 & HD' & _)]];
        [zl|contradiction|].
      specialize (F3 (or_intror HD)). unfold zosdit_iter in Ez. rewrite E1 in Ez.
      destruct (split_unique (fun e => ehi e <= lo k) l1 l2 p' q' Ez F1 Hp) as [-> ->].
      { eapply Forall_impl; [|exact F3]. cbv beta. intros e. lia. }
      { eapply Forall_impl; [|exact Hq]. cbv beta. intros e [L1' L2']. unfold okv, elo in Vk. cbn in Vk. zl. }
      destruct (IH (pre ++ [(k, v)]) (mkZosdit (z_len z + 1) inner') Wf' (HD' HD)) as (z' & E' & Wz & Dz & F' & N').
      { rewrite <- (app_assoc pre). exact W0. }
      { intros x y. rewrite <- (app_assoc pre). apply G. }
      { unfold zosdit_iter. cbn [z_inner]. rewrite E2. rewrite <- app_assoc. apply Forall2_app; [exact Fp|]. constructor; [|exact Fq].
        split; [|reflexivity]. cbn. intros p. rewrite !covers_rk. lia. }
      exists z'. cbn [extend_strict_back]. rewrite E. split; [exact E'|]. split; [exact Wz|]. split; [exact Dz|]. rewrite <- (app_assoc pre) in F'. split; [exact F'|].
      cbn [z_len] in N'. cbn [length]. lia.
  Qed.
End Before.

Section Facts.
  Context {lo hi : Z} `{T : IntType lo hi}.
  Notation int := (int lo hi).
  Context {K : Type} {IK : InclusiveInterval int K} {IL : IntervalLaws int K} {FI : FromInvalid int K}.
  Context {V : Type}.
  Implicit Types (z : ZosditMap K V) (l : list (K * V)) (d p : int).

  (** The entries fall in two parts: the first ones are moved by [a], the others by a
      whole turn less. *)
  Definition first_move (d : int) : Z := if ival d <? 0 then ival d + (hi - lo + 1) else ival d.
  Lemma rolled_moved d (e e' : K * V) : lo <= 0 <= hi -> rolled d e e' -> valid (fst e) -> unsplit (ival d) e ->
    (ival (iend (fst e)) + first_move d <= hi /\ moved (first_move d) e e') \/ (hi < ival (istart (fst e)) + first_move d /\ moved (first_move d - (hi - lo + 1)) e e').
  Proof.
    intros L [E1 E] Ve U. destruct (translate_release_together (fst e) d L Ve U) as (k' & E' & V' & S1 & S2 & _). rewrite E in E'. injection E' as E'. subst k'.
    apply valid_int in Ve. unfold unsplit in U. unfold wrapped in S1, S2. unfold moved, first_move. pose proof (int_range (istart (fst e))). pose proof (int_range (iend (fst e))). pose proof (int_range d).
    destruct (Z.ltb_spec (ival d) 0), (Z.ltb_spec (ival (istart (fst e)) + ival d) lo), (Z.ltb_spec (ival (iend (fst e)) + ival d) lo), (Z.ltb_spec hi (ival (istart (fst e)) + ival d)), (Z.ltb_spec hi (ival (iend (fst e)) + ival d));
      try lia; (left; repeat split; try exact E1; lia) || (right; repeat split; try exact E1; lia).
  Qed.
  Lemma rolled_halves d l l' : lo <= 0 <= hi -> ZS l -> Forall2 (rolled d) l l' -> (forall e, In e l -> unsplit (ival d) e) ->
    exists l1 l2 r1 r2, l = l1 ++ l2 /\ l' = r1 ++ r2 /\ Forall2 (moved (first_move d)) l1 r1 /\ Forall2 (moved (first_move d - (hi - lo + 1))) l2 r2.
  Proof.
    intros L W F U. induction F as [|e e' l l' R F IH]; [exists [], [], [], []; repeat split; constructor|]. apply ZS_cons in W. destruct W as (Ve & W & Ha). assert (Vv : valid (fst e)) by (apply valid_rk; exact Ve).
    destruct (rolled_moved d e e' L R Vv (U e (or_introl eq_refl))) as [ [O M] | [O M] ].
    - destruct (IH W (fun x Hx => U x (or_intror Hx))) as (l1 & l2 & r1 & r2 & -> & -> & F1 & F2). exists (e :: l1), l2, (e' :: r1), r2. repeat split; [constructor; assumption|exact F2].
    - exists [], (e :: l), [], (e' :: l'). repeat split; [constructor|]. constructor; [exact M|]. clear IH R M.
      assert (H : forall x, In x l -> hi < ival (istart (fst x)) + first_move d /\ valid (fst x) /\ unsplit (ival d) x).
      { intros x Hx. rewrite Forall_forall in Ha. specialize (Ha x Hx). cbv beta in Ha. unfold elo, ehi, IntervalFacts.lo, IntervalFacts.hi in Ha. apply rk_int in Ha. apply valid_int in Vv. split; [lia|]. split; [|apply U; right; exact Hx].
        apply valid_rk. exact (ZS_okv _ _ W Hx). }
      clear - IL FI L F H. induction F as [|x x' l l' R F IH]; constructor; [|apply IH; intros y Hy; apply H; right; exact Hy].
      destruct (H x (or_introl eq_refl)) as (O & Vx & Ux). destruct (rolled_moved d x x' L R Vx Ux) as [ [O' _] | [_ M] ]; [apply valid_int in Vx; lia|exact M].
  Qed.
  (** The loop on the moved entries. *)
  Lemma rolled_load d l l' : lo <= 0 <= hi -> ZS l -> Forall2 (rolled d) l l' -> (forall e, In e l -> unsplit (ival d) e) ->
    exists l1 l2 r1 r2 z', l = l1 ++ l2 /\ Forall2 (moved (first_move d)) l1 r1 /\ Forall2 (moved (first_move d - (hi - lo + 1))) l2 r2 /\
      extend_strict_back l' z_new = Val (Ok z') /\ ZWF z' /\ Forall2 same_entry (r2 ++ r1) (zosdit_iter z') /\ z_len z' = length l.
  Proof.
    intros L W F U. destruct (rolled_halves d l l' L W F U) as (l1 & l2 & r1 & r2 & -> & -> & F1 & F2). exists l1, l2, r1, r2. pose proof W as W0. apply ZS_app in W. destruct W as (W1 & W2 & _).
    pose proof (moved_ZS _ _ _ W1 F1) as S1. pose proof (moved_ZS _ _ _ W2 F2) as S2.
    destruct (rebuild_before [] r1 [] z_new new_ZWF new_ZD) as (z1 & E1 & Z1 & D1 & G1 & N1); [rewrite app_nil_r; exact S1|intros x y _ []|constructor|]. rewrite app_nil_r in G1. cbn [app] in G1.
    assert (B : forall x y, In x r2 -> In y r1 -> ehi x < elo y).
    { intros x y Hx Hy. destruct (Forall2_in_r _ _ _ _ F2 Hx) as (a & _ & _ & A2 & _). destruct (Forall2_in_r _ _ _ _ F1 Hy) as (c & _ & C1 & _ & _). unfold ehi, elo, IntervalFacts.lo, IntervalFacts.hi.
      apply Z.nle_gt. rewrite rk_int. pose proof (int_range (iend (fst a))). pose proof (int_range (istart (fst c))). lia. }
    destruct (rebuild_before r1 r2 [] z1 Z1 D1) as (z2 & E2 & Z2 & _ & G2 & N2); [cbn [app]; apply ZS_app; split; [exact S2|]; split; [exact S1|]; intros x y Hx Hy; specialize (B x y Hx Hy); lia|exact B|exact G1|].
    exists z2. repeat (split; [solve [reflexivity|assumption]|]). split; [rewrite extend_app, E1; exact E2|]. split; [exact Z2|]. split; [exact G2|]. rewrite N2, N1, app_length. cbn. clear - F1 F2.
    rewrite (Forall2_same_length _ _ _ F1), (Forall2_same_length _ _ _ F2). reflexivity.
  Qed.
  Lemma moved_same2 a l1 l2 r1 r2 c (n : list (K * V)) : ZS (l1 ++ l2) -> Forall2 (moved a) l1 r1 -> Forall2 (moved c) l2 r2 -> Forall2 same_entry (r2 ++ r1) n -> Forall valid (map fst n) ->
    exists n1 n2, n = n2 ++ n1 /\ Forall2 (moved a) l1 n1 /\ Forall2 (moved c) l2 n2.
  Proof.
    intros W F1 F2 G Vn. apply ZS_app in W. destruct W as (W1 & W2 & _). apply Forall2_app_inv_l in G. destruct G as (n2 & n1 & G2 & G1 & ->). rewrite map_app in Vn. apply Forall_app in Vn. destruct Vn as [V2 V1].
    exists n1, n2. split; [reflexivity|]. split; [apply (moved_same _ _ r1)|apply (moved_same _ _ r2)]; try assumption;
      [pose proof (moved_ZS _ _ _ W1 F1) as S|pose proof (moved_ZS _ _ _ W2 F2) as S]; apply Forall_map, Forall_forall; intros e He; apply valid_rk; exact (ZS_okv _ _ S He).
  Qed.
  Lemma zroll d z : lo <= 0 <= hi -> zreachable z -> (forall e, In e (zosdit_iter z) -> unsplit (ival d) e) ->
    exists z' l1 l2 n1 n2, zshift Release d z = Val (Ok z') /\ zreachable z' /\ zosdit_len z' = length (zosdit_iter z) /\ zosdit_iter z = l1 ++ l2 /\ zosdit_iter z' = n2 ++ n1 /\
      Forall2 (moved (first_move d)) l1 n1 /\ Forall2 (moved (first_move d - (hi - lo + 1))) l2 n2.
  Proof.
    intros L R U. pose proof (zreachable_ZWF z R) as Wz. destruct (translate_all_release d (zosdit_iter z) L) as (l & E & F).
    destruct (rolled_load d _ l L (iter_ZS z Wz) F U) as (l1 & l2 & r1 & r2 & z' & El & F1 & F2 & E' & W' & G & N).
    assert (R' : zreachable z') by (exists [ZFromIter l]; cbn; unfold from_iter_strict_back; rewrite E'; reflexivity).
    pose proof (iter_ZS z Wz) as S. rewrite El in S. destruct (moved_same2 _ l1 l2 r1 r2 _ _ S F1 F2 G (iter_valid z' W')) as (n1 & n2 & En & G1 & G2).
    exists z', l1, l2, n1, n2. split; [unfold zshift, zosdit_into_iter; unfold zosdit_iter in E; rewrite E; exact E'|]. repeat (split; [assumption|]). exact G2.
  Qed.
  Lemma zroll_panics d z : lo <= 0 <= hi -> zreachable z -> (exists e, In e (zosdit_iter z) /\ ~ unsplit (ival d) e) -> zshift Release d z = Panic.
  Proof.
    intros L R (e & He & Hn). pose proof (zreachable_ZWF z R) as Wz. destruct (translate_all_release d (zosdit_iter z) L) as (l & E & F). pose proof (iter_ZS z Wz) as S.
    unfold zshift, zosdit_into_iter. fold (zosdit_iter z). rewrite E. cbn [obind]. unfold from_iter_strict_back. clear E R Wz.
    assert (X : exists l1 x l2, zosdit_iter z = l1 ++ x :: l2 /\ ~ unsplit (ival d) x /\ forall y, In y l1 -> unsplit (ival d) y).
    { clear S F. induction (zosdit_iter z) as [|x m IH]; [destruct He|]. destruct (unsplit_dec_all (ival d) [x]) as [D|(y & [Hy|[]] & D)]; [|subst y; exists [], x, m; split; [reflexivity|split; [exact D|intros w []]]].
      destruct He as [->|He]; [destruct Hn; apply D; left; reflexivity|]. destruct (IH He) as (l1 & y & l2 & -> & N & H). exists (x :: l1), y, l2. split; [reflexivity|]. split; [exact N|]. intros w [<-|Hw]; [apply D; left; reflexivity|apply H, Hw]. }
    destruct X as (l1 & x & l2 & Ez & N & H). rewrite Ez in F, S. apply Forall2_app_inv_l in F. destruct F as (r1 & r2 & F1 & F2 & ->). inversion F2 as [|? x' ? r2' Rx F2']; subst. apply ZS_app in S. destruct S as (S1 & S2 & _). apply ZS_cons in S2. destruct S2 as (Vx & _).
    destruct (rolled_load d l1 r1 L S1 F1 H) as (? & ? & ? & ? & z' & _ & _ & _ & E' & W' & _). rewrite extend_app, E'. destruct x' as [k' v']. cbn [extend_strict_back].
    assert (Iv : ~ valid k') by (destruct Rx as [_ Rx]; destruct (translate_release_apart (fst x) d L) as (k2 & E2 & Nv); [apply valid_rk; exact Vx|exact N|]; rewrite Rx in E2; injection E2 as E2; cbn in E2; subst; exact Nv).
    destruct (insert_back_cases z' k' v' W') as [(_ & ->)|[(X & _)|(X & _)]]; [reflexivity|destruct Iv; apply valid_rk, X..].
  Qed.
  (** *** lookups *)
  Lemma last_app_r l m p v : (forall e, In e m -> ~ covers (fst e) p) -> (last_value (l ++ m) p v <-> last_value l p v).
  Proof.
    intros N. split.
    - intros (l1 & k & l2 & E & C & H). revert l1 E. induction l as [|x l IH]; intros l1 E.
      + exfalso. cbn in E. subst m. apply (N (k, v)); [apply in_app_iff; right; left; reflexivity|exact C].
      + destruct l1 as [|y l1]; cbn in E; injection E as -> E.
        * subst l2. exists [], k, l. split; [reflexivity|]. split; [exact C|]. intros e He. apply H, in_app_iff. left. exact He.
        * destruct (IH l1 E) as (a1 & k0 & a2 & -> & C' & H'). exists (y :: a1), k0, a2. auto.
    - intros (l1 & k & l2 & -> & C & H). exists l1, k, (l2 ++ m). rewrite <- app_assoc. split; [reflexivity|]. split; [exact C|]. intros e He. apply in_app_iff in He. destruct He; auto.
  Qed.
  Lemma last_app_l l m p v : (forall e, In e m -> ~ covers (fst e) p) -> (last_value (m ++ l) p v <-> last_value l p v).
  Proof.
    intros N. split.
    - intros (l1 & k & l2 & E & C & H). revert l1 E. induction m as [|x m IH]; intros l1 E; [exists l1, k, l2; auto|].
      destruct l1 as [|y l1]; cbn in E; injection E as -> E; [exfalso; apply (N (k, v)); [left; reflexivity|exact C]|]. apply (IH (fun e He => N e (or_intror He)) l1 E).
    - intros (l1 & k & l2 & -> & C & H). exists (m ++ l1), k, l2. rewrite <- app_assoc. auto.
  Qed.
  Lemma first_move_around d p p' : lo <= 0 <= hi -> around (lo := lo) (hi := hi) (ival p + ival d) (ival p') ->
    ival p' = ival p + first_move d \/ ival p' = ival p + (first_move d - (hi - lo + 1)).
  Proof.
    intros L A. apply (around_wrapped d p p' L) in A. unfold wrapped in A. unfold first_move. pose proof (int_range p). pose proof (int_range p'). pose proof (int_range d).
    destruct (Z.ltb_spec (ival d) 0), (Z.ltb_spec (ival p + ival d) lo); try lia; destruct (Z.ltb_spec hi (ival p + ival d)); lia.
  Qed.
  Lemma zroll_get d z z' l1 l2 n1 n2 p p' : lo <= 0 <= hi -> zreachable z -> zreachable z' -> zosdit_iter z = l1 ++ l2 -> zosdit_iter z' = n2 ++ n1 ->
    Forall2 (moved (first_move d)) l1 n1 -> Forall2 (moved (first_move d - (hi - lo + 1))) l2 n2 -> around (lo := lo) (hi := hi) (ival p + ival d) (ival p') ->
    (exists e, In e (zosdit_iter z) /\ ival (istart (fst e)) <= ival p < ival (iend (fst e))) -> get_last_value_at_point z' p' = get_last_value_at_point z p.
  Proof.
    intros L R R' Ez Ez' F1 F2 A In0. pose proof (zreachable_ZWF z R) as W. pose proof (zreachable_ZWF z' R') as W'.
    pose proof (iter_valid z W) as Va. rewrite Forall_forall in Va. pose proof (iter_valid z' W') as Va'. rewrite Forall_forall in Va'.
    pose proof (int_range p) as Rp. pose proof (int_range p') as Rp'.
    assert (X : forall v, last_value (zosdit_iter z') p' v <-> last_value (zosdit_iter z) p v).
    { intros v. rewrite Ez, Ez'. destruct (first_move_around d p p' L A) as [E|E].
      - rewrite last_app_l, last_app_r; [exact (moved_last _ _ _ p p' v F1 E)| |].
        + intros e He C. rewrite covers_int in C. destruct (Forall2_in_l _ _ _ _ F2 He) as (e' & _ & (M1 & M2 & _)). pose proof (int_range (istart (fst e'))). lia.
        + intros e He C. rewrite covers_int in C. destruct (Forall2_in_r _ _ _ _ F2 He) as (e' & _ & (M1 & M2 & _)). pose proof (int_range (iend (fst e'))). lia.
      - rewrite last_app_r, last_app_l; [exact (moved_last _ _ _ p p' v F2 E)| |].
        + intros e He C. rewrite covers_int in C. destruct (Forall2_in_l _ _ _ _ F1 He) as (e' & _ & (M1 & M2 & _)). pose proof (int_range (iend (fst e'))). lia.
        + intros e He C. rewrite covers_int in C. destruct (Forall2_in_r _ _ _ _ F1 He) as (e' & _ & (M1 & M2 & _)). pose proof (int_range (istart (fst e'))). lia. }
    assert (P : point_reached (zosdit_iter z) p) by (apply reached_int; [intros e He; apply Va, in_map, He|left; exact In0]).
    assert (P' : point_reached (zosdit_iter z') p').
    { apply reached_int; [intros e He; apply Va', in_map, He|]. left. destruct In0 as (e & He & C). rewrite Ez in He. rewrite Ez'. apply in_app_iff in He. destruct He as [He|He].
      - destruct (Forall2_in_l _ _ _ _ F1 He) as (e' & He' & (M1 & M2 & _)). exists e'. split; [apply in_app_iff; right; exact He'|]. pose proof (int_range (iend (fst e'))). destruct (first_move_around d p p' L A) as [E|E]; [lia|]. pose proof (int_range (istart (fst e))). lia.
      - destruct (Forall2_in_l _ _ _ _ F2 He) as (e' & He' & (M1 & M2 & _)). exists e'. split; [apply in_app_iff; left; exact He'|]. pose proof (int_range (istart (fst e'))). destruct (first_move_around d p p' L A) as [E|E]; [|lia]. pose proof (int_range (iend (fst e))). lia. }
    symmetry. apply (get_last_iff z' p' W'). destruct (proj2 (get_last_iff z p W _) eq_refl) as [A1 B1]. split; [intros _ v; rewrite X; apply A1, P|intros N; contradiction].
  Qed.
End Facts.
