(** * NoditFacts: what every NoditMap function computes on a sorted map, in
      terms of ranks. *)
From Coq Require Import List ZArith Bool Lia ZifyBool Sorting.Sorted.
From Verif Require Import Base BTree UtilsModel IntervalModel NoditModel Spec PointFacts IntervalFacts ListFacts.
Import ListNotations.
Open Scope Z_scope.

Section Facts.
  Context {I : Type} `{PL : PointLaws I}.
  Context {K : Type} {IK : InclusiveInterval I K} {IL : IntervalLaws I K}.
  Context {V : Type}.
  Notation entry := (K * V)%type.
  Implicit Types (m A B M T : NoditMap K V).

  Definition elo (e : entry) : Z := lo (fst e).
  Definition ehi (e : entry) : Z := hi (fst e).

  (** Sorted, disjoint, valid. *)
  Definition lt_entry (a b : entry) : Prop := ehi a < elo b.
  Definition okv (e : entry) : Prop := elo e <= ehi e.
  Definition WF (m : NoditMap K V) : Prop := StronglySorted lt_entry m /\ Forall okv m.

  Lemma WF_nil : WF [].
  Proof. split; constructor. Qed.
  Lemma WF_app m1 m2 :
    WF (m1 ++ m2) <-> WF m1 /\ WF m2 /\ (forall x y, In x m1 -> In y m2 -> ehi x < elo y).
  Proof.
    unfold WF. rewrite SS_app, Forall_app. unfold lt_entry. clear IL. firstorder.
  Qed.
  Lemma WF_cons a m : WF (a :: m) <-> elo a <= ehi a /\ WF m /\ Forall (fun e => ehi a < elo e) m.
  Proof.
    unfold WF. rewrite SS_cons, Forall_cons_iff. unfold lt_entry, okv. clear IL. firstorder.
  Qed.
  Lemma WF_one a : WF [a] <-> elo a <= ehi a.
  Proof. rewrite WF_cons. split; [tauto|]. intros E. split; [exact E|split; [apply WF_nil|constructor]]. Qed.
  Lemma WF_okv m e : WF m -> In e m -> elo e <= ehi e.
  Proof. intros [_ Hf] Hin. rewrite Forall_forall in Hf. apply Hf, Hin. Qed.

  (** ** Splitting a sorted map *)
  Lemma split_by (p : entry -> bool) m :
    WF m -> (forall x y, okv x -> okv y -> ehi x < elo y -> p y = true -> p x = true) ->
    exists L R, m = L ++ R /\ Forall (fun e => p e = true) L /\ Forall (fun e => p e = false) R.
  Proof.
    intros W Hp. induction m as [|a m IH].
    - exists [], []. repeat split; constructor.
    - apply WF_cons in W. destruct W as (Va & W & Ha).
      destruct (p a) eqn:E.
      + destruct (IH W) as (L & R & -> & HL & HR).
        exists (a :: L), R. split; [reflexivity|]. split; [constructor; assumption|assumption].
      + exists [], (a :: m). split; [reflexivity|]. split; [constructor|].
        constructor; [exact E|]. rewrite Forall_forall in *. intros x Hx.
        destruct (p x) eqn:Ex; [|reflexivity].
        rewrite (Hp a x) in E; [discriminate|exact Va|apply (WF_okv _ _ W Hx)|apply Ha, Hx|exact Ex].
  Qed.

  Definition left_of (s : Z) (e : entry) : Prop := ehi e < s.
  Definition right_of (t : Z) (e : entry) : Prop := t < elo e.
  Definition meets (s t : Z) (e : entry) : Prop := elo e <= t /\ s <= ehi e.

  Lemma split3 m s t : WF m -> s <= t ->
    exists A M B, m = A ++ M ++ B /\ Forall (left_of s) A /\ Forall (meets s t) M /\ Forall (right_of t) B.
  Proof.
    intros W Hst.
    destruct (split_by (fun e => ehi e <? s) m W) as (A & R & -> & HA & HR).
    { unfold okv. intros. lia. }
    apply WF_app in W. destruct W as (_ & WR & _).
    destruct (split_by (fun e => elo e <=? t) R WR) as (M & B & -> & HM & HB).
    { unfold okv. intros. lia. }
    exists A, M, B. split; [reflexivity|]. unfold left_of, meets, right_of.
    rewrite Forall_app in HR. destruct HR as [HRM _].
    split; [|split]; rewrite Forall_forall in *; intros x Hx.
    - specialize (HA x Hx). lia.
    - specialize (HM x Hx). specialize (HRM x Hx). lia.
    - specialize (HB x Hx). lia.
  Qed.

  Definition touches_left (s : Z) (e : entry) : Prop := ehi e + 1 = s.
  Definition touches_right (t : Z) (e : entry) : Prop := elo e = t + 1.

  Lemma at_most_one m (P : entry -> Prop) :
    WF m -> Forall P m -> (forall x y, okv x -> okv y -> P x -> P y -> ~ ehi x < elo y) ->
    exists o, m = opt_list o.
  Proof.
    intros W HP HH. destruct m as [|a [|b m]]; [exists None; reflexivity|exists (Some a); reflexivity|].
    exfalso. apply WF_cons in W. destruct W as (Va & W & Ha). apply WF_cons in W. destruct W as (Vb & _ & _).
    inversion HP as [|? ? Pa HP']; subst. inversion HP'; subst. inversion Ha; subst.
    apply (HH a b); assumption.
  Qed.

  Lemma split5 m s t : WF m -> s <= t ->
    exists A TL M TR B,
      m = A ++ opt_list TL ++ M ++ opt_list TR ++ B /\
      Forall (left_of (s - 1)) A /\ Forall (touches_left s) (opt_list TL) /\
      Forall (meets s t) M /\
      Forall (touches_right t) (opt_list TR) /\ Forall (right_of (t + 1)) B.
  Proof.
    intros W Hst.
    destruct (split3 m s t W Hst) as (A & M & B & -> & HA & HM & HB).
    apply WF_app in W. destruct W as (WA & WMB & _). apply WF_app in WMB. destruct WMB as (_ & WB & _).
    destruct (split_by (fun e => ehi e + 1 <? s) A WA) as (A1 & T1 & -> & HA1 & HT1).
    { unfold okv. intros. lia. }
    destruct (split_by (fun e => elo e <=? t + 1) B WB) as (T2 & B2 & -> & HT2 & HB2).
    { unfold okv. intros. lia. }
    apply WF_app in WA. destruct WA as (_ & WT1 & _). apply WF_app in WB. destruct WB as (WT2 & _ & _).
    rewrite Forall_app in HA, HB. destruct HA as [_ HA2]. destruct HB as [HB1 _].
    assert (HT1' : Forall (touches_left s) T1).
    { rewrite Forall_forall in *. intros x Hx. specialize (HT1 x Hx). specialize (HA2 x Hx).
      unfold left_of, touches_left in *. lia. }
    assert (HT2' : Forall (touches_right t) T2).
    { rewrite Forall_forall in *. intros x Hx. specialize (HT2 x Hx). specialize (HB1 x Hx).
      unfold right_of, touches_right in *. lia. }
    destruct (at_most_one T1 (touches_left s) WT1 HT1') as [TL ->].
    { unfold okv, touches_left. intros. lia. }
    destruct (at_most_one T2 (touches_right t) WT2 HT2') as [TR ->].
    { unfold okv, touches_right. intros. lia. }
    exists A1, TL, M, TR, B2.
    split; [rewrite !app_assoc; reflexivity|].
    split; [|split; [exact HT1'|split; [exact HM|split; [exact HT2'|]]]].
    - rewrite Forall_forall in *. intros x Hx. specialize (HA1 x Hx). unfold left_of. lia.
    - rewrite Forall_forall in *. intros x Hx. specialize (HB2 x Hx). unfold right_of. lia.
  Qed.

  (** ** [overlapping] *)
  Lemma comp_left p m : Forall okv m -> Forall (left_of (rk p)) m ->
    Forall (fun e => overlapping_comp p (fst e) = Gt) m.
  Proof.
    intros HV Hm. rewrite Forall_forall in *. intros x Hx. specialize (HV x Hx). specialize (Hm x Hx).
    unfold okv, left_of, elo, ehi in *. apply overlapping_comp_Gt; lia.
  Qed.
  Lemma comp_right p m : Forall (right_of (rk p)) m ->
    Forall (fun e => overlapping_comp p (fst e) = Lt) m.
  Proof.
    intros Hm. rewrite Forall_forall in *. intros x Hx. specialize (Hm x Hx).
    unfold right_of, elo in *. apply overlapping_comp_Lt; lia.
  Qed.

  Lemma seek_split p A R : WF (A ++ R) -> Forall (left_of (rk p)) A ->
    Forall (fun e => rk p <= ehi e) R -> seek (overlapping_comp p) (A ++ R) = (A, R).
  Proof.
    intros W HA HR. apply WF_app in W. destruct W as ([_ VA] & [_ VR] & _).
    apply seek_app; [apply comp_left; assumption|].
    apply head_not_gt_all. rewrite Forall_forall in *. intros x Hx E.
    specialize (HR x Hx). specialize (VR x Hx). unfold okv, elo, ehi in *.
    apply overlapping_comp_Gt in E; lia.
  Qed.

  Lemma last_meets M s t : WF M -> Forall (meets s t) M -> s <= t ->
    M = [] \/ exists M' x, M = M' ++ [x] /\ Forall (fun e => s <= ehi e < t) M' /\ meets s t x.
  Proof.
    intros W HM Hst. destruct (snoc_cases M) as [->|(M' & x & ->)]; [left; reflexivity|right].
    exists M', x. split; [reflexivity|]. rewrite Forall_app in HM. destruct HM as [HM Hx].
    inversion Hx as [|? ? Hx' _]; subst. split; [|exact Hx'].
    apply WF_app in W. destruct W as (_ & _ & W). rewrite Forall_forall in *.
    intros y Hy. specialize (W y x Hy (or_introl eq_refl)). specialize (HM y Hy). unfold meets in *. lia.
  Qed.

  Lemma upper_split p M B s : WF (M ++ B) -> Forall (meets s (rk p)) M -> s <= rk p ->
    Forall (right_of (rk p)) B -> take_upper (overlapping_comp p) (M ++ B) = M.
  Proof.
    intros W HM Hs HB. pose proof W as W'. apply WF_app in W'. destruct W' as (WM & WB & _).
    destruct (last_meets M s (rk p) WM HM Hs) as [->|(M' & x & -> & HM' & Hx)].
    - apply (take_upper_app _ []); [constructor|apply comp_right, HB].
    - apply WF_app in WM. destruct WM as ([_ VM'] & [_ Vx] & _).
      assert (G : Forall (fun e => overlapping_comp p (fst e) = Gt) M').
      { apply comp_left; [exact VM'|]. rewrite Forall_forall in *. intros y Hy.
        specialize (HM' y Hy). unfold left_of. lia. }
      destruct x as [kx vx]. unfold meets, elo, ehi in Hx. cbn in Hx.
      inversion Vx as [|? ? Vx' _]; subst. unfold okv, elo, ehi in Vx'. cbn in Vx'.
      destruct (Z_lt_le_dec (hi kx) (rk p)) as [L|L].
      + apply take_upper_app; [|apply comp_right, HB].
        rewrite Forall_app. split; [exact G|]. constructor; [|constructor]. cbn.
        apply overlapping_comp_Gt; lia.
      + rewrite <- app_assoc. cbn. apply take_upper_hit; [exact G|]. apply overlapping_comp_Eq. lia.
  Qed.

  Section Q.
    Context {Q : Type} {IQ : InclusiveInterval I Q}.
    Implicit Type q : Q.

    Lemma overlapping_split q A M B :
      valid q -> WF (A ++ M ++ B) -> Forall (left_of (lo q)) A -> Forall (meets (lo q) (hi q)) M ->
      Forall (right_of (hi q)) B -> overlapping (A ++ M ++ B) q = Val M.
    Proof.
      intros Vq W HA HM HB. unfold overlapping. rewrite (iip_valid _ Vq). cbn [obind].
      apply valid_rk in Vq. unfold range.
      rewrite seek_split; [|exact W|exact HA|].
      - cbn [snd]. f_equal. apply WF_app in W. destruct W as (_ & W & _).
        apply (upper_split _ _ _ (lo q)); try assumption.
      - rewrite Forall_app. apply WF_app in W. destruct W as (_ & W & _).
        apply WF_app in W. destruct W as (_ & [_ VB] & _).
        split; rewrite Forall_forall in *; intros x Hx.
        + specialize (HM x Hx). unfold meets, lo in *. lia.
        + specialize (HB x Hx). specialize (VB x Hx). unfold right_of, okv, lo, hi in *. lia.
    Qed.

    Lemma map_overlaps_split q A M B :
      valid q -> WF (A ++ M ++ B) -> Forall (left_of (lo q)) A -> Forall (meets (lo q) (hi q)) M ->
      Forall (right_of (hi q)) B ->
      map_overlaps (A ++ M ++ B) q = Val (match M with [] => false | _ => true end).
    Proof.
      intros Vq W HA HM HB. unfold map_overlaps.
      rewrite (overlapping_split q A M B); try assumption. rewrite (iip_valid _ Vq). reflexivity.
    Qed.

    Lemma overlapping_mut_split f q A M B :
      valid q -> WF (A ++ M ++ B) -> Forall (left_of (lo q)) A -> Forall (meets (lo q) (hi q)) M ->
      Forall (right_of (hi q)) B ->
      overlapping_mut f q (A ++ M ++ B) = (A ++ map_values f M ++ B, Val tt).
    Proof.
      intros Vq W HA HM HB. unfold overlapping_mut. rewrite (iip_valid _ Vq). f_equal.
      apply valid_rk in Vq. unfold range_mut. pose proof W as W'.
      apply WF_app in W'. destruct W' as (_ & W' & _).
      pose proof W' as W2. apply WF_app in W2. destruct W2 as (WM & [_ VB] & _).
      rewrite seek_split; [|exact W|exact HA|].
      - f_equal.
        destruct (last_meets M _ _ WM HM Vq) as [->|(M' & x & -> & HM' & Hx)].
        + apply (map_upper_app _ _ []); [constructor|apply comp_right, HB].
        + apply WF_app in WM. destruct WM as ([_ VM'] & [_ Vx] & _).
          assert (G : Forall (fun e => overlapping_comp (iend q) (fst e) = Gt) M').
          { apply comp_left; [exact VM'|]. rewrite Forall_forall in *. intros y Hy.
            specialize (HM' y Hy). unfold left_of, hi in *. lia. }
          destruct x as [kx vx]. unfold meets, elo, ehi in Hx. cbn in Hx.
          inversion Vx as [|? ? Vx' _]; subst. unfold okv, elo, ehi in Vx'. cbn in Vx'.
          destruct (Z_lt_le_dec (hi kx) (hi q)) as [L|L].
          * apply map_upper_app; [|apply comp_right, HB].
            rewrite Forall_app. split; [exact G|]. constructor; [|constructor]. cbn.
            apply overlapping_comp_Gt; unfold hi in *; lia.
          * rewrite <- app_assoc. cbn. apply map_upper_hit; [exact G|].
            apply overlapping_comp_Eq. unfold hi in *. lia.
      - rewrite Forall_app.
        split; rewrite Forall_forall in *; intros x Hx.
        + specialize (HM x Hx). unfold meets, lo in *. lia.
        + specialize (HB x Hx). specialize (VB x Hx). unfold right_of, okv, lo, hi in *. lia.
    Qed.

    (** ** [remove_overlapping] and [cut] *)
    Lemma remove_loop_split q pre M B acc :
      lo q <= hi q -> Forall okv (M ++ B) -> Forall (meets (lo q) (hi q)) M -> Forall (right_of (hi q)) B ->
      remove_overlapping_loop q pre (M ++ B) acc = (pre ++ B, Val (acc ++ M)).
    Proof.
      intros Vq HV HM HB. revert acc. induction M as [|[k v] M IH]; intros acc.
      - cbn [app]. rewrite app_nil_r. destruct B as [|[k v] B]; [reflexivity|].
        cbn [remove_overlapping_loop]. inversion HB as [|? ? Hk _]; subst.
        inversion HV as [|? ? Vk _]; subst. unfold right_of, okv, elo, ehi in *. cbn in *.
        rewrite overlaps_true by lia.
        replace (_ && _) with false by lia. reflexivity.
      - cbn [app remove_overlapping_loop]. inversion HM as [|? ? Hk HM']; subst.
        inversion HV as [|? ? Vk HV']; subst. unfold meets, okv, elo, ehi in *. cbn [fst] in *.
        rewrite overlaps_true by lia. replace (_ && _) with true by lia.
        rewrite IH; try assumption. rewrite <- app_assoc. reflexivity.
    Qed.

    Lemma remove_overlapping_split q A M B :
      valid q -> WF (A ++ M ++ B) -> Forall (left_of (lo q)) A -> Forall (meets (lo q) (hi q)) M ->
      Forall (right_of (hi q)) B ->
      remove_overlapping q (A ++ M ++ B) = (A ++ B, Val M).
    Proof.
      intros Vq W HA HM HB. unfold remove_overlapping. rewrite (iip_valid _ Vq).
      apply valid_rk in Vq. unfold lower_bound.
      pose proof W as W'. apply WF_app in W'. destruct W' as (_ & W' & _).
      destruct W' as [_ V']. rewrite seek_split; [|exact W|exact HA|].
      - cbn [fst snd]. rewrite remove_loop_split; try assumption. reflexivity.
      - rewrite Forall_app in *. destruct V' as [_ VB].
        split; rewrite Forall_forall in *; intros x Hx.
        + specialize (HM x Hx). unfold meets, lo in *. lia.
        + specialize (HB x Hx). specialize (VB x Hx). unfold right_of, okv, lo, hi in *. lia.
    Qed.

    (** [k] comes from the interval type's [From<Interval>]. *)
    Definition built (k : K) : Prop := exists i : Interval I, lo i <= hi i /\ k = ifrom i.
    Lemma built_ifrom (i : Interval I) : lo i <= hi i -> built (ifrom i).
    Proof. intros Hi. exists i. auto. Qed.
    Lemma built_eq {OL : OrdLaws I} k k' : built k -> built k' -> lo k = lo k' -> hi k = hi k' -> k = k'.
    Proof.
      intros (i & Vi & ->) (j & Vj & ->). rewrite !from_lo, !from_hi by assumption.
      intros E1 E2. f_equal. destruct i as [a b], j as [c d]. unfold lo, hi in *. cbn in *.
      f_equal; apply rk_inj; assumption.
    Qed.

    (** What cutting [q] out of the overlapping entry [e] leaves ([ps]) and
        yields ([i]). *)
    Record cut_entry (q : Q) (e : entry) (ps : list entry) (i : entry) : Prop := {
      ce_pieces : exists b a, ps = opt_list b ++ opt_list a /\
        match b with
        | None => lo q <= elo e
        | Some e' => elo e < lo q /\ elo e' = elo e /\ ehi e' = lo q - 1 /\ snd e' = snd e
        end /\
        match a with
        | None => ehi e <= hi q
        | Some e' => hi q < ehi e /\ elo e' = hi q + 1 /\ ehi e' = ehi e /\ snd e' = snd e
        end;
      ce_lo : elo i = Z.max (elo e) (lo q);
      ce_hi : ehi i = Z.min (ehi e) (hi q);
      ce_val : snd i = snd e;
      ce_built : Forall (fun x => built (fst x)) (i :: ps)
    }.

    Inductive cut_list (q : Q) : list entry -> list entry -> list entry -> Prop :=
    | cl_nil : cut_list q [] [] []
    | cl_cons e ps i M out ins :
        cut_entry q e ps i -> cut_list q M out ins -> cut_list q (e :: M) (ps ++ out) (i :: ins).

    Lemma cut_loop_split q pre M B acc :
      lo q <= hi q -> Forall okv (M ++ B) -> Forall (meets (lo q) (hi q)) M -> Forall (right_of (hi q)) B ->
      exists out ins, cut_loop q pre (M ++ B) acc = (pre ++ out ++ B, Val (acc ++ ins)) /\ cut_list q M out ins.
    Proof.
      intros Vq HV HM HB. revert pre acc. induction M as [|[k v] M IH]; intros pre acc.
      - exists [], []. split; [|constructor]. cbn [app]. rewrite app_nil_r. destruct B as [|[k v] B]; [reflexivity|].
        cbn [cut_loop]. inversion HB as [|? ? Hk _]; subst.
        inversion HV as [|? ? Vk _]; subst. unfold right_of, okv, elo, ehi in *. cbn in *.
        rewrite overlaps_true by lia. replace (_ && _) with false by lia. reflexivity.
      - cbn [app cut_loop]. inversion HM as [|? ? Hk HM']; subst.
        inversion HV as [|? ? Vk HV']; subst. unfold meets, okv, elo, ehi in *. cbn [fst] in *.
        rewrite overlaps_true by lia. replace (_ && _) with true by lia.
        destruct (cut_interval_ok k q) as (r & Er & Hb & (i & Ei & Hil & Hih) & Ha); try lia.
        rewrite Er. rewrite Ei.
        destruct (IH HV' HM' (insert_piece (after_cut r) v (insert_piece (before_cut r) v pre))
                    (acc ++ [(ifrom i, v)])) as (out & ins & Eq & Hcl).
        rewrite Eq.
        exists ((opt_list (option_map (fun x => (ifrom x, v)) (before_cut r))
                 ++ opt_list (option_map (fun x => (ifrom x, v)) (after_cut r))) ++ out),
               ((ifrom i, v) :: ins).
        split.
        + f_equal.
          * rewrite <- app_assoc. destruct (before_cut r), (after_cut r); cbn; rewrite <- ?app_assoc; reflexivity.
          * rewrite <- app_assoc. reflexivity.
        + constructor; [|exact Hcl].
          assert (Hi : lo i <= hi i) by lia.
          constructor; unfold elo, ehi; cbn [fst snd].
          * eexists _, _. split; [reflexivity|]. split.
            -- clear Ha. destruct (before_cut r) as [x|]; cbn; [|lia].
               destruct Hb as (? & ? & ?). rewrite from_lo, from_hi by lia. auto with zarith.
            -- clear Hb. destruct (after_cut r) as [x|]; cbn; [|lia].
               destruct Ha as (? & ? & ?). rewrite from_lo, from_hi by lia. auto with zarith.
          * rewrite from_lo; lia.
          * rewrite from_hi; lia.
          * reflexivity.
          * constructor; [apply built_ifrom; lia|]. apply Forall_app. split.
            -- clear Ha. destruct (before_cut r) as [x|]; cbn; [|constructor].
               constructor; [|constructor]. apply built_ifrom. lia.
            -- clear Hb. destruct (after_cut r) as [x|]; cbn; [|constructor].
               constructor; [|constructor]. apply built_ifrom. lia.
    Qed.

    Lemma cut_split q A M B :
      valid q -> WF (A ++ M ++ B) -> Forall (left_of (lo q)) A -> Forall (meets (lo q) (hi q)) M ->
      Forall (right_of (hi q)) B ->
      exists out ins, cut q (A ++ M ++ B) = (A ++ out ++ B, Val ins) /\ cut_list q M out ins.
    Proof.
      intros Vq W HA HM HB. unfold cut. rewrite (iip_valid _ Vq).
      apply valid_rk in Vq. unfold lower_bound.
      pose proof W as W'. apply WF_app in W'. destruct W' as (_ & W' & _).
      destruct W' as [_ V']. rewrite seek_split; [|exact W|exact HA|].
      - cbn [fst snd]. destruct (cut_loop_split q A M B []) as (out & ins & E & Hc); try assumption.
        exists out, ins. rewrite E. split; [reflexivity|exact Hc].
      - rewrite Forall_app in *. destruct V' as [_ VB].
        split; rewrite Forall_forall in *; intros x Hx.
        + specialize (HM x Hx). unfold meets, lo in *. lia.
        + specialize (HB x Hx). specialize (VB x Hx). unfold right_of, okv, lo, hi in *. lia.
    Qed.
  End Q.

  (** ** Point lookups *)
  Lemma split_point m p : WF m ->
    exists A o B, m = A ++ opt_list o ++ B /\ Forall (left_of (rk p)) A /\
      Forall (meets (rk p) (rk p)) (opt_list o) /\ Forall (right_of (rk p)) B.
  Proof.
    intros W. destruct (split3 m (rk p) (rk p) W) as (A & M & B & -> & HA & HM & HB); [lia|].
    apply WF_app in W. destruct W as (_ & W & _). apply WF_app in W. destruct W as (WM & _ & _).
    destruct (at_most_one M _ WM HM) as [o ->].
    { unfold okv, meets. intros. lia. }
    exists A, o, B. auto.
  Qed.

  Lemma get_key_value_split p A o B :
    WF (A ++ opt_list o ++ B) -> Forall (left_of (rk p)) A ->
    Forall (meets (rk p) (rk p)) (opt_list o) -> Forall (right_of (rk p)) B ->
    get_key_value (overlapping_comp p) (A ++ opt_list o ++ B) = o.
  Proof.
    intros W HA Ho HB. apply WF_app in W. destruct W as ([_ VA] & _ & _).
    destruct o as [[k v]|]; cbn [opt_list app].
    - apply get_key_value_hit; [apply comp_left; assumption|].
      inversion Ho as [|? ? Hk _]; subst. unfold meets, elo, ehi in Hk. cbn in Hk.
      apply overlapping_comp_Eq. lia.
    - apply get_key_value_miss; [apply comp_left; assumption|apply comp_right; assumption].
  Qed.

  Lemma get_at_point_mut_split f p A o B :
    WF (A ++ opt_list o ++ B) -> Forall (left_of (rk p)) A ->
    Forall (meets (rk p) (rk p)) (opt_list o) -> Forall (right_of (rk p)) B ->
    get_at_point_mut f p (A ++ opt_list o ++ B) =
    (A ++ opt_list (option_map (fun e => (fst e, f (snd e))) o) ++ B, option_map snd o).
  Proof.
    intros W HA Ho HB. apply WF_app in W. destruct W as ([_ VA] & _ & _).
    unfold get_at_point_mut.
    destruct o as [[k v]|]; cbn [opt_list app option_map fst snd].
    - apply get_mut_hit; [apply comp_left; assumption|].
      inversion Ho as [|? ? Hk _]; subst. unfold meets, elo, ehi in Hk. cbn in Hk.
      apply overlapping_comp_Eq. lia.
    - apply get_mut_miss; [apply comp_left; assumption|apply comp_right; assumption].
  Qed.

  (** The gap [g] between the entries [A] on its left and [B] on its right. *)
  Record gap_ok (A B : NoditMap K V) (g : Interval I) : Prop := {
    gk_left : (A = [] /\ lo g = rk MIN) \/ (exists A' x, A = A' ++ [x] /\ lo g = ehi x + 1);
    gk_right : (B = [] /\ hi g = rk MAX) \/ (exists x B', B = x :: B' /\ hi g = elo x - 1)
  }.

  Lemma get_gap_split p A B :
    WF (A ++ B) -> Forall (left_of (rk p)) A -> Forall (right_of (rk p)) B ->
    exists g, get_gap_at_raw (A ++ B) p = Val g /\ gap_ok A B g /\ lo g <= rk p <= hi g.
  Proof.
    intros W HA HB. unfold get_gap_at_raw.
    assert (Es : seek (overlapping_comp p) (A ++ B) = (A, B)).
    { apply WF_app in W. destruct W as ([_ VA] & _ & _). apply seek_app; [apply comp_left; assumption|].
      apply head_not_gt_all. apply comp_right in HB. rewrite Forall_forall in *.
      intros x Hx. rewrite (HB x Hx). discriminate. }
    assert (Ep : upper_bound (overlapping_comp p) (A ++ B) = move_prev (A, B)).
    { unfold upper_bound. rewrite Es. destruct B as [|[k v] B']; [reflexivity|]. apply comp_right in HB.
      inversion HB as [|? ? Hk _]; subst. cbn in Hk. rewrite Hk. reflexivity. }
    change (lower_bound (overlapping_comp p) (A ++ B)) with (seek (overlapping_comp p) (A ++ B)).
    rewrite Ep, Es. clear Ep.
    assert (Hlow : exists s, match cursor_key (move_prev (A, B)) with
                             | Some lower => unwrap (up (iend lower))
                             | None => Val MIN
                             end = Val s /\
                ((A = [] /\ rk s = rk MIN) \/ (exists A' x, A = A' ++ [x] /\ rk s = ehi x + 1))
                /\ rk s <= rk p).
    { destruct (snoc_cases A) as [->|(A' & x & ->)].
      - rewrite move_prev_nil. cbn. exists MIN. split; [reflexivity|]. split; [left; auto|apply rk_min].
      - match goal with |- context [move_prev ?c] =>
          assert (E : move_prev c = (A', x :: B)) by exact (move_prev_snoc A' x B); rewrite E
        end. cbn. rewrite Forall_app in HA. destruct HA as [_ Hx].
        inversion Hx as [|? ? Hx' _]; subst. unfold left_of, ehi, hi in Hx'.
        destruct (up_exists _ _ Hx') as (z & Ez & Hz). rewrite Ez. cbn.
        exists z. split; [reflexivity|]. split.
        + right. exists A', x. split; [reflexivity|]. unfold ehi, hi. exact Hz.
        + lia. }
    assert (Hup : exists t, match cursor_key (A, B) with
                            | Some upper => unwrap (down (istart upper))
                            | None => Val MAX
                            end = Val t /\
                ((B = [] /\ rk t = rk MAX) \/ (exists x B', B = x :: B' /\ rk t = elo x - 1))
                /\ rk p <= rk t).
    { destruct B as [|x B].
      - cbn. exists MAX. split; [reflexivity|]. split; [left; auto|apply rk_max].
      - cbn. inversion HB as [|? ? Hx' _]; subst. unfold right_of, elo, lo in Hx'.
        destruct (down_exists _ _ Hx') as (z & Ez & Hz). rewrite Ez. cbn.
        exists z. split; [reflexivity|]. split.
        + right. exists x, B. split; [reflexivity|]. unfold elo, lo. exact Hz.
        + lia. }
    destruct Hlow as (s & Hs & Gs & Ls). destruct Hup as (t & Ht & Gt & Lt).
    rewrite Hs, Ht. cbn. exists (mkInterval s t). split; [reflexivity|].
    split; [constructor|]; unfold lo, hi; cbn; auto.
  Qed.

  (** ** Insertions *)
  Lemma insert_unchecked_split k v A B :
    Forall (fun e => elo e < lo k) A -> Forall (fun e => lo k < elo e) B ->
    insert_unchecked k v (A ++ B) = A ++ (k, v) :: B.
  Proof.
    intros HA HB. unfold insert_unchecked. rewrite insert_miss; [reflexivity| |].
    - rewrite Forall_forall in *. intros x Hx. specialize (HA x Hx). rewrite starts_comp_rk.
      apply Z.compare_gt_iff. exact HA.
    - rewrite Forall_forall in *. intros x Hx. specialize (HB x Hx). rewrite starts_comp_rk.
      apply Z.compare_lt_iff. exact HB.
  Qed.

  Lemma WF_insert k v A B :
    WF (A ++ B) -> lo k <= hi k -> Forall (left_of (lo k)) A -> Forall (right_of (hi k)) B ->
    WF (A ++ (k, v) :: B).
  Proof.
    intros W Vk HA HB. apply WF_app in W. destruct W as (WA & WB & WAB).
    apply WF_app. split; [exact WA|]. split.
    - apply WF_cons. split; [exact Vk|]. split; [exact WB|]. exact HB.
    - rewrite Forall_forall in *. intros x y Hx [<-|Hy]; [apply HA, Hx|auto].
  Qed.

  Lemma insert_strict_split k v A M B :
    valid k -> WF (A ++ M ++ B) -> Forall (left_of (lo k)) A -> Forall (meets (lo k) (hi k)) M ->
    Forall (right_of (hi k)) B ->
    insert_strict k v (A ++ M ++ B) =
    match M with
    | [] => (A ++ (k, v) :: B, Val (Ok tt))
    | _ => (A ++ M ++ B, Val (Err v))
    end.
  Proof.
    intros Vk W HA HM HB. unfold insert_strict. rewrite (iip_valid _ Vk).
    rewrite map_overlaps_split; try assumption.
    destruct M as [|x M]; [|reflexivity]. apply valid_rk in Vk.
    cbn [app]. rewrite insert_unchecked_split; [reflexivity| |].
    - apply WF_app in W. destruct W as ([_ VA] & _ & _). rewrite Forall_forall in *. intros x Hx.
      specialize (HA x Hx). specialize (VA x Hx). unfold left_of, okv in *. lia.
    - rewrite Forall_forall in *. intros x Hx. specialize (HB x Hx). unfold right_of in *. lia.
  Qed.

  (** ** The merging insertions, from the five-way split *)
  Section Merge.
    Context (k : K) (v : V).
    Context (A : NoditMap K V) (TL : option entry) (M : NoditMap K V) (TR : option entry) (B : NoditMap K V).
    Context (Vk : lo k <= hi k).
    Context (W : WF (A ++ opt_list TL ++ M ++ opt_list TR ++ B)).
    Context (HA : Forall (left_of (lo k - 1)) A) (HTL : Forall (touches_left (lo k)) (opt_list TL)).
    Context (HM : Forall (meets (lo k) (hi k)) M).
    Context (HTR : Forall (touches_right (hi k)) (opt_list TR)) (HB : Forall (right_of (hi k + 1)) B).

    Lemma merge_split3 :
      WF ((A ++ opt_list TL) ++ M ++ (opt_list TR ++ B)) /\
      Forall (left_of (lo k)) (A ++ opt_list TL) /\ Forall (right_of (hi k)) (opt_list TR ++ B).
    Proof.
      split; [rewrite <- app_assoc; exact W|]. rewrite !Forall_app.
      rewrite Forall_forall in HA, HTL, HTR, HB.
      split; split; rewrite Forall_forall; intros x Hx.
      - specialize (HA x Hx). unfold left_of in *. lia.
      - specialize (HTL x Hx). unfold left_of, touches_left in *. lia.
      - specialize (HTR x Hx). unfold right_of, touches_right in *. lia.
      - specialize (HB x Hx). unfold right_of in *. lia.
    Qed.

    Lemma merge_oks : Forall okv A /\ Forall okv (opt_list TL) /\ Forall okv M /\
                      Forall okv (opt_list TR) /\ Forall okv B.
    Proof. destruct W as [_ HV]. rewrite !Forall_app in HV. tauto. Qed.

    Lemma ts_A (X : NoditMap K V) : (forall x, In x X -> In x A) ->
      Forall (fun e => touching_start_comp (istart k) (fst e) = Gt) X.
    Proof.
      intros HX. rewrite Forall_forall in *. intros x Hx%HX. specialize (HA x Hx).
      rewrite touching_start_comp_rk. apply Z.compare_gt_iff. unfold left_of, ehi in HA.
      change (hi (fst x) + 1 < lo k). lia.
    Qed.
    Lemma ts_right (X : NoditMap K V) : Forall okv X -> Forall (fun e => lo k <= ehi e) X ->
      Forall (fun e => touching_start_comp (istart k) (fst e) = Lt) X.
    Proof.
      intros _ HX. rewrite Forall_forall in *. intros x Hx. specialize (HX x Hx).
      rewrite touching_start_comp_rk. apply Z.compare_lt_iff. unfold ehi in HX.
      change (lo k < hi (fst x) + 1). lia.
    Qed.
    Lemma ts_TL x : TL = Some x -> touching_start_comp (istart k) (fst x) = Eq.
    Proof.
      intros ->. inversion HTL as [|? ? Hx _]; subst. rewrite touching_start_comp_rk.
      apply Z.compare_eq_iff. unfold touches_left, ehi in Hx. change (lo k = hi (fst x) + 1). lia.
    Qed.
    Lemma te_left (X : NoditMap K V) : Forall okv X -> Forall (fun e => elo e <= hi k) X ->
      Forall (fun e => touching_end_comp (iend k) (fst e) = Gt) X.
    Proof.
      intros _ HX. rewrite Forall_forall in *. intros x Hx. specialize (HX x Hx).
      rewrite touching_end_comp_rk. apply Z.compare_gt_iff. unfold elo in HX.
      change (lo (fst x) < hi k + 1). lia.
    Qed.
    Lemma te_TR x : TR = Some x -> touching_end_comp (iend k) (fst x) = Eq.
    Proof.
      intros ->. inversion HTR as [|? ? Hx _]; subst. rewrite touching_end_comp_rk.
      apply Z.compare_eq_iff. unfold touches_right, elo in Hx. change (hi k + 1 = lo (fst x)). lia.
    Qed.
    Lemma te_B (X : NoditMap K V) : (forall x, In x X -> In x B) ->
      Forall (fun e => touching_end_comp (iend k) (fst e) = Lt) X.
    Proof.
      intros HX. rewrite Forall_forall in *. intros x Hx%HX. specialize (HB x Hx).
      rewrite touching_end_comp_rk. apply Z.compare_lt_iff. unfold right_of, elo in HB.
      change (hi k + 1 < lo (fst x)). lia.
    Qed.

    Lemma hi_TR : Forall (fun e => lo k <= ehi e) (opt_list TR).
    Proof.
      destruct merge_oks as (_ & _ & _ & OT & _). rewrite Forall_forall in *. intros x Hx.
      specialize (HTR x Hx). specialize (OT x Hx). unfold touches_right, okv in *. lia.
    Qed.
    Lemma hi_B : Forall (fun e => lo k <= ehi e) B.
    Proof.
      destruct merge_oks as (_ & _ & _ & _ & OB). rewrite Forall_forall in *. intros x Hx.
      specialize (HB x Hx). specialize (OB x Hx). unfold right_of, okv in *. lia.
    Qed.
    Lemma hi_M : Forall (fun e => lo k <= ehi e) M.
    Proof. rewrite Forall_forall in *. intros x Hx. specialize (HM x Hx). unfold meets in HM. lia. Qed.
    Lemma lo_M : Forall (fun e => elo e <= hi k) M.
    Proof. rewrite Forall_forall in *. intros x Hx. specialize (HM x Hx). unfold meets in HM. lia. Qed.
    Lemma lo_TL : Forall (fun e => elo e <= hi k) (opt_list TL).
    Proof.
      destruct merge_oks as (_ & OT & _). rewrite Forall_forall in *. intros x Hx.
      specialize (HTL x Hx). specialize (OT x Hx). unfold touches_left, okv in *. lia.
    Qed.
    Lemma lo_A : Forall (fun e => elo e <= hi k) A.
    Proof.
      destruct merge_oks as (OA & _). rewrite Forall_forall in *. intros x Hx.
      specialize (HA x Hx). specialize (OA x Hx). unfold left_of, okv in *. lia.
    Qed.

    Lemma get_ts R : Forall okv R -> Forall (fun e => lo k <= ehi e) R ->
      get_key_value (touching_start_comp (istart k)) (A ++ opt_list TL ++ R) = TL.
    Proof.
      intros OR HR. pose proof ts_TL as HTLc. destruct TL as [[t tv]|]; cbn [opt_list app].
      - apply get_key_value_hit; [apply ts_A; auto|]. exact (HTLc _ eq_refl).
      - apply get_key_value_miss; [apply ts_A; auto|apply ts_right; assumption].
    Qed.
    Lemma remove_ts R : Forall okv R -> Forall (fun e => lo k <= ehi e) R ->
      fst (remove (touching_start_comp (istart k)) (A ++ opt_list TL ++ R)) = A ++ R.
    Proof.
      intros OR HR. pose proof ts_TL as HTLc. destruct TL as [[t tv]|]; cbn [opt_list app].
      - rewrite remove_hit; [reflexivity|apply ts_A; auto|exact (HTLc _ eq_refl)].
      - rewrite remove_miss; [reflexivity|apply ts_A; auto|apply ts_right; assumption].
    Qed.
    Lemma get_te L : Forall okv L -> Forall (fun e => elo e <= hi k) L ->
      get_key_value (touching_end_comp (iend k)) (L ++ opt_list TR ++ B) = TR.
    Proof.
      intros OR HR. pose proof te_TR as HTRc. destruct TR as [[t tv]|]; cbn [opt_list app].
      - apply get_key_value_hit; [apply te_left; auto|]. exact (HTRc _ eq_refl).
      - apply get_key_value_miss; [apply te_left; auto|apply te_B; auto].
    Qed.
    Lemma remove_te L : Forall okv L -> Forall (fun e => elo e <= hi k) L ->
      fst (remove (touching_end_comp (iend k)) (L ++ opt_list TR ++ B)) = L ++ B.
    Proof.
      intros OR HR. pose proof te_TR as HTRc. destruct TR as [[t tv]|]; cbn [opt_list app].
      - rewrite remove_hit; [reflexivity|apply te_left; auto|exact (HTRc _ eq_refl)].
      - rewrite remove_miss; [reflexivity|apply te_left; auto|apply te_B; auto].
    Qed.

    (** The two end-point lookups of the overlap merges. *)
    Definition first_at : option entry :=
      match M with
      | x :: _ => if elo x <=? lo k then Some x else None
      | [] => None
      end.
    Lemma get_os :
      get_key_value (overlapping_comp (istart k)) (A ++ opt_list TL ++ M ++ opt_list TR ++ B) = first_at.
    Proof.
      destruct merge_split3 as (W3 & H1 & H2).
      rewrite app_assoc. pose proof W3 as W4. apply WF_app in W4. destruct W4 as ([_ VA] & WR & _).
      pose proof (comp_left _ _ VA H1) as C1.
      apply comp_right in H2 as C2.
      assert (C2' : Forall (fun e => overlapping_comp (istart k) (fst e) = Lt) (opt_list TR ++ B)).
      { apply comp_right. rewrite Forall_forall in *. intros x Hx. specialize (H2 x Hx).
        unfold right_of, lo, hi in *. lia. }
      unfold first_at. destruct M as [|[x xv] M']; [apply get_key_value_miss; assumption|].
      cbn [app]. inversion HM as [|? ? Hx HM']; subst. unfold meets, elo, ehi in Hx. cbn in Hx.
      unfold elo. cbn [fst]. destruct (Z.leb_spec (lo x) (lo k)) as [L|L].
      - apply get_key_value_hit; [exact C1|]. apply overlapping_comp_Eq. unfold lo, hi in *. lia.
      - apply get_key_value_miss; [exact C1|]. cbn [app] in WR. apply WF_cons in WR.
        destruct WR as (_ & _ & WR). constructor.
        + apply overlapping_comp_Lt. unfold lo in *. cbn. lia.
        + rewrite Forall_app in WR |- *. destruct WR as [WR _]. split; [|exact C2'].
          rewrite Forall_forall in *. intros y Hy. specialize (WR y Hy). apply overlapping_comp_Lt.
          unfold elo, ehi, lo, hi in *. cbn in *. lia.
    Qed.

    (** Last entry of [M] if it contains the end of [k]. *)
    Definition last_at (o : option entry) : Prop :=
      match o with
      | Some x => (exists M', M = M' ++ [x]) /\ hi k <= ehi x
      | None => Forall (fun e => ehi e < hi k) M
      end.
    Lemma get_oe :
      last_at (get_key_value (overlapping_comp (iend k)) (A ++ opt_list TL ++ M ++ opt_list TR ++ B)).
    Proof.
      destruct merge_split3 as (W3 & H1 & H2).
      rewrite app_assoc. pose proof W3 as W4. apply WF_app in W4. destruct W4 as ([_ VA] & WR & _).
      apply WF_app in WR. destruct WR as (WM & _ & _).
      assert (C1 : Forall (fun e => overlapping_comp (iend k) (fst e) = Gt) (A ++ opt_list TL)).
      { apply comp_left; [exact VA|]. rewrite Forall_forall in *. intros x Hx. specialize (H1 x Hx).
        unfold left_of, lo, hi in *. lia. }
      apply comp_right in H2 as C2.
      destruct (last_meets M _ _ WM HM Vk) as [EM|(M' & [x xv] & EM & HM' & Hx)].
      - rewrite EM. cbn [app]. rewrite get_key_value_miss; [|assumption|assumption].
        unfold last_at. rewrite EM. constructor.
      - rewrite EM in *. apply WF_app in WM. destruct WM as ([_ VM'] & [_ Vx] & _).
        inversion Vx as [|? ? Vx' _]; subst.
        unfold meets, okv, elo, ehi in Hx, Vx'. cbn in Hx, Vx'.
        assert (C3 : Forall (fun e => overlapping_comp (iend k) (fst e) = Gt) ((A ++ opt_list TL) ++ M')).
        { rewrite Forall_app. split; [exact C1|]. apply comp_left; [exact VM'|].
          rewrite Forall_forall in *. intros y Hy. specialize (HM' y Hy). unfold left_of, hi in *. lia. }
        destruct (Z_lt_le_dec (hi x) (hi k)) as [L|L].
        + replace ((A ++ opt_list TL) ++ (M' ++ [(x, xv)]) ++ opt_list TR ++ B)
            with (((A ++ opt_list TL) ++ M' ++ [(x, xv)]) ++ opt_list TR ++ B) by (rewrite <- !app_assoc; reflexivity).
          rewrite get_key_value_miss; [|rewrite app_assoc, Forall_app; split; [exact C3|]|assumption].
          * unfold last_at. rewrite EM, Forall_app. split.
            -- rewrite Forall_forall in *. intros y Hy. specialize (HM' y Hy). lia.
            -- constructor; [exact L|constructor].
          * constructor; [|constructor]. apply overlapping_comp_Gt; [exact Vx'|exact L].
        + replace ((A ++ opt_list TL) ++ (M' ++ [(x, xv)]) ++ opt_list TR ++ B)
            with (((A ++ opt_list TL) ++ M') ++ (x, xv) :: opt_list TR ++ B) by (rewrite <- !app_assoc; reflexivity).
          rewrite get_key_value_hit; [|exact C3|apply overlapping_comp_Eq; unfold hi, lo in *; lia].
          unfold last_at. split; [exists M'; exact EM|exact L].
    Qed.

    Lemma remove_M : remove_overlapping k (A ++ opt_list TL ++ M ++ opt_list TR ++ B)
                     = (A ++ opt_list TL ++ opt_list TR ++ B, Val M).
    Proof.
      destruct merge_split3 as (W3 & H1 & H2). rewrite app_assoc.
      rewrite remove_overlapping_split; try assumption; [|apply valid_rk; exact Vk].
      rewrite <- app_assoc. reflexivity.
    Qed.
  End Merge.
End Facts.
