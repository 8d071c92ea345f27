(** * PutBackFacts: putting back what was cut out of a ZosditMap (the proofs of C144). *)
From Coq Require Import List ZArith Bool Lia ZifyBool Sorting.Sorted.
From Verif Require Import Base BTree UtilsModel IntervalModel NoditModel ZosditModel Spec ZosditOps WalkOps PutBackOps
  PointFacts IntervalFacts ListFacts NoditFacts ZosditFacts ZosditMut ZosditProofs AccountFacts WalkFacts.
Import ListNotations.
Open Scope Z_scope.

Section Facts.
  Context {I : Type} `{PL : PointLaws I}.
  Context {K : Type} {IK : InclusiveInterval I K} {IL : IntervalLaws I K}.
  Context {V : Type}.
  Implicit Types (z : ZosditMap K V) (k : K) (v : V).

  Lemma two_splits {T} (P : T -> Prop) (a b c d : list T) : a ++ b = c ++ d -> Forall P a -> Forall (fun x => ~ P x) b ->
    Forall P c -> Forall (fun x => ~ P x) d -> a = c /\ b = d.
  Proof.
    revert c. induction a as [|x a IH]; intros [|y c] E Ha Hb Hc Hd; cbn [app] in E.
    - auto.
    - subst b. inversion Hb; subst. inversion Hc; subst. contradiction.
    - subst d. inversion Hd; subst. inversion Ha; subst. contradiction.
    - injection E as -> E. inversion Ha; subst. inversion Hc; subst. destruct (IH c E) as [-> ->]; auto.
  Qed.

  Lemma mid_split {T} (X B A : list T) x C : X ++ B = A ++ x :: C ->
    (exists R, X = A ++ x :: R /\ C = R ++ B) \/ (exists R, A = X ++ R /\ B = R ++ x :: C).
  Proof.
    revert A. induction X as [|y X IH]; intros A E; cbn [app] in E; [right; exists A; auto|].
    destruct A as [|a A]; cbn [app] in E; injection E as -> E; [left; exists X; auto|].
    destruct (IH A E) as [(R & -> & ->)|(R & -> & ->)]; [left|right]; exists R; auto.
  Qed.

  (** Inserting [k] into the middle of a map whose entries in the middle are over when it
      begins. *)
  Lemma put_one z k v (A M B : BTreeMap K (list V)) a b : ZWF z -> z_inner z = A ++ M ++ B ->
    Forall (fun e => ehi e < a) A -> Forall (fun e => a <= elo e /\ ehi e <= lo k) M -> ZD M -> Forall (fun e => b < elo e) B ->
    a <= lo k -> lo k <= hi k -> hi k <= b ->
    exists M' k', insert_strict_back k v z = (mkZosdit (z_len z + 1) (A ++ M' ++ B), Val (Ok tt)) /\
      flatten M' = flatten M ++ [(k', v)] /\ lo k' = lo k /\ hi k' = hi k /\ ZD M' /\ Forall (fun e => a <= elo e /\ ehi e <= hi k) M'.
  Proof.
    intros Wf El HA HM DM HB L1 L2 L3. pose proof Wf as (W & Hok & _).
    pose proof (okvs _ W) as X. rewrite El in X. apply Forall_app in X. destruct X as [VA X]. apply Forall_app in X. destruct X as [VM VB].
    assert (Ap : Forall (apart_from (lo k) (hi k)) (z_inner z)).
    { rewrite El. rewrite !Forall_app. split; [|split]; [eapply Forall_impl; [|exact HA]|eapply Forall_impl; [|exact HM]|eapply Forall_impl; [|exact HB]];
        unfold apart_from; cbn; intros; lia. }
    unfold insert_strict_back. rewrite iip_valid by (apply valid_rk, L2). destruct (is_zero_overlap_rk z k W L2) as [Z1 _]. rewrite (Z1 Ap).
    rewrite Forall_forall in HA, HM, HB, VA, VM, VB.
    destruct (entry_push_spec k v (z_inner z) W L2 Ap []) as
      [(A0 & k' & vs & B0 & E0 & -> & E1 & E2 & E3 & HA0)|(A0 & B0 & E0 & -> & HA0 & HB0)]; cbn [app]; rewrite El in E0.
    - rewrite app_assoc in E0. destruct (mid_split _ _ _ _ _ E0) as [(R & E4 & ->)|(R & _ & E4)].
      2:{ exfalso. assert (Hi : In (k', vs) B) by (rewrite E4; apply in_or_app; right; left; reflexivity). specialize (HB _ Hi). unfold elo in HB. cbn in HB. lia. }
      destruct (mid_split _ _ _ _ _ E4) as [(R1 & E5 & _)|(M0 & -> & E5)].
      1:{ exfalso. assert (Hi : In (k', vs) A) by (rewrite E5; apply in_or_app; right; left; reflexivity). specialize (HA _ Hi). unfold ehi in HA. cbn in HA. lia. }
      assert (R = []) as ->.
      { destruct R as [|r R]; [reflexivity|exfalso]. rewrite E5 in DM. apply ZD_app in DM. destruct DM as (_ & DM & _). apply ZD_cons in DM. destruct DM as [_ DM].
        inversion DM as [|? ? Lr _]; subst. assert (Hi : In r (M0 ++ (k', vs) :: r :: R)) by (apply in_or_app; right; right; left; reflexivity).
        specialize (HM _ Hi). unfold elo, ehi in *. cbn in *. lia. }
      subst M. exists (M0 ++ [(k', vs ++ [v])]), k'. cbn [app]. rewrite <- !app_assoc. cbn [app].
      split; [reflexivity|]. split; [rewrite !flatten_app, !flatten_cons, map_app; cbn; rewrite !app_nil_r, <- !app_assoc; reflexivity|].
      split; [exact E1|]. split; [exact E2|]. split.
      + apply ZD_app in DM. destruct DM as (D1 & _ & D3). apply ZD_app. split; [exact D1|]. split; [constructor; constructor|].
        intros x y Hx [<-|[]]. apply (D3 x (k', vs) Hx). left. reflexivity.
      + apply Forall_forall. intros e He. apply in_app_or in He. destruct He as [He|[<-|[]]]; [|unfold elo, ehi; cbn; lia].
        specialize (HM e (in_or_app _ _ _ (or_introl He))). lia.
    - rewrite app_assoc in E0. destruct (two_splits (fun e => ehi e <= lo k) (A ++ M) B A0 B0 E0) as [<- <-].
      + apply Forall_forall. intros e He. apply in_app_or in He. destruct He as [He|He]; [specialize (HA e He); lia|apply (HM e He)].
      + apply Forall_forall. intros e He. specialize (HB e He). specialize (VB e He). unfold okv in VB. lia.
      + eapply Forall_impl; [|exact HA0]. cbn. intros e He. lia.
      + eapply Forall_impl; [|exact HB0]. cbn. intros e He. lia.
      + exists (M ++ [(k, [v])]), k. rewrite <- !app_assoc. split; [reflexivity|]. split; [rewrite flatten_app; reflexivity|].
        split; [reflexivity|]. split; [reflexivity|]. apply Forall_app in HA0. destruct HA0 as [_ HA0]. rewrite Forall_forall in HA0. split.
        * apply ZD_app. split; [exact DM|]. split; [constructor; constructor|]. intros x y Hx [<-|[]]. specialize (HA0 x Hx). unfold ehi at 1. cbn. lia.
        * apply Forall_forall. intros e He. apply in_app_or in He. destruct He as [He|[<-|[]]]; [specialize (HM e He); lia|unfold elo, ehi; cbn; lia].
  Qed.

  Lemma put_all (out : list (K * V)) : forall z (A M B : BTreeMap K (list V)) a b, ZWF z -> z_inner z = A ++ M ++ B ->
    Forall (fun e => ehi e < a) A -> Forall (fun e => a <= elo e) M -> ZD M -> Forall (fun e => b < elo e) B ->
    ZS out -> Forall (fun o => a <= elo o /\ ehi o <= b) out -> (forall e o, In e M -> In o out -> ehi e <= elo o) ->
    exists z' M' out', puts_back out z z' /\ ZWF z' /\ z_inner z' = A ++ M' ++ B /\ flatten M' = flatten M ++ out' /\
      Forall2 same_entry out out' /\ z_len z' = (z_len z + length out)%nat.
  Proof.
    induction out as [|[k v] out IH]; intros z A M B a b Wf El HA HM DM HB So Ho HMo.
    - exists z, M, []. rewrite app_nil_r. cbn. rewrite PeanoNat.Nat.add_0_r. repeat split; try apply Wf; auto.
    - apply ZS_cons in So. destruct So as (Vk & So & Hk). inversion Ho as [|? ? [H1 H2] Ho']; subst. unfold okv, elo, ehi in Vk, H1, H2. cbn in Vk, H1, H2.
      destruct (put_one z k v A M B a b Wf El HA) as (M1 & k' & E & EM & K1 & K2 & D1 & F1); try assumption.
      { apply Forall_forall. intros e He. rewrite Forall_forall in HM. specialize (HM e He). specialize (HMo e (k, v) He (or_introl eq_refl)). unfold elo in HMo. cbn in HMo. fold (lo k) in HMo. auto. }
      assert (W1 : ZWF (mkZosdit (z_len z + 1) (A ++ M1 ++ B))).
      { pose proof (zstep_ZWF z (ZInsertStrictBack k v) Wf) as X. cbn [zstep] in X. rewrite E in X. exact X. }
      destruct (IH _ A M1 B a b W1) as (z' & M' & out' & P & W' & E' & EM' & F & N); try assumption.
      + reflexivity.
      + eapply Forall_impl; [|exact F1]. cbn. intros e He. lia.
      + intros e o He Hi. rewrite Forall_forall in F1, Hk. specialize (F1 e He). specialize (Hk o Hi). unfold ehi in Hk at 1. cbn in Hk. lia.
      + exists z', M', ((k', v) :: out'). split; [exists (mkZosdit (z_len z + 1) (A ++ M1 ++ B)); split; [exact E|exact P]|]. split; [exact W'|]. split; [exact E'|].
        split; [rewrite EM', EM, <- app_assoc; reflexivity|]. split; [|rewrite N; cbn; lia].
        constructor; [|exact F]. split; [|reflexivity]. intros x. rewrite !covers_rk. cbn [fst]. rewrite K1, K2. reflexivity.
  Qed.

  Section Cut.
    Context {Q : Type} {IQ : InclusiveInterval I Q}.
    Implicit Types q : Q.

    Lemma yields_ends q (e o : K * V) : yields q e o -> lo q <= hi q -> overlap (fst e) q -> okv e ->
      elo o = Z.max (elo e) (lo q) /\ ehi o = Z.min (ehi e) (hi q).
    Proof.
      intros [_ Y] Vq Ov Ve. pose proof Ov as (x & X1 & X2). assert (X3 : covers (fst o) x) by (apply Y; auto). apply overlap_rk in Ov.
      unfold okv, elo, ehi in *. apply covers_rk in X1, X2, X3.
      assert (Y' : forall p, lo (fst o) <= rk p <= hi (fst o) <-> (lo (fst e) <= rk p <= hi (fst e)) /\ (lo q <= rk p <= hi q)).
      { intros p. rewrite <- !covers_rk. apply Y. }
      pose proof (Y' (istart (fst o))). pose proof (Y' (iend (fst o))). pose proof (Y' (istart (fst e))). pose proof (Y' (iend (fst e))).
      pose proof (Y' (istart q)). pose proof (Y' (iend q)). clear Y Y'. unfold lo, hi in *. lia.
    Qed.
    Lemma sub_ZS (P : K * V -> Prop) l l' : sub P l l' -> ZS l -> ZS l'.
    Proof.
      induction 1 as [|x l l' Hx S IH|x l l' Hx S IH]; intros W; [exact W| |].
      - apply ZS_cons in W. destruct W as (Vx & W & Hl). apply ZS_cons. split; [exact Vx|]. split; [apply IH, W|].
        rewrite Forall_forall in *. intros e He. apply Hl. apply (sub_in _ _ _ S) in He. apply He.
      - apply ZS_cons in W. apply IH, W.
    Qed.
    Lemma out_ZS q (o out : list (K * V)) : lo q <= hi q -> ZS o -> Forall (fun e => overlap (fst e) q) o -> Forall2 (yields q) o out ->
      ZS out /\ Forall (fun x => lo q <= elo x /\ ehi x <= hi q) out.
    Proof.
      intros Vq W Ov F. revert W Ov. induction F as [|e x o out Y F IH]; intros W Ov; [split; [apply ZS_nil|constructor]|].
      apply ZS_cons in W. destruct W as (Ve & W & Hl). inversion Ov as [|? ? Oe Ov']; subst. destruct (IH W Ov') as [S1 S2].
      destruct (yields_ends q e x Y Vq Oe Ve) as [E1 E2]. apply overlap_rk in Oe. unfold okv in Ve. fold (elo e) (ehi e) in Oe.
      assert (X : lo q <= elo x /\ elo x <= ehi x /\ ehi x <= hi q) by lia.
      split; [|constructor; [lia|exact S2]]. apply ZS_cons. split; [unfold okv; lia|]. split; [exact S1|].
      apply Forall_forall. intros y Hy. clear IH S1.
      assert (Z : exists e', In e' o /\ yields q e' y).
      { clear - F Hy. induction F as [|a b o out Y F IH]; [destruct Hy|]. destruct Hy as [<-|Hy]; [exists a; split; [left; reflexivity|exact Y]|].
        destruct (IH Hy) as (e' & H1 & H2). exists e'. split; [right; exact H1|exact H2]. }
      destruct Z as (e' & He' & Y'). rewrite Forall_forall in Hl, Ov'. specialize (Hl e' He'). specialize (Ov' e' He').
      pose proof (ZS_okv _ _ W He') as Ve'. destruct (yields_ends q e' y Y' Vq Ov' Ve') as [E3 E4]. apply overlap_rk in Ov'. unfold okv, elo, ehi in *. lia.
    Qed.

    (** The map after [cut]: what is before [q] and what is after it. *)
    Lemma cut_sides q z : ZWF z -> valid q -> exists z1 out, zosdit_cut q z = (z1, Val out) /\ ZWF z1 /\
      ZS out /\ Forall (fun x => lo q <= elo x /\ ehi x <= hi q) out /\
      (cuttable z q -> exists A B, z_inner z1 = A ++ B /\ Forall (fun e => ehi e < lo q) A /\ Forall (fun e => hi q < elo e) B) /\
      (~ cuttable z q -> z1 = z /\ out = []).
    Proof.
      intros Wf Vq. destruct (cuttable_dec z q) as [C|C].
      - destruct (cut_done z q Wf Vq C) as (z1 & out & E & W1 & (o & So & Fo) & _ & Hn & _). exists z1, out. split; [exact E|]. split; [exact W1|].
        apply valid_rk in Vq. destruct (out_ZS q o out Vq) as [S1 S2]; [eapply sub_ZS; [exact So|apply iter_ZS, Wf]| |exact Fo|].
        { apply Forall_forall. intros e He. apply (sub_in _ _ _ So) in He. apply He. }
        split; [exact S1|]. split; [exact S2|]. split; [|contradiction]. intros _.
        destruct W1 as (W1 & Ok1 & _). destruct (zsplit3 (z_inner z1) (lo q) (hi q) W1 Vq) as (A & M & B & El & HA & HM & HB).
        assert (M = []) as ->.
        { destruct M as [|[k vs] M]; [reflexivity|exfalso]. destruct (flatten_key (z_inner z1) k vs Ok1) as (v & Hv); [rewrite El; apply in_or_app; right; left; reflexivity|].
          rewrite Forall_forall in Hn. inversion HM as [|? ? Hk _]; subst. apply (Hn (k, v) Hv). exact Hk. }
        exists A, B. split; [exact El|]. split; [exact HA|exact HB].
      - exists z, []. split; [apply cut_not_done; assumption|]. split; [exact Wf|]. split; [apply ZS_nil|]. split; [constructor|]. split; [contradiction|auto].
    Qed.

    Lemma put_back_cut q z : ZWF z -> valid q -> exists z1 out z2 (A B out' : list (K * V)), zosdit_cut q z = (z1, Val out) /\
      puts_back out z1 z2 /\ ZWF z2 /\ zosdit_len z2 = (zosdit_len z1 + length out)%nat /\
      zosdit_iter z1 = A ++ B /\ zosdit_iter z2 = A ++ out' ++ B /\ Forall2 same_entry out out' /\
      Forall (fun e => lo q <= elo e /\ ehi e <= hi q) out' /\
      (cuttable z q -> Forall (fun e => ehi e < lo q) A /\ Forall (fun e => hi q < elo e) B) /\
      (~ cuttable z q -> z1 = z /\ out = []).
    Proof.
      intros Wf Vq. destruct (cut_sides q z Wf Vq) as (z1 & out & E & W1 & So & Ho & HC & HN). destruct (cuttable_dec z q) as [C|C].
      - destruct (HC C) as (A & B & El & HA & HB). destruct (put_all out z1 A [] B (lo q) (hi q) W1 El HA) as (z2 & M & out' & P & W2 & E2 & EM & F & N); try assumption.
        { constructor. } { constructor. } { intros e o []. }
        cbn [flatten app] in EM. change (flatten M = out') in EM.
        exists z1, out, z2, (flatten A), (flatten B), out'. split; [exact E|]. split; [exact P|]. split; [exact W2|]. split; [exact N|].
        unfold zosdit_iter. rewrite El, E2, !flatten_app, EM. split; [reflexivity|]. split; [reflexivity|]. split; [exact F|]. split.
        + clear - F Ho So PL. revert Ho So. induction F as [|x y out out' S F IH]; intros Ho So; constructor.
          * inversion Ho as [|? ? Hx _]; subst. destruct S as [S _]. apply ZS_cons in So. destruct So as (Vx & _). unfold okv, elo, ehi in *. assert (Vy : lo (fst y) <= hi (fst y)).
            { assert (X : covers (fst y) (istart (fst x))) by (apply S, covers_rk; unfold lo, hi in *; lia). apply covers_rk in X. lia. }
            apply same_points_rk in S; [lia|assumption|assumption].
          * inversion Ho; subst. apply ZS_cons in So. apply IH; [assumption|apply So].
        + split; [intros _; split|contradiction]; [apply (Forall_flatten (fun _ h => h < lo q)), HA|apply (Forall_flatten (fun a _ => hi q < a)), HB].
      - destruct (HN C) as [-> ->]. exists z, [], z, (zosdit_iter z), [], []. split; [exact E|]. split; [reflexivity|]. split; [exact Wf|]. split; [cbn; lia|].
        rewrite !app_nil_r. cbn [app]. do 4 (split; [reflexivity || constructor|]). split; [contradiction|auto].
    Qed.

    Lemma alike_vals (out out' : list (K * V)) p : Forall2 same_entry out out' -> vals out' p = vals out p.
    Proof.
      induction 1 as [|x y out out' [S1 S2] F IH]; [reflexivity|]. unfold vals in *. cbn [filter].
      replace (contains_point (fst y) p) with (contains_point (fst x) p); [|apply eq_true_iff_eq; rewrite !contains_point_true; apply S1].
      destruct (contains_point (fst x) p); cbn [map]; congruence.
    Qed.
    Lemma back_vals q z z1 z2 (A B out out' : list (K * V)) p : ZWF z -> valid q -> zosdit_cut q z = (z1, Val out) ->
      zosdit_iter z1 = A ++ B -> zosdit_iter z2 = A ++ out' ++ B -> Forall2 same_entry out out' ->
      vals (zosdit_iter z2) p = vals (zosdit_iter z) p.
    Proof.
      intros Wf Vq E E1 E2 F. destruct (zcut_conserves z q Wf Vq) as (z1' & out0 & E' & X). rewrite E in E'. injection E' as <- <-.
      destruct (X p) as (-> & X1 & X2). rewrite E1, E2, !vals_app in *. rewrite (alike_vals _ _ p F).
      destruct (contains_point q p) eqn:Eq.
      - apply contains_point_true in Eq. destruct (X1 Eq) as [->|X3]; [reflexivity|]. apply app_eq_nil in X3. destruct X3 as [-> ->]. reflexivity.
      - rewrite X2; [reflexivity|]. rewrite <- contains_point_true, Eq. discriminate.
    Qed.

    Lemma puts_back_fun (l : list (K * V)) : forall z z1 z2, puts_back l z z1 -> puts_back l z z2 -> z1 = z2.
    Proof.
      induction l as [|e l IH]; intros z z1 z2; [cbn; congruence|]. intros (a & E1 & P1) (b & E2 & P2). rewrite E1 in E2. injection E2 as <-. apply (IH a); assumption.
    Qed.

    (** Whether anything is stored before [q], before and after. *)
    Lemma vals_covered (l : list (K * V)) p : vals l p <> [] <-> exists e, In e l /\ covers (fst e) p.
    Proof.
      unfold vals. induction l as [|x l IH]; cbn [filter]; [split; [intros X; destruct (X eq_refl)|intros (e & [] & _)]|].
      destruct (contains_point (fst x) p) eqn:E.
      - apply contains_point_true in E. split; [intros _; exists x; split; [left; reflexivity|exact E]|discriminate].
      - rewrite IH. split; intros (e & He & Ce); [exists e; split; [right; exact He|exact Ce]|].
        destruct He as [<-|He]; [apply contains_point_true in Ce; congruence|exists e; auto].
    Qed.
    Lemma same_vals_covered (l l' : list (K * V)) p : vals l p = vals l' p -> (exists e, In e l /\ covers (fst e) p) -> exists e, In e l' /\ covers (fst e) p.
    Proof. rewrite <- !vals_covered. intros ->. auto. Qed.

    Lemma second_cut q z z1 out z2 : ZWF z -> valid q -> zosdit_cut q z = (z1, Val out) -> puts_back out z1 z2 ->
      ((exists e x, In e (zosdit_iter z) /\ covers (fst e) x /\ forall y, covers q y -> plt x y) -> zosdit_cut q z2 = (z2, Val [])) /\
      (~ (exists e x, In e (zosdit_iter z) /\ covers (fst e) x /\ forall y, covers q y -> plt x y) ->
        exists z3 out3, zosdit_cut q z2 = (z3, Val out3) /\ Forall2 same_entry out out3 /\ zosdit_iter z3 = zosdit_iter z1).
    Proof.
      intros Wf Vq E P. pose proof Vq as Lq. apply valid_rk in Lq.
      destruct (put_back_cut q z Wf Vq) as (z1' & out0 & z2' & A & B & out' & E' & P' & W2 & _ & E1 & E2 & F & Fo & HC & HN).
      rewrite E in E'. injection E' as <- <-. pose proof (puts_back_fun _ _ _ _ P P') as <-.
      split.
      - intros (e & x & He & Hx & Bx). destruct (cuttable_dec z q) as [C|C].
        2:{ destruct (HN C) as [-> ->]. cbn in P. subst z2. exact E. }
        destruct (HC C) as [HA HB]. apply cut_not_done; [exact W2|exact Vq|].
        destruct (same_vals_covered (zosdit_iter z) (zosdit_iter z2) x) as (e2 & He2 & Hx2);
          [symmetry; eapply back_vals; eassumption|exists e; auto|].
        assert (Lx : rk x < lo q) by (apply plt_rk, Bx, covers_rk; unfold lo, hi in *; lia).
        rewrite Forall_forall in HA, HB, Fo. unfold cuttable. change (flatten (z_inner z2)) with (zosdit_iter z2). rewrite E2.
        rewrite E2 in He2. intros [(e3 & He3 & L3)|X].
        + apply in_app_or in He3. destruct He3 as [He3|He3]; [specialize (HA e3 He3); lia|]. apply in_app_or in He3.
          destruct He3 as [He3|He3]; [specialize (Fo e3 He3)|specialize (HB e3 He3)]; lia.
        + pose proof (X e2 He2) as L2. apply covers_rk in Hx2. fold (elo e2) (ehi e2) in Hx2.
          apply in_app_or in He2. destruct He2 as [He2|He2]; [specialize (HA e2 He2); lia|]. apply in_app_or in He2.
          destruct He2 as [He2|He2]; [specialize (Fo e2 He2)|specialize (HB e2 He2)]; lia.
      - intros N.
        assert (N' : forall e, In e (zosdit_iter z) -> lo q <= elo e).
        { intros e He. destruct (Z_lt_le_dec (elo e) (lo q)) as [L|L]; [|exact L]. exfalso. apply N. exists e, (istart (fst e)). split; [exact He|].
          pose proof (iter_okv z e Wf He) as Ve. unfold okv, elo, ehi in *. split; [apply covers_rk; unfold lo, hi in *; lia|].
          intros y Hy. apply covers_rk in Hy. apply plt_rk. unfold lo, hi in *. lia. }
        assert (C : cuttable z q).
        { right. intros e He. pose proof (N' e He). pose proof (iter_okv z e Wf He) as Ve. unfold okv in Ve. lia. }
        destruct (HC C) as [HA HB].
        assert (A = []) as ->.
        { destruct A as [|a A]; [reflexivity|exfalso]. inversion HA as [|? ? La _]; subst.
          assert (Ha2 : In a (zosdit_iter z2)) by (rewrite E2; left; reflexivity). pose proof (iter_okv z2 a W2 Ha2) as Va. unfold okv, elo, ehi in *.
          destruct (same_vals_covered (zosdit_iter z2) (zosdit_iter z) (istart (fst a))) as (e & He & Hx);
            [eapply back_vals; eassumption|exists a; split; [exact Ha2|apply covers_rk; unfold lo, hi in *; lia]|].
          specialize (N' e He). apply covers_rk in Hx. unfold lo, hi in *. lia. }
        cbn [app] in *.
        assert (C2 : cuttable z2 q).
        { right. change (flatten (z_inner z2)) with (zosdit_iter z2). intros e He. pose proof (iter_okv z2 e W2 He) as Ve. unfold okv in Ve.
          rewrite E2 in He. rewrite Forall_forall in Fo, HB. apply in_app_or in He. destruct He as [He|He]; [specialize (Fo e He)|specialize (HB e He)]; lia. }
        destruct (cut_done z2 q W2 Vq C2) as (z3 & out3 & E3 & _ & (o & So & Fy) & (ls & Fl & El) & _). exists z3, out3. split; [exact E3|].
        assert (Vo : Forall okv (out' ++ B)) by (rewrite <- E2; apply Forall_forall; intros e; apply iter_okv, W2). apply Forall_app in Vo. destruct Vo as [Vo VB].
        rewrite E2 in So, Fl. rewrite El, E1. clear - PL F Fo HB So Fy Fl Vo VB Lq.
        assert (o = out') as ->.
        { apply (sub_unique _ _ _ _ So). rewrite <- (app_nil_r out') at 2. apply sub_app; [apply sub_all|apply sub_none].
          - rewrite Forall_forall in *. intros e He. apply overlap_rk. specialize (Fo e He). specialize (Vo e He). unfold okv, elo, ehi in *. lia.
          - rewrite Forall_forall in *. intros e He X. apply overlap_rk in X. specialize (HB e He). unfold elo, ehi in *. lia. }
        split.
        + clear So Fl. revert out3 Fo Vo Fy. induction F as [|x y out out' [S1 S2] F IH]; intros out3 Fo Vo Fy; inversion Fy as [|? y3 ? out3' [Y1 Y2] Fy']; subst; constructor.
          * split; [|congruence]. intros p. rewrite Y2, (S1 p). inversion Fo as [|? ? Ly _]; subst. rewrite !covers_rk. unfold elo, ehi in Ly. lia.
          * inversion Fo; inversion Vo; subst. apply IH; assumption.
        + clear So Fy F. revert ls Fl. induction out' as [|x out' IH]; intros ls Fl; cbn [app] in Fl.
          * revert ls Fl. induction B as [|x B IHB]; intros ls Fl; inversion Fl as [|? l ? ls' Hl Fl']; subst; [reflexivity|]. cbn [concat].
            inversion HB as [|? ? Lx HB']; subst. inversion VB; subst. rewrite IHB by assumption.
            destruct Hl as (_ & _ & ->); [reflexivity|]. intros X. apply overlap_rk in X. unfold elo, ehi in *. lia.
          * inversion Fl as [|? l ? ls' Hl Fl']; subst. cbn [concat]. inversion Fo as [|? ? Lx Fo']; subst. inversion Vo as [|? ? Vx Vo']; subst. rewrite (IH Fo' Vo' _ Fl').
            destruct Hl as ((_ & R & _) & _). destruct l as [|g l]; [reflexivity|exfalso].
            destruct (R (fst g) (or_introl eq_refl)) as [(Vg & Cg & _) _]. apply valid_rk in Vg.
            destruct (Cg (istart (fst g))) as [G1 G2]; [apply covers_rk; unfold lo, hi in *; lia|]. apply G2. apply covers_rk in G1. apply covers_rk. unfold elo, ehi in *. lia.
    Qed.

    (** ** The values at a point, when there was no pause *)
    Lemma vals_last (l : list (K * V)) p : (forall v, last_value l p v <-> exists vs, vals l p = vs ++ [v]).
    Proof.
      intros v. split.
      - intros (l1 & k & l2 & -> & C & N). exists (vals l1 p). rewrite vals_app. f_equal. change ((k, v) :: l2) with ([(k, v)] ++ l2).
        rewrite vals_app, (vals_none l2 p N), app_nil_r. unfold vals. cbn [filter fst]. replace (contains_point k p) with true; [reflexivity|].
        symmetry. apply contains_point_true, C.
      - induction l as [|x l IH] using rev_ind; intros (vs & E); [destruct vs; discriminate|]. rewrite vals_app in E.
        unfold vals in E at 2. cbn [filter] in E. destruct (contains_point (fst x) p) eqn:Ex.
        + cbn in E. apply app_inj_tail in E. destruct E as [_ <-]. apply contains_point_true in Ex. exists l, (fst x), []. split; [destruct x; reflexivity|]. split; [exact Ex|intros e []].
        + cbn in E. rewrite app_nil_r in E. destruct IH as (l1 & k & l2 & -> & C & N); [exists vs; exact E|].
          exists l1, k, (l2 ++ [x]). split; [rewrite <- app_assoc; reflexivity|]. split; [exact C|]. intros e He. apply in_app_or in He.
          destruct He as [He|[<-|[]]]; [apply N, He|]. rewrite <- contains_point_true, Ex. discriminate.
    Qed.
    Lemma same_vals_found z z' p : ZWF z -> ZWF z' -> vals (zosdit_iter z) p = vals (zosdit_iter z') p -> findable z p -> findable z' p ->
      get_last_value_at_point z p = get_last_value_at_point z' p.
    Proof.
      intros W W' E F F'. destruct (get_last_char z p W F) as [G _]. destruct (get_last_char z' p W' F') as [G' N'].
      destruct (get_last_value_at_point z p) as [v|] eqn:Ez.
      - symmetry. apply G'. apply vals_last. rewrite <- E. apply vals_last, G. reflexivity.
      - destruct (get_last_value_at_point z' p) as [v|] eqn:Ez'; [|reflexivity]. exfalso.
        assert (X : None = Some v); [|discriminate X]. apply G, vals_last. rewrite E. apply vals_last, G'. reflexivity.
    Qed.

    Lemma border_rk q p : lo q <= hi q -> (border q p <-> rk p = hi q \/ rk p = lo q - 1).
    Proof.
      intros Vq. split.
      - intros [[C X]|[X (y & Cy & Y)]].
        + left. apply covers_rk in C. specialize (X (iend q)). rewrite covers_rk, ple_rk in X. unfold lo, hi in *. lia.
        + right. specialize (X (istart q)). rewrite covers_rk, plt_rk in X. assert (L : rk p < lo q) by (unfold lo, hi in *; lia).
          destruct (up_exists p (istart q)) as (u & _ & Hu); [unfold lo in L; lia|]. specialize (Y u). rewrite plt_rk, ple_rk in Y. apply covers_rk in Cy. lia.
      - intros [E|E]; [left|right].
        + split; [apply covers_rk; lia|]. intros y Hy. apply covers_rk in Hy. apply ple_rk. lia.
        + split; [intros y Hy; apply covers_rk in Hy; apply plt_rk; lia|]. exists (istart q). split; [apply covers_rk; unfold lo, hi in *; lia|].
          intros x Hx. apply plt_rk in Hx. apply ple_rk. fold (lo q). unfold lo in *. lia.
    Qed.

    Lemma none_there z p : ZWF z -> vals (zosdit_iter z) p = [] -> get_last_value_at_point z p = None.
    Proof.
      intros W E. destruct (get_last_value_at_point z p) as [v|] eqn:X; [exfalso|reflexivity]. apply (get_last_sound z p v W), vals_last in X.
      destruct X as (vs & X). rewrite E in X. destruct vs; discriminate.
    Qed.
    Lemma gapless_uncuttable q z : ZWF z -> gapless (zosdit_iter z) -> ~ cuttable z q -> forall e, In e (zosdit_iter z) -> ehi e < lo q.
    Proof.
      intros Wf G C e He. destruct (Z_lt_le_dec (ehi e) (lo q)) as [L|L]; [exact L|exfalso]. apply C.
      destruct (some_or_none (fun e => ehi e <? lo q) (zosdit_iter z)) as [(a & Ha & La)|N]; [|right; intros x Hx; specialize (N x Hx); cbn in N; lia].
      pose proof (iter_okv z a Wf Ha) as Va. unfold okv in Va. left. destruct (gapless_reach _ (lo q - 1) (iter_ZS z Wf) G) as (x & Hx & Lx); [exists a; split; [exact Ha|lia]|exists e; split; [exact He|lia]|].
      exists x. split; [exact Hx|lia].
    Qed.
    (** Two neighbouring points that were in one entry still are, unless [q] begins or ends
        between them. *)
    Lemma still_together q z z1 z2 (A B out out' : list (K * V)) e p u : ZWF z -> valid q -> cuttable z q -> zosdit_cut q z = (z1, Val out) ->
      zosdit_iter z1 = A ++ B -> zosdit_iter z2 = A ++ out' ++ B -> Forall2 same_entry out out' ->
      In e (zosdit_iter z) -> covers (fst e) p -> covers (fst e) u -> rk u = rk p + 1 -> ~ (rk p = hi q \/ rk p = lo q - 1) ->
      exists e', In e' (zosdit_iter z2) /\ covers (fst e') p /\ covers (fst e') u.
    Proof.
      intros Wf Vq C E E1 E2 F He Cp Cu Eu Nb. destruct (cut_done z q Wf Vq C) as (z1' & out0 & E' & _ & (o & So & Fy) & (ls & Fl & El) & _).
      rewrite E in E'. injection E' as <- <-. destruct (contains_point q p) eqn:Eq.
      - apply contains_point_true in Eq. pose proof Eq as Qp. apply covers_rk in Eq. assert (Qu : covers q u) by (apply covers_rk; lia).
        assert (Ho : In e o) by (apply (sub_in _ _ _ So); split; [exact He|exists p; auto]).
        assert (X : exists y, In y out' /\ covers (fst y) p /\ covers (fst y) u).
        { clear - Fy F Ho Cp Cu Qp Qu. revert out' F. induction Fy as [|a b o out [_ Y] Fy IH]; intros out' F; [destruct Ho|].
          inversion F as [|? y ? out1 [S _] F']; subst. destruct Ho as [->|Ho].
          - exists y. split; [left; reflexivity|]. split; apply S, Y; auto.
          - destruct (IH Ho _ F') as (y' & H1 & H2). exists y'. split; [right; exact H1|exact H2]. }
        destruct X as (y & Hy & X). exists y. split; [rewrite E2; apply in_or_app; right; apply in_or_app; left; exact Hy|exact X].
      - assert (Qp : ~ covers q p) by (rewrite <- contains_point_true, Eq; discriminate).
        assert (X : exists y, In y (concat ls) /\ covers (fst y) p /\ covers (fst y) u).
        { clear - Fl He Cp Cu Eu Nb Qp Vq PL. induction Fl as [|a l L ls Ha Fl IH]; [destruct He|]. destruct He as [->|He].
          - assert (Y : exists y, In y l /\ covers (fst y) p).
            { apply vals_covered. rewrite (leaves_vals q e l p Vq Ha Qp). apply vals_covered. exists e. split; [left; reflexivity|exact Cp]. }
            destruct Y as (y & Hy & Yp). exists y. split; [cbn [concat]; apply in_or_app; left; exact Hy|]. split; [exact Yp|].
            destruct Ha as ((_ & R & _) & _). destruct (R (fst y) (in_map fst _ _ Hy)) as [(_ & _ & M) _].
            apply (M (mkInterval p u)).
            + intros x Hx. rewrite !covers_rk in *. unfold lo, hi in *. cbn in Hx. lia.
            + exists p. split; [exact Yp|]. apply covers_rk. unfold lo, hi. cbn. lia.
            + apply covers_rk. unfold lo, hi. cbn. lia.
          - destruct (IH He) as (y & H1 & H2). exists y. split; [cbn [concat]; apply in_or_app; right; exact H1|exact H2]. }
        destruct X as (y & Hy & X). exists y. split; [|exact X]. rewrite <- El, E1 in Hy. rewrite E2. apply in_app_or in Hy.
        destruct Hy as [Hy|Hy]; [apply in_or_app; left; exact Hy|apply in_or_app; right; apply in_or_app; right; exact Hy].
    Qed.

    Lemma position_back q z z1 out z2 p : ZWF z -> valid q -> gapless (zosdit_iter z) -> zosdit_cut q z = (z1, Val out) -> puts_back out z1 z2 ->
      (border q p /\ (exists e x, In e (zosdit_iter z) /\ covers (fst e) x /\ plt p x) -> get_last_value_at_point z2 p = None) /\
      (~ (border q p /\ (exists e x, In e (zosdit_iter z) /\ covers (fst e) x /\ plt p x)) ->
         get_last_value_at_point z2 p = get_last_value_at_point z p).
    Proof.
      intros Wf Vq G E P. pose proof Vq as Lq. apply valid_rk in Lq. rewrite (border_rk q p Lq).
      destruct (put_back_cut q z Wf Vq) as (z1' & out0 & z2' & A & B & out' & E' & P' & W2 & _ & E1 & E2 & F & Fo & HC & HN).
      rewrite E in E'. injection E' as <- <-. pose proof (puts_back_fun _ _ _ _ P P') as <-.
      assert (SV : forall x, vals (zosdit_iter z2) x = vals (zosdit_iter z) x) by (intros x; eapply back_vals; eassumption).
      assert (Later : (exists e x, In e (zosdit_iter z) /\ covers (fst e) x /\ plt p x) \/ (forall e x, In e (zosdit_iter z) -> covers (fst e) x -> rk x <= rk p)).
      { destruct (some_or_none (fun e => rk p <? ehi e) (zosdit_iter z)) as [(b & Hb & Lb)|N]; [left|right].
        - exists b, (iend (fst b)). pose proof (iter_okv z b Wf Hb) as Vb. unfold okv, elo, ehi in *. split; [exact Hb|]. split; [apply covers_rk; unfold lo, hi in *; lia|apply plt_rk; unfold hi in *; lia].
        - intros e x He Hx. specialize (N e He). apply covers_rk in Hx. unfold ehi in N. cbn in N. lia. }
      split.
      - intros (Hb & e & x & He & Hx & Lx). apply plt_rk in Lx. destruct (cuttable_dec z q) as [C|C].
        + destruct (HC C) as [HA HB]. apply get_last_not_found; [exact W2|]. intros [(e2 & He2 & L2)|X].
          * change (In e2 (zosdit_iter z2)) in He2. rewrite E2 in He2. rewrite Forall_forall in HA, HB, Fo.
            apply in_app_or in He2. destruct He2 as [He2|He2]; [specialize (HA e2 He2); lia|]. apply in_app_or in He2.
            destruct He2 as [He2|He2]; [specialize (Fo e2 He2)|specialize (HB e2 He2)]; lia.
          * destruct (same_vals_covered (zosdit_iter z) (zosdit_iter z2) x) as (e2 & He2 & Hx2); [symmetry; apply SV|exists e; auto|].
            specialize (X e2 He2). apply covers_rk in Hx2. unfold ehi in X. lia.
        + exfalso. pose proof (gapless_uncuttable q z Wf G C e He) as L. apply covers_rk in Hx. unfold ehi in L. lia.
      - intros N. destruct (cuttable_dec z q) as [C|C]; [|destruct (HN C) as [-> ->]; cbn in P; subst; reflexivity].
        destruct Later as [Lt|No].
        + assert (Nb : ~ (rk p = hi q \/ rk p = lo q - 1)) by (intros X; apply N; auto).
          destruct Lt as (b & x & Hb & Hx & Lx). apply plt_rk in Lx. apply covers_rk in Hx. fold (elo b) (ehi b) in Hx.
          destruct (some_or_none (fun e => elo e <=? rk p) (zosdit_iter z)) as [(a & Ha & La)|Na].
          * destruct (gapless_reach _ (rk p) (iter_ZS z Wf) G) as (e & He & Le); [exists a; split; [exact Ha|lia]|exists b; split; [exact Hb|lia]|].
            destruct (up_exists p x) as (u & _ & Hu); [lia|].
            destruct (still_together q z z1 z2 A B out out' e p u) as (e2 & He2 & C1 & C2); try assumption; try (apply covers_rk; unfold elo, ehi in *; lia); try lia.
            apply same_vals_found; [exact W2|exact Wf|apply SV| |left; exists e; auto].
            left. exists e2. split; [exact He2|]. apply covers_rk in C1, C2. unfold elo, ehi. lia.
          * assert (Z : vals (zosdit_iter z) p = []).
            { apply vals_none. intros e He Ce. specialize (Na e He). apply covers_rk in Ce. unfold elo in Na. cbn in Na. lia. }
            rewrite (none_there z p Wf Z). apply none_there; [exact W2|]. rewrite SV. exact Z.
        + apply same_vals_found; [exact W2|exact Wf|apply SV| |].
          * right. intros e He. destruct (same_vals_covered (zosdit_iter z2) (zosdit_iter z) (iend (fst e))) as (e0 & He0 & C0); [apply SV|exists e; split; [exact He|]|].
            { pose proof (iter_okv z2 e W2 He) as Ve. unfold okv, elo, ehi in Ve. apply covers_rk. unfold lo, hi in *. lia. }
            exact (No e0 _ He0 C0).
          * right. intros e He. apply (No e (iend (fst e)) He). pose proof (iter_okv z e Wf He) as Ve. unfold okv, elo, ehi in Ve. apply covers_rk. unfold lo, hi in *. lia.
    Qed.
  End Cut.
End Facts.
