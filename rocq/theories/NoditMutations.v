(** * NoditMutations: the mutating NoditMap methods against the specification. *)
From Coq Require Import List ZArith Bool Lia ZifyBool Sorting.Sorted.
From Verif Require Import Base BTree UtilsModel IntervalModel NoditModel Spec PointFacts IntervalFacts ListFacts NoditFacts NoditQueries NoditGaps.
Import ListNotations.
Open Scope Z_scope.

Section Runs.
  Context {I : Type} `{PL : PointLaws I}.
  Context {K : Type} {IK : InclusiveInterval I K}.
  Lemma max_run_intro' (P : I -> Prop) (g : K) :
    lo g <= hi g -> (forall p, covers g p -> P p) ->
    (forall p, rk p = lo g - 1 \/ rk p = hi g + 1 -> ~ P p) ->
    max_run P g.
  Proof.
    intros Vg HP HN. apply max_run_intro; try assumption.
    - destruct (down (istart g)) as [x|] eqn:E.
      + right. apply down_rk in E. exists x. split; [unfold lo; lia|]. apply HN. left. unfold lo. lia.
      + left. apply down_none_rk in E. exact E.
    - destruct (up (iend g)) as [x|] eqn:E.
      + right. apply up_rk in E. exists x. split; [unfold hi; lia|]. apply HN. right. unfold hi. lia.
      + left. apply up_none_rk in E. exact E.
  Qed.
End Runs.

Section Mutations.
  Context {I : Type} `{PL : PointLaws I}.
  Context {K : Type} {IK : InclusiveInterval I K} {IL : IntervalLaws I K}.
  Context {V : Type}.
  Notation entry := (K * V)%type.
  Implicit Types (m A B M : NoditMap K V).

  (** ** insert_strict *)
  Lemma insert_strict_refused m k v : WF m -> valid k ->
    (exists k' v', In (k', v') m /\ overlap k' k) -> insert_strict k v m = (m, Val (Err v)).
  Proof.
    intros W Vk (k' & v' & Hin & Ho).
    destruct (split_overlap m k W Vk) as (A & M & B & -> & HA & HM & HB & HS & _).
    rewrite insert_strict_split; try assumption. destruct M as [|x M]; [|reflexivity].
    destruct (proj2 (sub_in _ _ _ HS (k', v'))). auto.
  Qed.

  Lemma insert_strict_done m k v : WF m -> valid k ->
    (forall k' v', In (k', v') m -> ~ overlap k' k) ->
    exists l1 l2, m = l1 ++ l2 /\ insert_strict k v m = (l1 ++ (k, v) :: l2, Val (Ok tt)) /\
      WF (l1 ++ (k, v) :: l2).
  Proof.
    intros W Vk Hn. destruct (split_overlap m k W Vk) as (A & M & B & -> & HA & HM & HB & HS & _).
    rewrite insert_strict_split; try assumption. destruct M as [|[x y] M].
    - exists A, B. split; [reflexivity|]. split; [reflexivity|]. apply valid_rk in Vk.
      apply WF_insert; assumption.
    - exfalso. destruct (proj1 (sub_in _ _ _ HS (x, y)) (or_introl eq_refl)) as [H1 H2].
      apply (Hn x y); assumption.
  Qed.

  Lemma overlap_dec m k : WF m -> valid k ->
    (exists k' v', In (k', v') m /\ overlap k' k) \/ (forall k' v', In (k', v') m -> ~ overlap k' k).
  Proof.
    intros W Vk. destruct (split_overlap m k W Vk) as (A & M & B & -> & HA & HM & HB & HS & _).
    destruct M as [|[x y] M].
    - right. intros k' v' Hin Ho. destruct (proj2 (sub_in _ _ _ HS (k', v'))). auto.
    - left. exists x, y. apply (sub_in _ _ _ HS (x, y)). left. reflexivity.
  Qed.

  Section Q.
    Context {Q : Type} {IQ : InclusiveInterval I Q}.
    Implicit Type q : Q.

    (** ** remove_overlapping *)
    Lemma remove_overlapping_spec m q : WF m -> valid q ->
      exists kept removed, remove_overlapping q m = (kept, Val removed) /\
        sub (fun e => overlap (fst e) q) m removed /\ sub (fun e => ~ overlap (fst e) q) m kept /\ WF kept.
    Proof.
      intros W Vq. destruct (split_overlap m q W Vq) as (A & M & B & -> & HA & HM & HB & HS & HK).
      exists (A ++ B), M. split; [apply remove_overlapping_split; assumption|].
      split; [exact HS|]. split; [exact HK|].
      apply WF_app in W. destruct W as (WA & W & WAM). apply WF_app in W. destruct W as (_ & WB & _).
      apply WF_app. split; [exact WA|]. split; [exact WB|]. intros x y Hx Hy. apply WAM; [exact Hx|].
      apply in_app_iff. right. exact Hy.
    Qed.

    (** ** cut *)
    (** [x] is a piece of [e] lying just outside [q]. *)
    Definition piece q (e x : entry) : Prop :=
      snd x = snd e /\
      ((elo e < lo q /\ elo x = elo e /\ ehi x = lo q - 1) \/
       (hi q < ehi e /\ elo x = hi q + 1 /\ ehi x = ehi e)).

    Lemma cut_entry_pieces q e ps i : lo q <= hi q -> meets (lo q) (hi q) e -> cut_entry q e ps i ->
      WF ps /\ (forall x, In x ps -> piece q e x) /\
      (elo e < lo q -> exists x, In x ps /\ snd x = snd e /\ elo x = elo e /\ ehi x = lo q - 1) /\
      (hi q < ehi e -> exists x, In x ps /\ snd x = snd e /\ elo x = hi q + 1 /\ ehi x = ehi e).
    Proof.
      intros Vq Hm [(b & a & -> & Hb & Ha) _ _ _ _]. unfold meets, piece in *.
      split; [|split; [|split]].
      - destruct b as [b|], a as [a|]; cbn [opt_list app].
        + apply WF_cons. split; [lia|]. split; [apply WF_one; lia|]. constructor; [lia|constructor].
        + apply WF_one. lia.
        + apply WF_one. lia.
        + apply WF_nil.
      - intros x Hx. apply in_app_iff in Hx. destruct Hx as [Hx|Hx].
        + destruct b as [b|]; [|destruct Hx]. destruct Hx as [<-|[]]. intuition.
        + destruct a as [a|]; [|destruct Hx]. destruct Hx as [<-|[]]. intuition.
      - intros L. destruct b as [b|]; [|lia]. exists b. rewrite in_app_iff. split; [left; left; reflexivity|intuition].
      - intros L. destruct a as [a|]; [|lia]. exists a. rewrite in_app_iff. split; [right; left; reflexivity|intuition].
    Qed.

    Lemma cut_list_facts q M out ins : lo q <= hi q -> cut_list q M out ins -> WF M ->
      Forall (meets (lo q) (hi q)) M ->
      WF out /\
      (forall x, In x out -> exists e, In e M /\ piece q e x) /\
      (forall e, In e M ->
        (elo e < lo q -> exists x, In x out /\ snd x = snd e /\ elo x = elo e /\ ehi x = lo q - 1) /\
        (hi q < ehi e -> exists x, In x out /\ snd x = snd e /\ elo x = hi q + 1 /\ ehi x = ehi e)) /\
      Forall2 (fun e i => snd i = snd e /\ elo i = Z.max (elo e) (lo q) /\ ehi i = Z.min (ehi e) (hi q)) M ins.
    Proof.
      intros Vq HC. induction HC as [|e ps i M out ins He HC IH]; intros W HM.
      - split; [apply WF_nil|]. split; [intros x []|]. split; [intros e []|constructor].
      - apply WF_cons in W. destruct W as (Ve & W & We). inversion HM as [|? ? Hme HM']; subst.
        destruct (IH W HM') as (IHw & IHi & IHc & IHf).
        destruct (cut_entry_pieces q e ps i Vq Hme He) as (Pw & Pi & Pl & Pr).
        split; [|split; [|split]].
        + apply WF_app. split; [exact Pw|]. split; [exact IHw|].
          intros x y Hx Hy. destruct (Pi x Hx) as (_ & Px). destruct (IHi y Hy) as (e' & He' & (_ & Py)).
          rewrite Forall_forall in We. specialize (We e' He').
          pose proof (WF_okv _ _ W He'). rewrite Forall_forall in HM'. specialize (HM' e' He').
          unfold meets in *. lia.
        + intros x Hx. apply in_app_iff in Hx. destruct Hx as [Hx|Hx].
          * exists e. split; [left; reflexivity|apply Pi, Hx].
          * destruct (IHi x Hx) as (e' & He' & Hp). exists e'. split; [right; exact He'|exact Hp].
        + intros e' [<-|He'].
          * split; [intros L; destruct (Pl L) as (x & Hx & Hp)|intros L; destruct (Pr L) as (x & Hx & Hp)];
              exists x; rewrite in_app_iff; auto.
          * destruct (IHc e' He') as [C1 C2].
            split; [intros L; destruct (C1 L) as (x & Hx & Hp)|intros L; destruct (C2 L) as (x & Hx & Hp)];
              exists x; rewrite in_app_iff; auto.
        + constructor; [|exact IHf]. destruct He as [_ E1 E2 E3 _]. auto.
    Qed.

    Lemma cut_facts m q : WF m -> valid q ->
      exists A M B out ins, m = A ++ M ++ B /\
        Forall (left_of (lo q)) A /\ Forall (meets (lo q) (hi q)) M /\ Forall (right_of (hi q)) B /\
        cut q m = (A ++ out ++ B, Val ins) /\ cut_list q M out ins /\
        sub (fun e => overlap (fst e) q) m M /\
        WF (A ++ out ++ B).
    Proof.
      intros W Vq. destruct (split_overlap m q W Vq) as (A & M & B & -> & HA & HM & HB & HS & HK).
      destruct (cut_split q A M B Vq W HA HM HB) as (out & ins & E & HC).
      exists A, M, B, out, ins. do 4 (split; [auto|]). split; [exact E|]. split; [exact HC|]. split; [exact HS|].
      apply valid_rk in Vq.
      apply WF_app in W. destruct W as (WA & W & WAM). apply WF_app in W. destruct W as (WM & WB & WMB).
      destruct (cut_list_facts q M out ins Vq HC WM HM) as (Wo & Io & _).
      apply WF_app. split; [exact WA|]. split.
      - apply WF_app. split; [exact Wo|]. split; [exact WB|]. intros x y Hx Hy.
        destruct (Io x Hx) as (e & He & (_ & P)). specialize (WMB e y He Hy).
        rewrite Forall_forall in HB. specialize (HB y Hy). unfold right_of in HB. lia.
      - intros x y Hx Hy. apply in_app_iff in Hy. destruct Hy as [Hy|Hy].
        + destruct (Io y Hy) as (e & He & (_ & P)). rewrite Forall_forall in HA. specialize (HA x Hx).
          assert (Ie : In e (M ++ B)) by (apply in_app_iff; auto). specialize (WAM x e Hx Ie).
          unfold left_of in HA. lia.
        + apply WAM; [exact Hx|]. apply in_app_iff. auto.
    Qed.

    (** Every entry left by [cut], from every old entry. *)
    Lemma cut_entries m q : WF m -> valid q ->
      exists m' out, cut q m = (m', Val out) /\ WF m' /\
        (exists o, sub (fun e => overlap (fst e) q) m o /\
           Forall2 (fun e i => snd i = snd e /\
                      forall p, covers (fst i) p <-> covers (fst e) p /\ covers q p) o out) /\
        (forall k' v, In (k', v) m' ->
           exists k, In (k, v) m /\ (~ overlap k q -> k' = k) /\
                     max_run (fun p => covers k p /\ ~ covers q p) k') /\
        (forall k v, In (k, v) m ->
           (~ overlap k q -> In (k, v) m') /\
           forall j : Interval I, max_run (fun p => covers k p /\ ~ covers q p) j ->
             exists k', In (k', v) m' /\ same_points k' j) /\
        (forall p v, maps_to m' p v <-> maps_to m p v /\ ~ covers q p).
    Proof.
      intros W Vq. destruct (cut_facts m q W Vq) as (A & M & B & out & ins & -> & HA & HM & HB & E & HC & HS & W').
      exists (A ++ out ++ B), ins. split; [exact E|]. split; [exact W'|].
      apply valid_rk in Vq.
      assert (WM : WF M).
      { apply WF_app in W. destruct W as (_ & W & _). apply WF_app in W. apply W. }
      destruct (cut_list_facts q M out ins Vq HC WM HM) as (Wo & Io & Co & Fo).
      rewrite Forall_forall in HA, HB, HM.
      assert (VA : forall e, In e A -> elo e <= ehi e).
      { intros e He. apply (WF_okv (A ++ M ++ B)); [exact W|]. apply in_app_iff. auto. }
      assert (VM : forall e, In e M -> elo e <= ehi e) by (intros e He; apply (WF_okv M); assumption).
      assert (VB : forall e, In e B -> elo e <= ehi e).
      { intros e He. apply (WF_okv (A ++ M ++ B)); [exact W|]. rewrite !in_app_iff. auto. }
      (* a kept entry *)
      assert (Keep : forall e, In e (A ++ B) -> elo e <= ehi e /\ (ehi e < lo q \/ hi q < elo e)).
      { intros e He. apply in_app_iff in He. destruct He as [He|He].
        - split; [apply VA, He|left; apply HA, He].
        - split; [apply VB, He|right; apply HB, He]. }
      assert (KeepRun : forall k v, In (k, v) (A ++ B) -> max_run (fun p => covers k p /\ ~ covers q p) k).
      { intros k v He. destruct (Keep _ He) as [Vk Hk]. unfold elo, ehi in *. cbn in Vk, Hk.
        apply max_run_intro'; [exact Vk| |].
        - intros p Hp. split; [exact Hp|]. apply covers_rk in Hp. rewrite covers_rk. lia.
        - intros p Hp [Hp' _]. apply covers_rk in Hp'. lia. }
      assert (PieceRun : forall k v k' v', In (k, v) M -> piece q (k, v) (k', v') ->
                max_run (fun p => covers k p /\ ~ covers q p) k').
      { intros k v k' v' He (_ & P). specialize (HM _ He). specialize (VM _ He).
        unfold meets, elo, ehi in *. cbn in *. apply max_run_intro'; [lia| |].
        - intros p Hp. apply covers_rk in Hp. rewrite !covers_rk. lia.
        - intros p Hp. rewrite !covers_rk. lia. }
      assert (InKM : forall e, In e (A ++ M ++ B) <-> In e (A ++ B) \/ In e M).
      { intros e. rewrite !in_app_iff. tauto. }
      assert (InKO : forall e, In e (A ++ out ++ B) <-> In e (A ++ B) \/ In e out).
      { intros e. rewrite !in_app_iff. tauto. }
      split; [|split; [|split]].
      - exists M. split; [exact HS|]. eapply Forall2_impl; [|exact Fo].
        intros e i (E1 & E2 & E3). split; [exact E1|]. intros p. unfold elo, ehi in *. rewrite !covers_rk. lia.
      - intros k' v Hin. apply InKO in Hin. destruct Hin as [Hin|Hin].
        + exists k'. rewrite InKM. split; [auto|]. split; [auto|]. apply (KeepRun k' v), Hin.
        + destruct (Io _ Hin) as ([k v0] & He & P). pose proof P as (Ev & _). cbn in Ev. subst v0.
          exists k. rewrite InKM. split; [auto|]. split; [|apply (PieceRun k v k' v); assumption].
          intros Hn. exfalso. apply Hn. apply overlap_rk. specialize (HM _ He). specialize (VM _ He).
          unfold meets, elo, ehi in *. cbn in *. lia.
      - intros k v Hin. apply InKM in Hin. destruct Hin as [Hin|Hin].
        + split; [rewrite InKO; auto|]. intros j Hj. exists k. rewrite InKO. split; [auto|].
          pose proof Hj as ((p & Hp) & Pj & _).
          apply (max_run_same _ k j p (KeepRun k v Hin) Hj); [apply Pj, Hp|exact Hp].
        + split.
          * intros Hn. exfalso. apply Hn. apply overlap_rk. specialize (HM _ Hin). specialize (VM _ Hin).
            unfold meets, elo, ehi in *. cbn in *. lia.
          * intros j Hj. pose proof Hj as ((p & Hp) & Pj & _). destruct (Pj p Hp) as [Hkp Hqp].
            destruct (Co _ Hin) as [C1 C2]. apply covers_rk in Hkp as Hkp'. rewrite covers_rk in Hqp.
            unfold elo, ehi in *. cbn in *.
            assert (Hx : exists k', In (k', v) out /\ piece q (k, v) (k', v) /\ covers k' p).
            { destruct (Z_lt_le_dec (rk p) (lo q)) as [L|L].
              - destruct C1 as ([k' v'] & Hx & E1 & E2 & E3); [lia|]. cbn in *. subst v'.
                exists k'. split; [exact Hx|]. split; [split; [reflexivity|left; unfold elo, ehi; cbn; lia]|].
                apply covers_rk. lia.
              - destruct C2 as ([k' v'] & Hx & E1 & E2 & E3); [lia|]. cbn in *. subst v'.
                exists k'. split; [exact Hx|]. split; [split; [reflexivity|right; unfold elo, ehi; cbn; lia]|].
                apply covers_rk. lia. }
            destruct Hx as (k' & Hx & P & Hc). exists k'. rewrite InKO. split; [auto|].
            apply (max_run_same _ k' j p (PieceRun k v k' v Hin P) Hj Hc Hp).
      - intros p v. unfold maps_to. split.
        + intros (k' & Hin & Hc). apply InKO in Hin. destruct Hin as [Hin|Hin].
          * destruct (Keep _ Hin) as [Vk Hk]. unfold elo, ehi in *. cbn in *.
            split; [exists k'; rewrite InKM; auto|]. apply covers_rk in Hc. rewrite covers_rk. lia.
          * destruct (Io _ Hin) as ([k v0] & He & (Ev & P)). cbn in Ev. subst v0.
            specialize (HM _ He). specialize (VM _ He). unfold meets, elo, ehi in *. cbn in *.
            apply covers_rk in Hc. split; [exists k; rewrite InKM, covers_rk; split; [auto|lia]|].
            rewrite covers_rk. lia.
        + intros ((k & Hin & Hc) & Hq). apply InKM in Hin. destruct Hin as [Hin|Hin].
          * exists k. rewrite InKO. auto.
          * destruct (Co _ Hin) as [C1 C2]. apply covers_rk in Hc. rewrite covers_rk in Hq.
            unfold elo, ehi in *. cbn in *.
            destruct (Z_lt_le_dec (rk p) (lo q)) as [L|L].
            -- destruct C1 as ([k' v'] & Hx & E1 & E2 & E3); [lia|]. cbn in *. subst v'.
               exists k'. rewrite InKO, covers_rk. split; [auto|lia].
            -- destruct C2 as ([k' v'] & Hx & E1 & E2 & E3); [lia|]. cbn in *. subst v'.
               exists k'. rewrite InKO, covers_rk. split; [auto|lia].
    Qed.
  End Q.

  (** ** insert_overwrite *)
  Lemma insert_overwrite_facts m k v : WF m -> valid k ->
    exists l1 l2 out, cut k m = (l1 ++ l2, Val out) /\
      insert_overwrite k v m = (l1 ++ (k, v) :: l2, Val out) /\ WF (l1 ++ (k, v) :: l2).
  Proof.
    intros W Vk. destruct (cut_facts m k W Vk) as (A & M & B & out & ins & -> & HA & HM & HB & E & HC & HS & W').
    apply valid_rk in Vk as Vk'.
    assert (WM : WF M).
    { apply WF_app in W. destruct W as (_ & W & _). apply WF_app in W. apply W. }
    destruct (cut_list_facts k M out ins Vk' HC WM HM) as (Wo & Io & _).
    destruct (split3 out (lo k) (hi k) Wo Vk') as (O1 & O2 & O3 & -> & H1 & H2 & H3).
    assert (O2 = []) as ->.
    { destruct O2 as [|x O2]; [reflexivity|exfalso]. inversion H2 as [|? ? Hx _]; subst.
      destruct (Io x) as (e & He & (_ & P)); [rewrite !in_app_iff; right; left; left; reflexivity|].
      pose proof (WF_okv _ _ WM He). rewrite Forall_forall in HM. specialize (HM e He).
      unfold meets in *. lia. }
    cbn [app] in *. exists (A ++ O1), (O3 ++ B), ins.
    assert (Ea : A ++ (O1 ++ O3) ++ B = (A ++ O1) ++ O3 ++ B) by (rewrite <- !app_assoc; reflexivity).
    rewrite Ea in *. split; [exact E|].
    assert (HL : Forall (left_of (lo k)) (A ++ O1)) by (rewrite Forall_app; auto).
    assert (HR : Forall (right_of (hi k)) (O3 ++ B)) by (rewrite Forall_app; auto).
    split; [|apply WF_insert; assumption].
    unfold insert_overwrite. rewrite (iip_valid _ Vk), E. f_equal.
    apply insert_unchecked_split.
    - apply WF_app in W'. destruct W' as ([_ VL] & _ & _). rewrite Forall_forall in *. intros x Hx.
      specialize (HL x Hx). specialize (VL x Hx). unfold left_of, okv in *. lia.
    - rewrite Forall_forall in *. intros x Hx. specialize (HR x Hx). unfold right_of in *. lia.
  Qed.

  Lemma insert_overwrite_spec m k v : WF m -> valid k ->
    exists m' out, insert_overwrite k v m = (m', Val out) /\ snd (cut k m) = Val out /\ WF m' /\
      In (k, v) m' /\
      (forall e, In e m' <-> e = (k, v) \/ In e (fst (cut k m))) /\
      (forall p w, maps_to m' p w <-> (covers k p /\ w = v) \/ (~ covers k p /\ maps_to m p w)).
  Proof.
    intros W Vk. destruct (insert_overwrite_facts m k v W Vk) as (l1 & l2 & out & Ec & Ei & W').
    destruct (cut_entries m k W Vk) as (m1 & out' & Ec' & _ & _ & _ & _ & HP).
    rewrite Ec in Ec'. injection Ec' as <- <-.
    exists (l1 ++ (k, v) :: l2), out. rewrite Ec. split; [exact Ei|]. split; [reflexivity|]. split; [exact W'|].
    split; [apply in_app_iff; right; left; reflexivity|].
    assert (HI : forall e, In e (l1 ++ (k, v) :: l2) <-> e = (k, v) \/ In e (l1 ++ l2)).
    { intros e. rewrite !in_app_iff. cbn [In]. intuition. }
    split; [exact HI|]. intros p w. specialize (HP p w). split.
    - intros (k' & Hin & Hc). apply HI in Hin. destruct Hin as [Hin|Hin].
      + injection Hin as -> ->. auto.
      + right. destruct HP as [HP _]. destruct HP as [H1 H2]; [exists k'; auto|]. auto.
    - intros [[Hc ->]|[Hn Hm]].
      + exists k. rewrite HI. auto.
      + destruct HP as [_ HP]. destruct HP as (k' & Hin & Hc); [auto|]. exists k'. rewrite HI. auto.
  Qed.
End Mutations.
