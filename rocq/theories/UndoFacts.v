(** * UndoFacts: putting back what a removal returned (the proofs of C139). *)
From Coq Require Import List ZArith Bool Lia ZifyBool Permutation.
From Verif Require Import Base BTree UtilsModel IntervalModel NoditModel NoditOps UndoOps Spec
  PointFacts IntervalFacts ListFacts NoditFacts NoditInv NoditQueries NoditMutations NoditMerges NoditMore NoditCoherence
  EqModel EqFacts CrashProofs.
Import ListNotations.
Open Scope Z_scope.

Section Facts.
  Context {I : Type} `{PL : PointLaws I}.
  Context {K : Type} {IK : InclusiveInterval I K} {IL : IntervalLaws I K}.
  Context {V : Type}.
  Notation entry := (K * V)%type.
  Implicit Types (m : NoditMap K V) (l : list (K * V)).

  Definition apart (a b : entry) : Prop := ~ overlap (fst a) (fst b).
  (** The entries of [l] have room in [m]. *)
  Definition fits l m : Prop :=
    Forall (fun e => valid (fst e)) l /\ ForallOrdPairs apart l /\ forall a b, In a m -> In b l -> apart a b.

  Lemma apart_sym a b : apart a b -> apart b a.
  Proof. intros A (p & H1 & H2). apply A. exists p. split; assumption. Qed.
  Lemma fits_perm l l' m : Permutation l l' -> fits l m -> fits l' m.
  Proof.
    intros P (A & B & C). split; [apply (Permutation_Forall P A)|]. split.
    - clear -B P. revert B. induction P as [|x a b P IH|x y a|a b c P IH P' IH']; intros B; [exact B| | |auto].
      + inversion B; subst. constructor; [apply (Permutation_Forall P); assumption|auto].
      + inversion B as [|? ? F B']; subst. inversion B' as [|? ? F' B'']; subst. inversion F; subst.
        constructor; [constructor; [apply apart_sym; assumption|assumption]|constructor; assumption].
    - intros a b Ha Hb. apply C; [exact Ha|]. apply (Permutation_in _ (Permutation_sym P) Hb).
  Qed.
  Lemma fits_cons e l m : fits (e :: l) m -> valid (fst e) /\ (forall a, In a m -> apart a e) /\
    forall m', (forall a, In a m' -> a = e \/ In a m) -> fits l m'.
  Proof.
    intros (A & B & C). inversion A; subst. inversion B as [|? ? F B']; subst. split; [assumption|]. split; [intros a Ha; apply C; [exact Ha|left; reflexivity]|].
    intros m' Hm. split; [assumption|]. split; [assumption|]. intros a b Ha Hb. destruct (Hm a Ha) as [->|Ha'].
    - rewrite Forall_forall in F. apply F, Hb.
    - apply C; [exact Ha'|right; exact Hb].
  Qed.

  Lemma put_all l : forall m, WF m -> fits l m -> exists m', put_back l m m' /\ WF m' /\ forall e, In e m' <-> In e m \/ In e l.
  Proof.
    induction l as [|[k v] l IH]; intros m W F; [exists m; split; [reflexivity|]; split; [exact W|]; intros e; cbn; tauto|].
    destruct (fits_cons _ _ _ F) as (Vk & Ha & Hr). destruct (insert_strict_done m k v W Vk) as (l1 & l2 & E & Ei & W1).
    { intros k' v' Hi. apply (Ha (k', v') Hi). }
    assert (M : forall e, In e (l1 ++ (k, v) :: l2) <-> e = (k, v) \/ In e m).
    { intros e. rewrite E, !in_app_iff. cbn [In]. intuition. }
    destruct (IH _ W1) as (m' & P & W' & M'); [apply Hr; intros a; apply M|].
    exists m'. split; [exists (l1 ++ (k, v) :: l2); split; [exact Ei|exact P]|]. split; [exact W'|]. intros e. rewrite M', M. cbn [In]. intuition.
  Qed.

  Lemma FOP_apart m : WF m -> ForallOrdPairs apart m.
  Proof.
    induction m as [|e m IH]; intros W; constructor.
    - rewrite Forall_forall. intros x Hx (p & H1 & H2). apply WF_cons in W. destruct W as (_ & _ & F). rewrite Forall_forall in F.
      specialize (F x Hx). apply covers_rk in H1, H2. unfold elo, ehi in *. lia.
    - apply IH. apply WF_cons in W. apply W.
  Qed.

  Section Query.
    Context {Q : Type} {IQ : InclusiveInterval I Q}.
    Implicit Type q : Q.

    Lemma removed_fits m q m1 out : WF m -> remove_overlapping q m = (m1, Val out) ->
      WF m1 /\ fits out m1 /\ forall e, In e m <-> In e m1 \/ In e out.
    Proof.
      intros W E. destruct (valid_dec q) as [Vq|N]; [|rewrite remove_overlapping_invalid in E by exact N; discriminate].
      destruct (remove_overlapping_spec m q W Vq) as (m' & o & E' & So & Sm & W1). rewrite E in E'. injection E' as <- <-.
      assert (M : forall e, In e m <-> In e m1 \/ In e out).
      { intros e. rewrite (sub_in _ _ _ So e), (sub_in _ _ _ Sm e). assert (D : overlap (fst e) q \/ ~ overlap (fst e) q) by (rewrite overlap_rk; lia). tauto. }
      pose proof (sub_WF _ _ _ So W) as Wo. split; [exact W1|]. split; [|exact M]. split; [|split; [apply FOP_apart, Wo|]].
      - rewrite Forall_forall. intros e He. apply valid_rk. apply (WF_okv _ _ Wo He).
      - intros [ka va] [kb vb] Ha Hb (p & H1 & H2).
        assert (X : (ka, va) = (kb, vb)) by (apply (covers_unique m p); try assumption; apply M; tauto).
        rewrite X in Ha. apply (sub_in _ _ _ Sm) in Ha. apply (sub_in _ _ _ So) in Hb. tauto.
    Qed.

    Lemma cut_fits m q m1 out : WF m -> cut q m = (m1, Val out) ->
      WF m1 /\ fits out m1 /\ forall p v, maps_to m p v <-> maps_to m1 p v \/ maps_to out p v.
    Proof.
      intros W E. destruct (valid_dec q) as [Vq|N]; [|rewrite NoditInv.cut_invalid in E by exact N; discriminate].
      destruct (cut_entries m q W Vq) as (m' & o & E' & W1 & (ol & So & Fo) & _ & _ & M). rewrite E in E'. injection E' as <- <-.
      pose proof (sub_WF _ _ _ So W) as Wo.
      assert (Io : forall i, In i out -> exists e, In e ol /\ snd i = snd e /\ forall p, covers (fst i) p <-> covers (fst e) p /\ covers q p).
      { clear -Fo. induction Fo as [|e i ol out He Fo IH]; intros x Hx; [destruct Hx|]. destruct Hx as [<-|Hx]; [exists e; split; [left; reflexivity|exact He]|].
        destruct (IH x Hx) as (e' & A & B). exists e'. split; [right; exact A|exact B]. }
      assert (Oi : forall e, In e ol -> exists i, In i out /\ snd i = snd e /\ forall p, covers (fst i) p <-> covers (fst e) p /\ covers q p).
      { clear -Fo. induction Fo as [|e i ol out He Fo IH]; intros x Hx; [destruct Hx|]. destruct Hx as [<-|Hx]; [exists i; split; [left; reflexivity|exact He]|].
        destruct (IH x Hx) as (e' & A & B). exists e'. split; [right; exact A|exact B]. }
      split; [exact W1|]. split.
      - split; [|split].
        + rewrite Forall_forall. intros i Hi. destruct (Io i Hi) as (e & He & _ & C). apply (sub_in _ _ _ So) in He. destruct He as (_ & p & H1 & H2).
          exists p. apply C. split; assumption.
        + pose proof (FOP_apart ol Wo) as A. clear -A Fo. induction Fo as [|e i ol out [_ C] Fo IH]; [constructor|]. inversion A as [|? ? F A']; subst.
          constructor; [|auto]. clear -F Fo C. induction Fo as [|e' i' ol out [_ C'] Fo IH]; [constructor|]. inversion F as [|? ? Fa F']; subst. constructor; [|auto].
          intros (p & H1 & H2). apply Fa. exists p. split; [apply (proj1 (C p) H1)|apply (proj1 (C' p) H2)].
        + intros a i Ha Hi (p & H1 & H2). destruct (Io i Hi) as (e & He & _ & C). apply C in H2.
          assert (X : maps_to m1 p (snd a)) by (exists (fst a); split; [rewrite <- surjective_pairing; exact Ha|exact H1]). apply M in X. tauto.
      - intros p v. rewrite M. split.
        + intros (k & Hi & Hc). assert (Dq : covers q p \/ ~ covers q p) by (rewrite covers_rk; lia). destruct Dq as [Hq|Hq]; [right|left; split; [exists k; split; assumption|exact Hq]].
          destruct (Oi (k, v)) as ([k' v'] & Hi' & Es & C); [apply (sub_in _ _ _ So); split; [exact Hi|exists p; split; assumption]|].
          cbn in Es. subst v'. exists k'. split; [exact Hi'|]. apply C. split; assumption.
        + intros [[X _]|(k' & Hi & Hc)]; [exact X|]. destruct (Io _ Hi) as ([k v'] & He & Es & C). cbn in Es. subst v'.
          apply (sub_in _ _ _ So) in He. exists k. split; [apply He|]. apply C, Hc.
    Qed.
  End Query.

  Lemma maps_to_members m m1 l : (forall e, In e m <-> In e m1 \/ In e l) -> forall p v, maps_to m p v <-> maps_to m1 p v \/ maps_to l p v.
  Proof.
    intros M p v. split.
    - intros (k & Hi & Hc). apply M in Hi. destruct Hi as [Hi|Hi]; [left|right]; exists k; split; assumption.
    - intros [(k & Hi & Hc)|(k & Hi & Hc)]; exists k; (split; [apply M|exact Hc]); tauto.
  Qed.
  Lemma maps_to_perm l l' : Permutation l l' -> forall p v, maps_to l p v <-> maps_to l' p v.
  Proof.
    intros P p v. split; intros (k & Hi & Hc); exists k; (split; [|exact Hc]); [apply (Permutation_in _ P Hi)|apply (Permutation_in _ (Permutation_sym P) Hi)].
  Qed.

  (** ** Merging by value *)
  Section Merging.
    Context (veq : V -> V -> bool) (Hveq : forall x y, veq x y = true <-> x = y).

    Lemma merged_maps (P : entry -> Prop) k v m m' r : (forall e, In e m -> P e -> snd e = v) -> (forall e, In e m -> P e \/ ~ P e) -> absorbs P k v m m' r ->
      forall p v', maps_to m' p v' <-> maps_to m p v' \/ covers k p /\ v' = v.
    Proof.
      intros HP Dec (Cr & (l1 & l2 & S & ->) & _) p v'. pose proof (sub_in _ _ _ S) as M. split.
      - intros (k' & Hi & Hc). apply in_app_or in Hi. destruct Hi as [Hi|Hi]; [left; exists k'; split; [apply M, in_or_app; left; exact Hi|exact Hc]|].
        destruct Hi as [Hi|Hi]; [|left; exists k'; split; [apply M, in_or_app; right; exact Hi|exact Hc]].
        injection Hi as <- <-. apply Cr in Hc. destruct Hc as [Hc|(e & He & Pe & Hc)]; [right; auto|].
        left. exists (fst e). rewrite <- (HP e He Pe), <- surjective_pairing. split; assumption.
      - intros [(k' & Hi & Hc)|[Hc ->]].
        + destruct (Dec (k', v') Hi) as [X|X].
          * exists r. split; [rewrite <- (HP _ Hi X); apply in_elt|]. apply Cr. right. exists (k', v'). auto.
          * assert (Y : In (k', v') (l1 ++ l2)) by (apply M; split; assumption). exists k'. split; [|exact Hc].
            rewrite in_app_iff in *. cbn [In]. tauto.
        + exists r. split; [apply in_elt|]. apply Cr. left. exact Hc.
    Qed.
    Lemma fits_maps e l m m' : fits (e :: l) m -> (forall p v, maps_to m' p v -> maps_to m p v \/ covers (fst e) p) -> fits l m'.
    Proof.
      intros (A & B & C) Hm. inversion A; subst. inversion B as [|? ? F B']; subst. split; [assumption|]. split; [assumption|].
      intros a b Ha Hb (p & H1 & H2). destruct (Hm p (snd a)) as [(k & Hi & Hc)|Hc].
      - exists (fst a). rewrite <- surjective_pairing. split; assumption.
      - apply (C (k, snd a) b Hi (or_intror Hb)). exists p. split; assumption.
      - rewrite Forall_forall in F. apply (F b Hb). exists p. split; assumption.
    Qed.
    Lemma put_all_merging l : forall m, WF m -> vcanon m -> fits l m -> exists m', put_back_merging veq l m m' /\ WF m' /\ vcanon m' /\
      forall p v, maps_to m' p v <-> maps_to m p v \/ maps_to l p v.
    Proof.
      induction l as [|[k v] l IH]; intros m W C F.
      - exists m. split; [reflexivity|]. split; [exact W|]. split; [exact C|]. intros p v. split; [auto|]. intros [X|(k & [] & _)]. exact X.
      - destruct (fits_cons _ _ _ F) as (Vk & Ha & _).
        assert (Hn : forall k' v', In (k', v') m -> ~ overlap k' k) by (intros k' v' Hi; apply (Ha (k', v') Hi)).
        destruct (insert_merge_touching_if_equal_done veq m k v W Vk Hn) as (m1 & r & E & W1 & A).
        pose proof (vmerge_vcanon veq Hveq m k v m1 r W Vk Hn C W1 A) as C1.
        assert (M : forall p v', maps_to m1 p v' <-> maps_to m p v' \/ covers k p /\ v' = v).
        { apply (merged_maps _ k v m m1 r) with (3 := A).
          - intros e _ [_ X]. apply Hveq, X.
          - intros e He. pose proof (WF_okv _ _ W He) as Ve. destruct (veq (snd e) v); [|right; intros [_ X]; discriminate].
            assert (D : touch (fst e) k \/ ~ touch (fst e) k) by (pose proof (proj1 (valid_rk k) Vk) as Vk'; rewrite (touch_rk (fst e) k Ve Vk'); lia). tauto. }
        destruct (IH m1 W1 C1) as (m' & P & W' & C' & M').
        { apply (fits_maps _ _ _ _ F). intros p v' X. apply M in X. tauto. }
        exists m'. split; [exists m1, r; split; assumption|]. split; [exact W'|]. split; [exact C'|].
        intros p v'. rewrite M', M. split.
        + intros [[X|[X ->]]|(k' & Hi & Hc)]; [left; exact X|right; exists k; split; [left; reflexivity|exact X]|right; exists k'; split; [right; exact Hi|exact Hc]].
        + intros [X|(k' & Hi & Hc)]; [auto|]. destruct Hi as [Hi|Hi]; [injection Hi as <- <-; auto|]. right. exists k'. split; assumption.
    Qed.
  End Merging.
End Facts.
