(** * GapsLazyFacts: the lazy gap queries against the specification. *)
From Coq Require Import List ZArith Bool Lia ZifyBool Sorting.Sorted.
From Verif Require Import Base BTree UtilsModel IntervalModel NoditModel GapsLazyModel Spec PointFacts IntervalFacts ListFacts
  NoditFacts NoditQueries NoditGaps.
Import ListNotations.
Open Scope Z_scope.

Section LazyFacts.
  Context {I : Type} `{PL : PointLaws I}.
  Context {K : Type} {IK : InclusiveInterval I K} {IL : IntervalLaws I K}.
  Context {V : Type}.
  Implicit Types (m A B M : NoditMap K V).
  Context {Q : Type} {IQ : InclusiveInterval I Q}.
  Implicit Type q : Q.

  Lemma collect_app (l l' : list (outcome K)) :
    collect (l ++ l') = (let? a := collect l in let? b := collect l' in Val (a ++ b)).
  Proof.
    induction l as [|[g|] l IH]; cbn [app collect].
    - destruct (collect l'); reflexivity.
    - rewrite IH. destruct (collect l); cbn; [|reflexivity]. destruct (collect l'); reflexivity.
    - reflexivity.
  Qed.

  (** Changing what [K::from] does to invalid intervals. *)
  Definition patched (try_from : Interval I -> outcome K) : InclusiveInterval I K := {|
    istart := @istart I K IK; iend := @iend I K IK;
    ifrom := fun i => match try_from i with Val k => k | Panic => ifrom i end |}.

  Lemma patched_laws try_from : (forall i, valid i -> try_from i = Val (ifrom i)) ->
    @IntervalLaws I K _ (patched try_from).
  Proof.
    intros Htry. constructor. intros i L. cbn. rewrite Htry; [apply from_valid, L|].
    apply is_valid_true. exact L.
  Qed.

  Section Patched.
    Context (try_from : Interval I -> outcome K).
    Context (Htry : forall i, valid i -> try_from i = Val (ifrom i)).
    Notation P := (patched try_from).

    Lemma inner_steps_collect M : WF M ->
      collect (inner_steps try_from M) = Panic /\
        (exists x y i, In x M /\ In y M /\ elo y = ehi x + 1 /\ lo i = elo y /\ hi i = ehi x /\ try_from i = Panic) \/
      exists gs, inner_steps try_from M = map Val gs /\ @inner_gaps _ _ _ _ P _ M = Val gs.
    Proof.
      induction M as [|x [|y r] IH]; intros W.
      - right. exists []. split; reflexivity.
      - right. exists []. split; reflexivity.
      - apply WF_cons in W. destruct W as (Vx & W & Hx).
        inversion Hx as [|? ? Hxy _]; subst. specialize (IH W).
        unfold ehi, elo, lo, hi in Hxy.
        destruct (up_exists _ _ Hxy) as (u & Eu & Hu). destruct (down_exists _ _ Hxy) as (d & Ed & Hd).
        change (inner_steps try_from (x :: y :: r)) with
          (match (let? u := unwrap (up (iend (fst x))) in
               let? d := unwrap (down (istart (fst y))) in
               try_from (mkInterval u d)) with
        | Panic => [Panic]
        | Val g => if is_valid g then Val g :: inner_steps try_from (y :: r) else inner_steps try_from (y :: r)
        end).
        change (@inner_gaps _ _ _ _ P _ (x :: y :: r)) with
          (let? u := unwrap (up (iend (fst x))) in
          let? d := unwrap (down (istart (fst y))) in
          let g := match try_from (mkInterval u d) with Val k => k | Panic => ifrom (mkInterval u d) end in
          let? gs := @inner_gaps _ _ _ _ P _ (y :: r) in
          Val (if is_valid g then g :: gs else gs)).
        rewrite Eu, Ed. cbn [unwrap obind].
        destruct (try_from (mkInterval u d)) as [g|] eqn:Et; cbn zeta.
        + destruct IH as [[Ec (a & b & i & Ha & Hb & Hr)]|(gs & Eg & Es)].
          * left. split; [destruct (is_valid g); cbn [collect]; rewrite Ec; reflexivity|].
            exists a, b, i. split; [right; exact Ha|]. split; [right; exact Hb|exact Hr].
          * right. rewrite Es. cbn [obind]. destruct (is_valid g); [exists (g :: gs)|exists gs]; cbn [map];
              rewrite Eg; split; reflexivity.
        + left. split; [reflexivity|]. exists x, y, (mkInterval u d).
          split; [left; reflexivity|]. split; [right; left; reflexivity|].
          destruct (Z.leb_spec (rk u) (rk d)) as [L|L].
          * rewrite Htry in Et; [discriminate|]. apply valid_rk. exact L.
          * split; [|repeat split; try exact Et]; unfold elo, ehi, lo, hi; cbn; lia.
    Qed.

    (** The eager gap queries of the patched type. *)
    Lemma lazy_cases m q : WF m -> valid q ->
      (exists x y i, In x m /\ In y m /\ meets (lo q) (hi q) x /\ meets (lo q) (hi q) y /\
         elo y = ehi x + 1 /\ lo i = elo y /\ hi i = ehi x /\ try_from i = Panic) \/
      exists gl tl, gaps_untrimmed_lazy try_from m q = Val (map Val gl) /\
        gaps_trimmed_lazy try_from m q = Val (map Val tl) /\
        @gaps_untrimmed _ _ _ _ P _ _ _ m q = Val gl /\ @gaps_trimmed _ _ _ _ P _ _ _ m q = Val tl.
    Proof.
      intros W Vq. unfold gaps_untrimmed_lazy, gaps_trimmed_lazy, gaps_untrimmed, gaps_trimmed.
      rewrite (iip_valid _ Vq). cbn [obind].
      apply valid_rk in Vq as Vq'.
      destruct (split3 m (lo q) (hi q) W Vq') as (A & M & B & -> & HA & HM & HB).
      change (@overlapping I H K P V Q IQ) with (@overlapping I H K IK V Q IQ).
      change (@end_gap I H H0 K P V) with (@end_gap I H H0 K IK V).
      rewrite (overlapping_split q A M B Vq W HA HM HB). cbn [obind].
      pose proof (end_gap_start q A M B Vq' W HA HM HB) as HS.
      pose proof (end_gap_end q A M B Vq' W HA HM HB) as HE.
      assert (HS' : exists sg, end_gap (A ++ M ++ B) (istart q) = Val sg /\
        forall g, sg = Some g -> lo g <= lo q <= hi g).
      { destruct M as [|x M]; [|destruct (elo x <=? lo q)].
        - destruct HS as (g & Eg & _ & Hg). exists (Some g). split; [exact Eg|]. intros g' [= <-]. exact Hg.
        - exists None. split; [exact HS|discriminate].
        - destruct HS as (g & Eg & _ & Hg). exists (Some g). split; [exact Eg|]. intros g' [= <-]. exact Hg. }
      assert (HE' : exists eg, end_gap (A ++ M ++ B) (iend q) = Val eg /\
        forall g, eg = Some g -> lo g <= hi q <= hi g).
      { destruct HE as [(_ & g & Eg & _ & Hg)|(M' & y & _ & HE)];
          [exists (Some g); split; [exact Eg|]; intros g' [= <-]; exact Hg|].
        destruct (hi q <=? ehi y); [exists None; split; [exact HE|discriminate]|].
        destruct HE as (g & Eg & _ & Hg). exists (Some g). split; [exact Eg|]. intros g' [= <-]. exact Hg. }
      clear HS HE. destruct HS' as (sg & -> & Hs). destruct HE' as (eg & -> & He). cbn [obind].
      apply WF_app in W. destruct W as (_ & W & _). apply WF_app in W. destruct W as (WM & _ & _).
      destruct (inner_steps_collect M WM) as [[_ (x & y & i & Hx & Hy & Hr)]|(gs & Eg & Es)].
      { left. exists x, y, i. rewrite !in_app_iff. rewrite Forall_forall in HM.
        split; [auto|]. split; [auto|]. split; [apply HM, Hx|]. split; [apply HM, Hy|exact Hr]. }
      right.
      assert (T : forall i, lo i <= hi i -> try_from i = Val (ifrom i)) by (intros i L; apply Htry, valid_rk, L).
      assert (T' : forall i, lo i <= hi i -> @ifrom I K P i = ifrom i) by (intros i L; cbn; rewrite T by exact L; reflexivity).
      destruct sg as [sg|]; [specialize (Hs sg eq_refl)|]; (destruct eg as [eg|]; [specialize (He eg eq_refl)|]);
        unfold lo, hi in *; cbn [istart iend Interval_InclusiveInterval] in *.
      - destruct (eqb (ivl_start sg) (ivl_start eg));
        rewrite Eg, Es; cbn [obind try_from_opt option_map opt_list app]; rewrite !T, !T' by (cbn; lia); cbn [omap obind].
        + exists (ifrom sg :: gs ++ []), (ifrom (mkInterval (istart q) (iend q)) :: gs ++ []).
          cbn [map app]. rewrite !map_app. auto.
        + do 2 eexists. split; [|split; [|split; reflexivity]]; f_equal; cbn [map app]; rewrite map_app; reflexivity.
      - rewrite Eg, Es; cbn [obind try_from_opt option_map opt_list app]; rewrite !T, !T' by (cbn; lia); cbn [omap obind].
        do 2 eexists. split; [|split; [|split; reflexivity]]; f_equal; cbn [map app]; rewrite map_app; reflexivity.
      - rewrite Eg, Es; cbn [obind try_from_opt option_map opt_list app]; rewrite !T, !T' by (cbn; lia); cbn [omap obind].
        do 2 eexists. split; [|split; [|split; reflexivity]]; f_equal; cbn [map app]; rewrite map_app; reflexivity.
      - rewrite Eg, Es; cbn [obind try_from_opt option_map opt_list app].
        do 2 eexists. split; [|split; [|split; reflexivity]]; f_equal; cbn [map app]; rewrite map_app; reflexivity.
    Qed.

    Lemma lazy_shape m q : WF m -> valid q ->
      exists M f l f' l', overlapping m q = Val M /\
        gaps_untrimmed_lazy try_from m q = Val (map Val f ++ inner_steps try_from M ++ map Val l) /\
        gaps_trimmed_lazy try_from m q = Val (map Val f' ++ inner_steps try_from M ++ map Val l').
    Proof.
      intros W Vq. unfold gaps_untrimmed_lazy, gaps_trimmed_lazy.
      rewrite (iip_valid _ Vq). cbn [obind].
      apply valid_rk in Vq as Vq'.
      destruct (split3 m (lo q) (hi q) W Vq') as (A & M & B & -> & HA & HM & HB).
      rewrite (overlapping_split q A M B Vq W HA HM HB). cbn [obind].
      pose proof (end_gap_start q A M B Vq' W HA HM HB) as HS.
      pose proof (end_gap_end q A M B Vq' W HA HM HB) as HE.
      assert (HS' : exists sg, end_gap (A ++ M ++ B) (istart q) = Val sg /\
        forall g, sg = Some g -> lo g <= lo q <= hi g).
      { destruct M as [|x M]; [|destruct (elo x <=? lo q)].
        - destruct HS as (g & Eg & _ & Hg). exists (Some g). split; [exact Eg|]. intros g' [= <-]. exact Hg.
        - exists None. split; [exact HS|discriminate].
        - destruct HS as (g & Eg & _ & Hg). exists (Some g). split; [exact Eg|]. intros g' [= <-]. exact Hg. }
      assert (HE' : exists eg, end_gap (A ++ M ++ B) (iend q) = Val eg /\
        forall g, eg = Some g -> lo g <= hi q <= hi g).
      { destruct HE as [(_ & g & Eg & _ & Hg)|(M' & y & _ & HE)];
          [exists (Some g); split; [exact Eg|]; intros g' [= <-]; exact Hg|].
        destruct (hi q <=? ehi y); [exists None; split; [exact HE|discriminate]|].
        destruct HE as (g & Eg & _ & Hg). exists (Some g). split; [exact Eg|]. intros g' [= <-]. exact Hg. }
      clear HS HE. destruct HS' as (sg & -> & Hs). destruct HE' as (eg & -> & He). cbn [obind].
      exists M.
      assert (T : forall i, lo i <= hi i -> try_from i = Val (ifrom i)) by (intros i L; apply Htry, valid_rk, L).
      destruct sg as [sg|]; [specialize (Hs sg eq_refl)|]; (destruct eg as [eg|]; [specialize (He eg eq_refl)|]);
        unfold lo, hi in *; cbn [istart iend Interval_InclusiveInterval] in *.
      - destruct (eqb (ivl_start sg) (ivl_start eg));
        cbn [obind try_from_opt option_map opt_list app]; rewrite !T by (cbn; lia); cbn [omap obind].
        + exists [ifrom sg], [], [ifrom (mkInterval (istart q) (iend q))], []. auto.
        + eexists [_], [_], [_], [_]. split; [reflexivity|]. split; reflexivity.
      - cbn [obind try_from_opt option_map opt_list app]; rewrite !T by (cbn; lia); cbn [omap obind].
        eexists [_], [], [_], []. split; [reflexivity|]. split; reflexivity.
      - cbn [obind try_from_opt option_map opt_list app]; rewrite !T by (cbn; lia); cbn [omap obind].
        eexists [], [_], [], [_]. split; [reflexivity|]. split; reflexivity.
      - cbn [obind try_from_opt option_map opt_list app].
        exists [], [], [], []. split; [reflexivity|]. split; reflexivity.
    Qed.

    Lemma collect_map_Val (l : list K) : collect (map Val l) = Val l.
    Proof. induction l as [|g l IH]; [reflexivity|]. cbn [map collect]. rewrite IH. reflexivity. Qed.

    Lemma collect_mid f (l : list (outcome K)) e : collect (map Val f ++ l ++ map Val e) = Panic <-> collect l = Panic.
    Proof.
      rewrite !collect_app, !collect_map_Val. cbn [obind]. destruct (collect l); cbn; split; congruence.
    Qed.

    Lemma inner_steps_panic M x y : WF M -> (forall i, ~ valid i -> try_from i = Panic) ->
      In x M -> In y M -> elo y = ehi x + 1 -> collect (inner_steps try_from M) = Panic.
    Proof.
      intros W Hbad. induction M as [|a [|b r] IH]; intros Hx Hy E.
      - destruct Hx.
      - destruct Hx as [<-|[]], Hy as [<-|[]]. pose proof (WF_okv _ _ W (or_introl eq_refl)). lia.
      - apply WF_cons in W. destruct W as (Va & W & Ha). specialize (IH W).
        pose proof W as W'. apply WF_cons in W'. destruct W' as (Vb & W' & Hb).
        assert (Hab : ehi a < elo b) by (inversion Ha; assumption).
        rewrite Forall_forall in Ha, Hb. unfold ehi, elo, lo, hi in Hab.
        destruct (up_exists _ _ Hab) as (u & Eu & Hu). destruct (down_exists _ _ Hab) as (d & Ed & Hd).
        assert (Case : (In x (b :: r) /\ In y (b :: r)) \/ rk d < rk u).
        { destruct Hy as [<-|Hy].
          - exfalso. destruct Hx as [<-|Hx]; [lia|]. specialize (Ha x Hx).
            pose proof (WF_okv _ _ W Hx). lia.
          - destruct Hx as [<-|Hx]; [right|left; auto]. destruct Hy as [<-|Hy].
            + unfold elo, ehi, lo, hi in *. lia.
            + specialize (Hb y Hy). unfold elo, ehi, lo, hi in *. lia. }
        change (inner_steps try_from (a :: b :: r)) with
          (match (let? u := unwrap (up (iend (fst a))) in
               let? d := unwrap (down (istart (fst b))) in
               try_from (mkInterval u d)) with
        | Panic => [Panic]
        | Val g => if is_valid g then Val g :: inner_steps try_from (b :: r) else inner_steps try_from (b :: r)
        end).
        rewrite Eu, Ed. cbn [unwrap obind]. destruct Case as [[Ix Iy]|L].
        + specialize (IH Ix Iy E). destruct (try_from (mkInterval u d)) as [g|]; [|reflexivity].
          destruct (is_valid g); [|exact IH]. cbn [collect]. rewrite IH. reflexivity.
        + rewrite Hbad; [reflexivity|]. rewrite valid_rk. unfold lo, hi. cbn. lia.
    Qed.
  End Patched.

  Lemma patched_id : patched (fun i => Val (ifrom i)) = IK.
  Proof. unfold patched. destruct IK as [s e f]. reflexivity. Qed.
End LazyFacts.
