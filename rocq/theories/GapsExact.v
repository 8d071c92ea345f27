(** * GapsExact: exactly when the lazy gap queries are right. *)
From Coq Require Import List ZArith Bool Lia ZifyBool Sorting.Sorted.
From Verif Require Import Base BTree UtilsModel IntervalModel NoditModel GapsLazyModel Spec PointFacts IntervalFacts ListFacts
  NoditFacts NoditQueries NoditGaps GapsLazyFacts TransportFacts Instances GqditProofs GqditAlgebra.
Import ListNotations.
Open Scope Z_scope.

Section Exact.
  Context {I : Type} {OI : Ord I} {DI : DiscreteFinite I} {PL : PointLaws I}.
  Context {K : Type} {IK : InclusiveInterval I K} {IL : IntervalLaws I K}.
  Context {V : Type}.
  Implicit Types (m A B M : NoditMap K V).
  Context {Q : Type} {IQ : InclusiveInterval I Q}.
  Implicit Type q : Q.

  (** The map with plain intervals as its keys. *)
  Definition hk (k : K) : Interval I := mkInterval (istart k) (iend k).
  Notation plain := (tr hk (fun v : V => v)).

  Lemma end_gap_plain m p : end_gap (plain m) p = end_gap m p.
  Proof.
    unfold end_gap. rewrite (contains_key_tr hk _ (overlapping_comp p)) by reflexivity.
    unfold get_gap_at_raw. rewrite (upper_bound_tr hk _ (overlapping_comp p)) by reflexivity.
    unfold lower_bound. rewrite (seek_tr hk _ (overlapping_comp p)) by reflexivity. rewrite !cursor_key_tr.
    rewrite <- !surjective_pairing.
    destruct (cursor_key (upper_bound (overlapping_comp p) m)), (cursor_key (seek (overlapping_comp p) m)); reflexivity.
  Qed.
  Lemma overlapping_plain m q : overlapping (plain m) q = omap plain (overlapping m q).
  Proof.
    unfold overlapping. destruct (invalid_interval_panic q) as [[]|]; cbn [obind omap]; [|reflexivity].
    f_equal. apply (range_tr hk (fun v => v)); reflexivity.
  Qed.
  Lemma plain_WF m : WF m -> WF (plain m).
  Proof.
    induction m as [|x m IH]; intros W; [apply WF_nil|]. apply WF_cons in W. destruct W as (Vx & W & F).
    cbn [tr map]. apply WF_cons. split; [exact Vx|]. split; [apply IH, W|].
    rewrite Forall_forall in *. intros y Hy. apply in_map_iff in Hy. destruct Hy as (z & <- & Hz). exact (F z Hz).
  Qed.
  Lemma plain_covered m p : covered (plain m) p <-> covered m p.
  Proof.
    split.
    - intros (k & v & Hi & Hc). apply in_map_iff in Hi. destruct Hi as ((k0 & v0) & [= <- <-] & Hi). exists k0, v0. auto.
    - intros (k & v & Hi & Hc). exists (hk k), v. split; [|exact Hc]. apply in_map_iff. exists (k, v). auto.
  Qed.

  Section From.
    Context (tf : Interval I -> outcome K).
    Context (Ht : forall i, valid i -> tf i = Val (ifrom i)).

    (** Nothing valid comes of the space between two touching entries. *)
    Definition harmless M : Prop := forall x y u d, In x M -> In y M -> elo y = ehi x + 1 ->
      up (iend (fst x)) = Some u -> down (istart (fst y)) = Some d ->
      exists g, tf (mkInterval u d) = Val g /\ is_valid g = false.

    Lemma step_unfold (x y : K * V) r u d : up (iend (fst x)) = Some u -> down (istart (fst y)) = Some d ->
      inner_steps tf (x :: y :: r) =
        match tf (mkInterval u d) with
        | Panic => [Panic]
        | Val g => if is_valid g then Val g :: inner_steps tf (y :: r) else inner_steps tf (y :: r)
        end.
    Proof. intros Eu Ed. cbn [inner_steps]. rewrite Eu, Ed. reflexivity. Qed.
    Lemma plain_step_unfold (x y : K * V) r u d : up (iend (fst x)) = Some u -> down (istart (fst y)) = Some d ->
      inner_steps (V := V) Val (plain (x :: y :: r)) =
        if is_valid (mkInterval u d) then Val (mkInterval u d) :: inner_steps Val (plain (y :: r)) else inner_steps Val (plain (y :: r)).
    Proof. intros Eu Ed. cbn [tr map inner_steps fst snd hk istart iend Interval_InclusiveInterval ivl_start ivl_end]. rewrite Eu, Ed. reflexivity. Qed.

    (** Of the pairs in [x :: y :: r] only [(x, y)] is not in [y :: r]. *)
    Lemma pairs_cons (x y : K * V) r a b : WF (x :: y :: r) -> In a (x :: y :: r) -> In b (x :: y :: r) -> elo b = ehi a + 1 ->
      a = x /\ b = y \/ In a (y :: r) /\ In b (y :: r).
    Proof.
      intros W Ha Hb E. apply WF_cons in W. destruct W as (Vx & W & Fx). pose proof W as W'.
      apply WF_cons in W'. destruct W' as (Vy & W' & Fy). rewrite Forall_forall in Fx, Fy.
      pose proof (Fx y (or_introl eq_refl)) as Exy.
      destruct Hb as [<-|Hb].
      - exfalso. destruct Ha as [<-|Ha]; [lia|]. specialize (Fx a Ha). pose proof (WF_okv _ _ W Ha). lia.
      - destruct Ha as [<-|Ha]; [|auto]. left. split; [reflexivity|]. destruct Hb as [<-|Hb]; [reflexivity|].
        specialize (Fy b Hb). lia.
    Qed.

    Lemma head_points (x y : K * V) r : WF (x :: y :: r) -> exists u d, up (iend (fst x)) = Some u /\ down (istart (fst y)) = Some d /\
      rk u = ehi x + 1 /\ rk d = elo y - 1 /\ ehi x < elo y.
    Proof.
      intros W. apply WF_cons in W. destruct W as (Vx & W & Hx). inversion Hx as [|? ? Hxy _]; subst.
      unfold ehi, elo, lo, hi in *. destruct (up_exists _ _ Hxy) as (u & Eu & Hu). destruct (down_exists _ _ Hxy) as (d & Ed & Hd).
      exists u, d. repeat (split; [assumption|]). exact Hxy.
    Qed.

    Lemma inner_exact M : WF M ->
      exists gs, inner_steps (V := V) Val (plain M) = map Val gs /\ Forall valid gs /\
        (harmless M -> inner_steps tf M = map (fun i => Val (ifrom i)) gs) /\
        (forall l, inner_steps tf M = map Val l -> (length gs <= length l)%nat /\ ((length l <= length gs)%nat -> harmless M)).
    Proof.
      induction M as [|x [|y r] IH]; intros W.
      - exists []. repeat split; try constructor; [cbn; lia|]. intros _ a b u d [].
      - exists []. repeat split; try constructor; [cbn; lia|]. intros _ a b u d [<-|[]] [<-|[]] E.
        pose proof (WF_okv _ _ W (or_introl eq_refl)). lia.
      - destruct (head_points x y r W) as (u & d & Eu & Ed & Ru & Rd & Lxy).
        pose proof (pairs_cons x y r) as PC. specialize (PC). pose proof W as W0. apply WF_cons in W. destruct W as (Vx & W & Hx).
        destruct (IH W) as (gs & Eg & Vg & Hh & Hl). clear IH.
        rewrite (step_unfold x y r u d Eu Ed), (plain_step_unfold x y r u d Eu Ed).
        assert (Hsub : harmless (x :: y :: r) -> harmless (y :: r)).
        { intros Hm a b u' d' Ha Hb. apply Hm; right; assumption. }
        destruct (is_valid (mkInterval u d)) eqn:Ei.
        + pose proof Ei as Ei'. apply is_valid_true in Ei'. rewrite (Ht _ Ei').
          apply valid_rk in Ei' as Li. unfold lo, hi in Li. cbn in Li.
          assert (Vi : is_valid (ifrom (mkInterval u d) : K) = true).
          { apply is_valid_true, valid_rk. rewrite from_lo, from_hi; exact Li. }
          rewrite Vi. exists (mkInterval u d :: gs). rewrite Eg. split; [reflexivity|]. split; [constructor; assumption|]. split.
          * intros Hm. rewrite (Hh (Hsub Hm)). reflexivity.
          * intros [|k l] El; [discriminate|]. injection El as _ El. destruct (Hl l El) as [H1 H2]. cbn [length]. split; [lia|].
            intros H3 a b u' d' Ha Hb E. destruct (PC a b W0 Ha Hb E) as [[-> ->]|[Ha' Hb']]; [lia|].
            apply H2; [lia|assumption..].
        + assert (Li : elo y = ehi x + 1).
          { destruct (Z_le_gt_dec (rk u) (rk d)) as [L|L]; [|lia]. exfalso.
            assert (valid (mkInterval u d)) as Vi by (apply valid_rk; exact L). apply is_valid_true in Vi. congruence. }
          exists gs. split; [exact Eg|]. split; [exact Vg|].
          destruct (tf (mkInterval u d)) as [g|] eqn:Et; [destruct (is_valid g) eqn:Vv|].
          * split.
            { intros Hm. destruct (Hm x y u d (or_introl eq_refl) (or_intror (or_introl eq_refl)) Li Eu Ed) as (g' & E1 & E2). congruence. }
            intros [|k l] El; [discriminate|]. injection El as _ El. destruct (Hl l El) as [H1 H2]. cbn [length]. split; lia.
          * split; [intros Hm; apply Hh, Hsub, Hm|]. intros l El. destruct (Hl l El) as [H1 H2]. split; [exact H1|].
            intros H3 a b u' d' Ha Hb E. destruct (PC a b W0 Ha Hb E) as [[-> ->]|[Ha' Hb']].
            -- intros Eu' Ed'. rewrite Eu in Eu'. rewrite Ed in Ed'. injection Eu' as <-. injection Ed' as <-. exists g. auto.
            -- apply H2; assumption.
          * split.
            { intros Hm. destruct (Hm x y u d (or_introl eq_refl) (or_intror (or_introl eq_refl)) Li Eu Ed) as (g' & E1 & E2). congruence. }
            intros [|k l]; discriminate.
    Qed.

    (** The iterator starts with a panic: the entries up to a bad pair leave no
        room and nothing comes of the pairs before. *)
    Lemma inner_head (x : K * V) r : WF (x :: r) ->
      ((exists l, inner_steps tf (x :: r) = Panic :: l) <->
       exists a b u d, In a (x :: r) /\ In b (x :: r) /\ elo b = ehi a + 1 /\
         up (iend (fst a)) = Some u /\ down (istart (fst b)) = Some d /\ tf (mkInterval u d) = Panic /\
         (forall z, elo x <= z <= ehi a -> exists e, In e (x :: r) /\ elo e <= z <= ehi e) /\
         (forall a' b' u' d', In a' (x :: r) -> In b' (x :: r) -> elo b' = ehi a' + 1 -> ehi a' < elo a ->
            up (iend (fst a')) = Some u' -> down (istart (fst b')) = Some d' ->
            exists g, tf (mkInterval u' d') = Val g /\ is_valid g = false)).
    Proof.
      revert x. induction r as [|y r IH]; intros x W.
      - split; [intros (l & E); discriminate|].
        intros (a & b & u & d & [<-|[]] & [<-|[]] & E & _). pose proof (WF_okv _ _ W (or_introl eq_refl)). lia.
      - destruct (head_points x y r W) as (u & d & Eu & Ed & Ru & Rd & Lxy).
        pose proof (pairs_cons x y r) as PC. pose proof W as W0. apply WF_cons in W. destruct W as (Vx & W & Hx).
        rewrite (step_unfold x y r u d Eu Ed). specialize (IH y W). rewrite Forall_forall in Hx.
        assert (Fy : forall e, In e (y :: r) -> elo y <= elo e).
        { intros e [<-|He]; [lia|]. apply WF_cons in W. destruct W as (Vy & _ & Fy). rewrite Forall_forall in Fy.
          specialize (Fy e He). lia. }
        destruct (Z_le_gt_dec (rk u) (rk d)) as [L|L].
        { assert (Vi : valid (mkInterval u d)) by (apply valid_rk; exact L). rewrite (Ht _ Vi).
          assert (Vi' : is_valid (ifrom (mkInterval u d) : K) = true).
          { apply is_valid_true, valid_rk. rewrite from_lo, from_hi; exact L. }
          rewrite Vi'. split; [intros (l & E); discriminate|].
          intros (a & b & u' & d' & Ha & Hb & E & _ & _ & _ & C & _). exfalso.
          destruct (PC a b W0 Ha Hb E) as [[-> ->]|[Ha' _]]; [lia|].
          destruct (C (ehi x + 1)) as (e & He & Be).
          { pose proof (Hx a Ha'). pose proof (WF_okv _ _ W Ha'). lia. }
          destruct He as [<-|He]; [lia|]. specialize (Fy e He). lia. }
        assert (Ly : elo y = ehi x + 1) by lia.
        destruct (tf (mkInterval u d)) as [g|] eqn:Et; [destruct (is_valid g) eqn:Vv|].
        + split; [intros (l & E); discriminate|].
          intros (a & b & u' & d' & Ha & Hb & E & Eu' & Ed' & EP & C & F). exfalso.
          destruct (PC a b W0 Ha Hb E) as [[-> ->]|[Ha' _]]; [congruence|].
          destruct (F x y u d (or_introl eq_refl) (or_intror (or_introl eq_refl)) Ly (Hx a Ha') Eu Ed) as (g' & E1 & E2). congruence.
        + rewrite IH. split.
          * intros (a & b & u' & d' & Ha & Hb & E & Eu' & Ed' & EP & C & F). exists a, b, u', d'.
            split; [right; exact Ha|]. split; [right; exact Hb|]. repeat (split; [assumption|]). split.
            -- intros z Bz. destruct (Z_le_gt_dec z (ehi x)) as [Lz|Lz]; [exists x; split; [left; reflexivity|lia]|].
               destruct (C z) as (e & He & Be); [lia|]. exists e. split; [right; exact He|exact Be].
            -- intros a' b' u2 d2 Ha' Hb' E' La Eu2 Ed2. destruct (PC a' b' W0 Ha' Hb' E') as [[-> ->]|[Ia Ib]].
               ++ exists g. split; [congruence|exact Vv].
               ++ apply (F a' b'); assumption.
          * intros (a & b & u' & d' & Ha & Hb & E & Eu' & Ed' & EP & C & F).
            destruct (PC a b W0 Ha Hb E) as [[-> ->]|[Ia Ib]]; [congruence|]. exists a, b, u', d'.
            repeat (split; [assumption|]). split.
            -- intros z Bz. destruct (C z) as (e & He & Be); [lia|]. destruct He as [<-|He]; [lia|]. exists e. auto.
            -- intros a' b' u2 d2 Ha' Hb'. apply F; right; assumption.
        + split; [|intros _; exists []; reflexivity]. intros _. exists x, y, u, d.
          split; [left; reflexivity|]. split; [right; left; reflexivity|]. repeat (split; [assumption|]). split.
          * intros z Bz. exists x. split; [left; reflexivity|lia].
          * intros a' b' u' d' Ha' Hb' E' La. exfalso. destruct Ha' as [<-|Ha']; [lia|]. specialize (Hx a' Ha').
            pose proof (WF_okv _ _ W Ha'). lia.
    Qed.

    (** The iterators of the map and of the plain map side by side. *)
    Lemma both_shapes m q : WF m -> valid q ->
      exists M s e s' e', overlapping m q = Val M /\ WF M /\ sub (fun x => overlap (fst x) q) m M /\
        Forall valid s /\ Forall valid e /\ Forall valid s' /\ Forall valid e' /\
        gaps_untrimmed_lazy tf m q = Val (map (fun i => Val (ifrom i)) s ++ inner_steps tf M ++ map (fun i => Val (ifrom i)) e) /\
        gaps_trimmed_lazy tf m q = Val (map (fun i => Val (ifrom i)) s' ++ inner_steps tf M ++ map (fun i => Val (ifrom i)) e') /\
        gaps_untrimmed_lazy Val (plain m) q = Val (map Val s ++ inner_steps Val (plain M) ++ map Val e) /\
        gaps_trimmed_lazy Val (plain m) q = Val (map Val s' ++ inner_steps Val (plain M) ++ map Val e') /\
        (s = [] -> exists x r, M = x :: r /\ elo x <= lo q) /\
        (forall g, In g s -> forall x, In x M -> lo q < elo x).
    Proof.
      intros W Vq. unfold gaps_untrimmed_lazy, gaps_trimmed_lazy.
      rewrite (iip_valid _ Vq). cbn [obind]. rewrite !end_gap_plain, !overlapping_plain.
      apply valid_rk in Vq as Vq'.
      destruct (split_overlap m q W Vq) as (A & M & B & -> & HA & HM & HB & HSub & _).
      rewrite (overlapping_split q A M B Vq W HA HM HB). cbn [obind omap].
      pose proof (end_gap_start q A M B Vq' W HA HM HB) as HS.
      pose proof (end_gap_end q A M B Vq' W HA HM HB) as HE.
      assert (WM : WF M) by (apply WF_app in W; destruct W as (_ & W & _); apply WF_app in W; apply W).
      assert (HS' : exists sg, end_gap (A ++ M ++ B) (istart q) = Val sg /\
        (forall g, sg = Some g -> lo g <= lo q <= hi g /\ forall x, In x M -> lo q < elo x) /\
        (sg = None -> exists x r, M = x :: r /\ elo x <= lo q)).
      { destruct M as [|x M]; [|destruct (Z.leb_spec (elo x) (lo q)) as [L|L]].
        - destruct HS as (g & Eg & _ & Hg). exists (Some g). split; [exact Eg|]. split; [|discriminate].
          intros g' [= <-]. split; [exact Hg|intros x []].
        - exists None. split; [exact HS|]. split; [discriminate|]. intros _. exists x, M. auto.
        - destruct HS as (g & Eg & _ & Hg). exists (Some g). split; [exact Eg|]. split; [|discriminate]. intros g' [= <-]. split; [exact Hg|].
          apply WF_cons in WM. destruct WM as (Vx & _ & F). rewrite Forall_forall in F.
          intros y [<-|Hy]; [exact L|]. specialize (F y Hy). lia. }
      assert (HE' : exists eg, end_gap (A ++ M ++ B) (iend q) = Val eg /\
        forall g, eg = Some g -> lo g <= hi q <= hi g).
      { destruct HE as [(_ & g & Eg & _ & Hg)|(M' & y & _ & HE)];
          [exists (Some g); split; [exact Eg|]; intros g' [= <-]; exact Hg|].
        destruct (hi q <=? ehi y); [exists None; split; [exact HE|discriminate]|].
        destruct HE as (g & Eg & _ & Hg). exists (Some g). split; [exact Eg|]. intros g' [= <-]. exact Hg. }
      clear HS HE. destruct HS' as (sg & -> & Hs & Hn). destruct HE' as (eg & -> & He). cbn [obind].
      exists M.
      assert (T : forall i, lo i <= hi i -> tf i = Val (ifrom i)) by (intros i L; apply Ht, valid_rk, L).
      assert (Vv : forall i : Interval I, lo i <= hi i -> valid i) by (intros i L; apply valid_rk, L).
      destruct sg as [sg|]; [destruct (Hs sg eq_refl) as [Bs Ls]|]; (destruct eg as [eg|]; [specialize (He eg eq_refl)|]);
        unfold lo, hi in *; cbn [istart iend Interval_InclusiveInterval] in *.
      - destruct (eqb (ivl_start sg) (ivl_start eg));
        cbn [obind try_from_opt option_map opt_list app omap]; rewrite !T by (cbn; lia); cbn [omap obind].
        + exists [sg], [], [mkInterval (istart q) (iend q)], []. split; [reflexivity|]. split; [exact WM|]. split; [exact HSub|].
          do 4 (split; [repeat constructor; apply Vv; cbn; lia|]). repeat (split; [reflexivity|]). split; [discriminate|]. intros g _. exact Ls.
        + exists [sg], [eg], [mkInterval (istart q) (ivl_end sg)], [mkInterval (ivl_start eg) (iend q)].
          split; [reflexivity|]. split; [exact WM|]. split; [exact HSub|].
          do 4 (split; [repeat constructor; apply Vv; cbn; lia|]). repeat (split; [reflexivity|]). split; [discriminate|]. intros g _. exact Ls.
      - cbn [obind try_from_opt option_map opt_list app omap]; rewrite !T by (cbn; lia); cbn [omap obind].
        exists [sg], [], [mkInterval (istart q) (ivl_end sg)], []. split; [reflexivity|]. split; [exact WM|]. split; [exact HSub|].
        do 4 (split; [repeat constructor; apply Vv; cbn; lia|]). repeat (split; [reflexivity|]). split; [discriminate|]. intros g _. exact Ls.
      - cbn [obind try_from_opt option_map opt_list app omap]; rewrite !T by (cbn; lia); cbn [omap obind].
        exists [], [eg], [], [mkInterval (ivl_start eg) (iend q)]. split; [reflexivity|]. split; [exact WM|]. split; [exact HSub|].
        do 4 (split; [repeat constructor; apply Vv; cbn; lia|]). repeat (split; [reflexivity|]). split; [intros _; apply Hn; reflexivity|]. intros g [].
      - cbn [obind try_from_opt option_map opt_list app omap].
        exists [], [], [], []. split; [reflexivity|]. split; [exact WM|]. split; [exact HSub|].
        do 4 (split; [constructor|]). repeat (split; [reflexivity|]). split; [intros _; apply Hn; reflexivity|]. intros g [].
    Qed.

    Lemma asc_from (l : list (Interval I)) : Forall valid l -> ascending l -> ascending (map (fun i => ifrom i : K) l).
    Proof.
      intros Fv S. induction S as [|a l S IH F]; [constructor|]. apply Forall_cons_iff in Fv. destruct Fv as [Va Fv].
      cbn [map]. constructor; [apply IH, Fv|]. apply Forall_forall. intros k Hk. apply in_map_iff in Hk. destruct Hk as (b & <- & Hb).
      rewrite Forall_forall in F, Fv. specialize (F b Hb). pose proof (Fv b Hb) as Vb. apply valid_rk in Va as La, Vb as Lb.
      apply before_rk in F; [|assumption..]. apply before_rk; rewrite ?from_lo, ?from_hi; assumption.
    Qed.
    Lemma max_run_points {X Y : Type} {IX : InclusiveInterval I X} {IY : InclusiveInterval I Y} (P : I -> Prop) (a : X) (b : Y) :
      same_points a b -> max_run P a -> max_run P b.
    Proof.
      intros S ((p & Hp) & F & C). split; [exists p; apply S, Hp|]. split.
      - intros x Hx. apply F, S, Hx.
      - intros j Hj (x & Hx & Hx') y Hy. apply S. apply (C j Hj); [|exact Hy]. exists x. split; [apply S, Hx|exact Hx'].
    Qed.
    Lemma runs_from (P P' : I -> Prop) (sel : Interval I -> Prop) (l : list (Interval I)) :
      (forall p, P p <-> P' p) -> (forall a b, same_points a b -> sel a -> sel b) ->
      lists_max_runs P sel l -> lists_max_runs P' sel (map (fun i => ifrom i : K) l).
    Proof.
      intros E Hsel (S & F & C).
      assert (Fv : Forall valid l) by (apply Forall_forall; intros g Hg; apply (F g Hg)).
      assert (Sp : forall i, In i l -> same_points i (ifrom i : K)).
      { intros i Hi. rewrite Forall_forall in Fv. specialize (Fv i Hi). apply valid_rk in Fv.
        apply same_points_rk; rewrite ?from_lo, ?from_hi; auto. }
      split; [apply asc_from; assumption|]. split.
      - intros g Hg. apply in_map_iff in Hg. destruct Hg as (i & <- & Hi). destruct (F i Hi) as [R Se]. split.
        + apply (max_run_iff P P' _ E). apply (max_run_points P i); [apply Sp, Hi|exact R].
        + apply (Hsel (mkInterval (istart i) (iend i))); [|exact Se]. intros p. exact (Sp i Hi p).
      - intros j Rj Sj. apply (max_run_iff P' P) in Rj; [|intros p; symmetry; apply E].
        destruct (C j Rj Sj) as (i & Hi & Si). exists (ifrom i). split; [apply in_map, Hi|].
        intros p. rewrite <- (Sp i Hi p). apply Si.
    Qed.
    Lemma Forall2_len {X Y : Type} (R : X -> Y -> Prop) (l : list X) (l' : list Y) : Forall2 R l l' -> length l = length l'.
    Proof. intros F. induction F; cbn; congruence. Qed.
    Lemma map_Val_inj {X : Type} (l l' : list X) : map Val l = map Val l' -> l = l'.
    Proof.
      revert l'. induction l as [|a l IH]; intros [|b l'] E; try discriminate; [reflexivity|].
      injection E as <- E. f_equal. apply IH, E.
    Qed.
    Lemma map_Val_app_inv {X : Type} (l : list X) (a b : list (outcome X)) : map Val l = a ++ b ->
      exists x y, l = x ++ y /\ a = map Val x /\ b = map Val y.
    Proof.
      revert l. induction a as [|o a IH]; intros l E; [exists [], l; auto|].
      destruct l as [|k l]; [discriminate|]. injection E as <- E. destruct (IH l E) as (x & y & -> & -> & ->). exists (k :: x), y. auto.
    Qed.

    (** Either kind of iterator: right exactly when the middle part is. *)
    Lemma exact_runs M (P P' : I -> Prop) (sel : Interval I -> Prop) s e gs gl0 :
      WF M -> (forall p, P p <-> P' p) -> (forall a b, same_points a b -> sel a -> sel b) ->
      inner_steps (V := V) Val (plain M) = map Val gs ->
      lists_max_runs P sel gl0 -> gl0 = s ++ gs ++ e ->
      ((exists gl, map (fun i => Val (ifrom i)) s ++ inner_steps tf M ++ map (fun i => Val (ifrom i)) e = map Val gl /\
          lists_max_runs P' sel gl) <-> harmless M).
    Proof.
      intros WM E Hsel Eg R ->. destruct (inner_exact M WM) as (gs' & Eg' & Vg & Hh & Hl).
      rewrite Eg in Eg'. apply map_Val_inj in Eg'. subst gs'. split.
      - intros (gl & El & Rl). pose proof (lists_unique _ _ _ _ _ E R Rl) as F2. apply Forall2_len in F2.
        symmetry in El. apply map_Val_app_inv in El. destruct El as (x & y & -> & Ex & El).
        apply (f_equal (@length _)) in Ex. rewrite !map_length in Ex.
        symmetry in El. apply map_Val_app_inv in El. destruct El as (y1 & y2 & -> & Ey & Ez).
        apply (f_equal (@length _)) in Ez. rewrite !map_length in Ez.
        rewrite !app_length in F2. destruct (Hl y1 Ey) as [H1 H2]. apply H2. lia.
      - intros Hm. exists (map (fun i => ifrom i) (s ++ gs ++ e)). split.
        + rewrite (Hh Hm), !map_app, !map_map. reflexivity.
        + apply (runs_from P); assumption.
    Qed.
  End From.

  Lemma inner_steps_ext (f g : Interval I -> outcome K) M : (forall i, f i = g i) -> inner_steps f M = inner_steps g M.
  Proof.
    intros E. induction M as [|x [|y r] IH]; [reflexivity..|].
    change (inner_steps f (x :: y :: r)) with
      (match (let? u := unwrap (up (iend (fst x))) in let? d := unwrap (down (istart (fst y))) in f (mkInterval u d)) with
       | Panic => [Panic] | Val k => if is_valid k then Val k :: inner_steps f (y :: r) else inner_steps f (y :: r) end).
    change (inner_steps g (x :: y :: r)) with
      (match (let? u := unwrap (up (iend (fst x))) in let? d := unwrap (down (istart (fst y))) in g (mkInterval u d)) with
       | Panic => [Panic] | Val k => if is_valid k then Val k :: inner_steps g (y :: r) else inner_steps g (y :: r) end).
    rewrite IH. destruct (up (iend (fst x))); cbn [unwrap obind]; [|reflexivity].
    destruct (down (istart (fst y))); cbn [unwrap obind]; [|reflexivity]. rewrite E. reflexivity.
  Qed.
  Lemma lazy_ext (f g : Interval I -> outcome K) m q : (forall i, f i = g i) ->
    gaps_untrimmed_lazy f m q = gaps_untrimmed_lazy g m q /\ gaps_trimmed_lazy f m q = gaps_trimmed_lazy g m q.
  Proof.
    intros E. assert (T : forall o, try_from_opt f o = try_from_opt g o).
    { intros [i|]; cbn; [rewrite E|]; reflexivity. }
    unfold gaps_untrimmed_lazy, gaps_trimmed_lazy.
    destruct (invalid_interval_panic q); cbn [obind]; [|auto]. destruct (end_gap m (istart q)) as [o|]; cbn [obind]; [|auto].
    destruct (end_gap m (iend q)) as [o'|]; cbn [obind]; [|auto].
    destruct (overlapping m q) as [M|]; cbn [obind].
    - rewrite (inner_steps_ext f g M E).
      split; (destruct o as [i|], o' as [j|]; [destruct (eqb (ivl_start i) (ivl_start j))|..]); rewrite !T; reflexivity.
    - split; (destruct o as [i|], o' as [j|]; [destruct (eqb (ivl_start i) (ivl_start j))|..]); reflexivity.
  Qed.
End Exact.
