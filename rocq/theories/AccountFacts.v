(** * AccountFacts: what becomes of the values a caller hands in. *)
From Coq Require Import List ZArith Bool Lia ZifyBool Sorting.Sorted Permutation.
From Verif Require Import Base BTree UtilsModel IntervalModel NoditModel NoditOps ZosditModel ZosditOps Spec Ledger
  PointFacts IntervalFacts ListFacts NoditFacts NoditQueries NoditGaps NoditMutations NoditMerges NoditInv NoditMore NoditSim
  ZosditFacts ZosditMut ZosditProofs.
Import ListNotations.
Open Scope Z_scope.

Section Accounts.
  Context {I : Type} `{PL : PointLaws I}.
  Context {K : Type} {IK : InclusiveInterval I K} {IL : IntervalLaws I K}.
  Context {V : Type}.
  Notation entry := (K * V)%type.
  Implicit Types (m : NoditMap K V) (z : ZosditMap K V).

  Lemma sub_permutation {T} (P : T -> Prop) (l a b : list T) :
    sub P l a -> sub (fun x => ~ P x) l b -> Permutation l (a ++ b).
  Proof.
    intros Ha. revert b. induction Ha as [|x l l' Hx Ha IH|x l l' Hx Ha IH]; intros b Hb.
    - inversion Hb; subst. reflexivity.
    - inversion Hb as [|? ? ? Nx Hb'|? ? ? Nx Hb']; subst; [contradiction|].
      cbn [app]. apply perm_skip, IH, Hb'.
    - inversion Hb as [|? ? ? Nx Hb'|? ? ? Nx Hb']; subst; [|contradiction].
      rewrite <- Permutation_middle. apply perm_skip, IH, Hb'.
  Qed.

  Lemma play_conserves (ms : list (move I K V)) : forall m, WF m -> Forall gives_valid ms ->
    Permutation (given ms ++ map snd m) (map snd (fst (play ms m)) ++ snd (play ms m)).
  Proof.
    induction ms as [|x ms IH]; intros m W HV; [cbn; rewrite app_nil_r; reflexivity|].
    inversion HV as [|? ? Hx HV']; subst. destruct x as [k v|Q IQ q]; cbn [play given flat_map gives_valid] in *.
    - fold (given ms). destruct (overlap_dec m k W Hx) as [Ho|Hn].
      + rewrite (insert_strict_refused m k v W Hx Ho). specialize (IH m W HV').
        destruct (play ms m) as [m' back]. cbn [fst snd] in *. cbn [app].
        rewrite <- Permutation_middle. apply perm_skip, IH.
      + destruct (insert_strict_done m k v W Hx Hn) as (m1 & m2 & -> & -> & W'). specialize (IH _ W' HV').
        destruct (play ms (m1 ++ (k, v) :: m2)) as [m' back]. cbn [fst snd] in *. rewrite <- IH.
        cbn [app]. rewrite !map_app. cbn [map snd]. rewrite Permutation_middle.
        apply Permutation_app_head. apply Permutation_middle.
    - fold (given ms). cbn [app]. destruct (valid_dec q) as [Vq|Nq].
      + destruct (remove_overlapping_spec m q W Vq) as (m' & o & -> & S1 & S2 & W').
        specialize (IH m' W' HV'). destruct (play ms m') as [m2 back]. cbn [fst snd] in *.
        rewrite Permutation_app_swap_app, <- IH.
        rewrite Permutation_app_swap_app. apply Permutation_app_head. rewrite <- map_app.
        apply Permutation_map, (sub_permutation _ _ _ _ S1 S2).
      + rewrite remove_overlapping_invalid by exact Nq. specialize (IH m W HV').
        destruct (play ms m) as [m' back]. cbn [fst snd] in *. exact IH.
  Qed.

  Lemma zplay_conserves (ms : list (zmove I K V)) : forall z, ZWF z -> Forall zgives_valid ms ->
    Permutation (zgiven ms ++ map snd (zosdit_iter z)) (map snd (zosdit_iter (fst (zplay ms z))) ++ snd (zplay ms z)).
  Proof.
    induction ms as [|x ms IH]; intros z W HV; [cbn; rewrite app_nil_r; reflexivity|].
    inversion HV as [|? ? Hx HV']; subst. destruct x as [k v|p]; cbn [zplay zgiven flat_map zgives_valid] in *.
    - fold (zgiven ms). destruct (insert_back_spec z k v W Hx) as [X1 X2].
      assert (D : (forall e, In e (zosdit_iter z) -> zero_overlap (fst e) k) \/
        ~ (forall e, In e (zosdit_iter z) -> zero_overlap (fst e) k)).
      { destruct (zero_overlap_decides k z W Hx) as (b & _ & Hb). destruct b; [left|right]; rewrite <- Hb; auto. }
      destruct D as [D|D].
      + destruct (X2 D) as (z' & l1 & k' & l2 & E & _ & E1 & E2 & _). rewrite E.
        assert (W' : ZWF z'). { pose proof (zstep_ZWF z (ZInsertStrictBack k v) W) as W'. cbn [zstep] in W'. rewrite E in W'. exact W'. }
        specialize (IH _ W' HV'). destruct (zplay ms z') as [z2 back]. cbn [fst snd] in *. rewrite <- IH.
        rewrite E1, E2, !map_app. cbn [app map snd]. rewrite Permutation_middle. apply Permutation_app_head, Permutation_middle.
      + rewrite (X1 D). specialize (IH z W HV').
        destruct (zplay ms z) as [z2 back]. cbn [fst snd] in *. cbn [app].
        rewrite <- Permutation_middle. apply perm_skip, IH.
    - fold (zgiven ms). cbn [app].
      destruct (remove_last_cases z p W) as [(l1 & l2 & k & v & z' & E & E' & E1 & E2 & Hk & H2 & _)|(E & E' & _)].
      + rewrite E'. assert (W' : ZWF z'). { pose proof (zstep_ZWF z (ZRemoveLast p) W) as W'. cbn [zstep] in W'. rewrite E' in W'. exact W'. }
        specialize (IH _ W' HV'). destruct (zplay ms z') as [z2 back]. cbn [fst snd] in *.
        unfold zosdit_iter in *. rewrite <- Permutation_middle, <- IH, E1, E2, !map_app. cbn [map snd].
        rewrite <- !Permutation_middle. reflexivity.
      + rewrite E'. specialize (IH z W HV'). destruct (zplay ms z) as [z2 back]. cbn [fst snd] in *. exact IH.
  Qed.

  (** ** The values at a point *)
  Definition vals (l : list entry) (p : I) : list V := map snd (filter (fun e => contains_point (fst e) p) l).

  Lemma sub_filter {T} (P : T -> Prop) (f : T -> bool) (l : list T) : (forall x, f x = true <-> P x) -> sub P l (filter f l).
  Proof.
    intros Hf. induction l as [|x l IH]; cbn [filter]; [constructor|]. destruct (f x) eqn:E.
    - apply sub_keep; [apply Hf, E|exact IH].
    - apply sub_drop; [rewrite <- Hf, E; discriminate|exact IH].
  Qed.

  Lemma values_at_vals l p vs : values_at l p vs <-> vs = vals l p.
  Proof.
    assert (S : sub (fun e : entry => covers (fst e) p) l (filter (fun e => contains_point (fst e) p) l))
      by (apply sub_filter; intros x; apply contains_point_true).
    split.
    - intros (o & Ho & ->). rewrite (sub_unique _ _ _ _ Ho S). reflexivity.
    - intros ->. eexists. split; [exact S|reflexivity].
  Qed.

  Lemma vals_app l l' p : vals (l ++ l') p = vals l p ++ vals l' p.
  Proof. unfold vals. rewrite filter_app, map_app. reflexivity. Qed.

  Lemma vals_none l p : (forall e, In e l -> ~ covers (fst e) p) -> vals l p = [].
  Proof.
    intros Hn. unfold vals. induction l as [|x l IH]; [reflexivity|]. cbn [filter].
    destruct (contains_point (fst x) p) eqn:E; [|apply IH; intros e He; apply Hn; right; exact He].
    apply contains_point_true in E. destruct (Hn x (or_introl eq_refl) E).
  Qed.

  Lemma vals_one l p x : ascending (map fst l) -> In x l -> covers (fst x) p -> vals l p = [snd x].
  Proof.
    unfold vals. induction l as [|a l IH]; intros HS Hi Hc; [destruct Hi|].
    inversion HS as [|? ? HS' Ha]; subst. cbn [filter]. rewrite Forall_forall in Ha.
    destruct (contains_point (fst a) p) eqn:E.
    - apply contains_point_true in E.
      assert (N : forall e, In e l -> ~ covers (fst e) p).
      { intros e He Hep. specialize (Ha (fst e) (in_map fst _ _ He) p p E Hep). apply plt_rk in Ha. lia. }
      cbn [map]. pose proof (vals_none l p N) as Z. unfold vals in Z. rewrite Z.
      destruct Hi as [->|Hi]; [reflexivity|]. destruct (N x Hi Hc).
    - destruct Hi as [->|Hi]; [|apply IH; assumption].
      exfalso. apply contains_point_true in Hc. congruence.
  Qed.

  Lemma vals_sub (P : entry -> Prop) l o p : sub P l o -> (forall e, covers (fst e) p -> P e) -> vals l p = vals o p.
  Proof.
    intros S HP. unfold vals. f_equal. induction S as [|x l o Hx S IH|x l o Hx S IH]; [reflexivity| |]; cbn [filter].
    - rewrite IH. reflexivity.
    - destruct (contains_point (fst x) p) eqn:E; [|exact IH]. apply contains_point_true in E. destruct (Hx (HP x E)).
  Qed.

  Lemma leaves_vals {Q} {IQ : InclusiveInterval I Q} (q : Q) (e : entry) l p : valid q -> leaves q e l -> ~ covers q p ->
    vals l p = vals [e] p.
  Proof.
    intros Vq ((Ha & H1 & H2) & Hv & _) Nq. apply valid_rk in Vq. destruct e as [k v]. cbn [fst snd] in *.
    unfold vals at 2. cbn [filter fst map]. destruct (contains_point k p) eqn:E.
    - apply contains_point_true in E. cbn [map snd]. pose proof E as Ek. apply covers_rk in E.
      assert (J : exists j : Interval I, max_run (fun p => covers k p /\ ~ covers q p) j /\ covers j p).
      { rewrite covers_rk in Nq. destruct (Z_lt_le_dec (rk p) (lo q)) as [L|L].
        - destruct (Z_lt_le_dec (hi k) (lo q)) as [L'|L'].
          + exists (mkInterval (istart k) (iend k)). split.
            * apply max_run_intro'; [unfold lo, hi in *; cbn; lia| |];
                intros x; rewrite !covers_rk; unfold lo, hi in *; cbn; lia.
            * apply covers_rk. unfold lo, hi in *. cbn. lia.
          + destruct (down_exists (istart q) p) as (d & Ed & Hd); [unfold lo in L; lia|].
            exists (mkInterval (istart k) d). split.
            * apply max_run_intro'; [unfold lo, hi in *; cbn; lia| |];
                intros x; rewrite !covers_rk; unfold lo, hi in *; cbn; lia.
            * apply covers_rk. unfold lo, hi in *. cbn. lia.
        - destruct (Z_lt_le_dec (hi q) (lo k)) as [L'|L'].
          + exists (mkInterval (istart k) (iend k)). split.
            * apply max_run_intro'; [unfold lo, hi in *; cbn; lia| |];
                intros x; rewrite !covers_rk; unfold lo, hi in *; cbn; lia.
            * apply covers_rk. unfold lo, hi in *. cbn. lia.
          + destruct (up_exists (iend q) p) as (u & Eu & Hu); [unfold hi in *; lia|].
            exists (mkInterval u (iend k)). split.
            * apply max_run_intro'; [unfold lo, hi in *; cbn; lia| |];
                intros x; rewrite !covers_rk; unfold lo, hi in *; cbn; lia.
            * apply covers_rk. unfold lo, hi in *. cbn. lia. }
      destruct J as (j & Hj & Jp). destruct (H2 j Hj Logic.I) as (g & Hg & Sg).
      apply in_map_iff in Hg. destruct Hg as (x & <- & Hx). rewrite <- (Hv x Hx).
      apply vals_one; [exact Ha|exact Hx|]. apply Sg, Jp.
    - apply vals_none. intros e He C. destruct (H1 (fst e) (in_map fst _ _ He)) as [(_ & Hr & _) _].
      destruct (Hr p C) as [Hk _]. apply contains_point_true in Hk. congruence.
  Qed.

  Lemma zcut_conserves {Q} {IQ : InclusiveInterval I Q} z (q : Q) : ZWF z -> valid q ->
    exists z' out, zosdit_cut q z = (z', Val out) /\
      forall p, vals (zosdit_iter z) p = vals out p ++ vals (zosdit_iter z') p /\
        (covers q p -> vals out p = [] \/ vals (zosdit_iter z') p = []) /\ (~ covers q p -> vals out p = []).
  Proof.
    intros W Vq. assert (D : cuttable z q \/ ~ cuttable z q).
    { apply cuttable_dec. }
    destruct D as [D|D].
    - destruct (cut_done z q W Vq D) as (z' & out & E & W' & (o & Ho & Fo) & (ls & Fl & El) & Hn & _).
      exists z', out. split; [exact E|]. intros p.
      assert (Out : vals out p = if contains_point q p then vals o p else []).
      { clear - Fo PL. induction Fo as [|e x o out [Ev Hc] Fo IH]; [destruct (contains_point q p); reflexivity|].
        change (e :: o) with ([e] ++ o). change (x :: out) with ([x] ++ out). rewrite !vals_app, IH.
        assert (X : contains_point (fst x) p = contains_point (fst e) p && contains_point q p).
        { apply eq_true_iff_eq. rewrite andb_true_iff, !contains_point_true. apply Hc. }
        unfold vals at 1 3. cbn [filter]. rewrite X. destruct (contains_point q p).
        - rewrite andb_true_r. destruct (contains_point (fst e) p); cbn; congruence.
        - rewrite andb_false_r. reflexivity. }
      destruct (contains_point q p) eqn:Eq.
      + apply contains_point_true in Eq.
        assert (Z : vals (zosdit_iter z') p = []).
        { apply vals_none. rewrite Forall_forall in Hn. intros e He C. apply (Hn e He).
          apply covers_rk in C. apply covers_rk in Eq. unfold meets, elo, ehi in *. lia. }
        rewrite Z, Out, app_nil_r. split; [|split; [auto|contradiction]].
        apply (vals_sub (fun e => overlap (fst e) q)); [exact Ho|]. intros e Ce. exists p. split; assumption.
      + assert (Nq : ~ covers q p) by (rewrite <- contains_point_true, Eq; discriminate).
        rewrite Out. cbn [app]. split; [|split; [contradiction|auto]].
        rewrite El. clear - Fl Vq Nq PL. induction Fl as [|e l le ls He Fl IH]; [reflexivity|].
        cbn [concat]. change (e :: le) with ([e] ++ le). rewrite !vals_app, IH, (leaves_vals q e l p Vq He Nq). reflexivity.
    - exists z, []. split; [apply cut_not_done; assumption|]. intros p. cbn. auto.
  Qed.
End Accounts.
