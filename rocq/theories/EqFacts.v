(** * EqFacts: equality of containers; maps that are canonical in their values. *)
From Coq Require Import List ZArith Bool Lia ZifyBool Sorting.Sorted Permutation.
From Verif Require Import Base BTree UtilsModel IntervalModel NoditModel NoditSetModel NoditOps NoditSetOps ZosditModel ZosditOps EqModel Spec
  PointFacts IntervalFacts ListFacts NoditFacts NoditQueries NoditGaps NoditMutations NoditMerges NoditInv NoditMore NoditSim
  NoditSetFacts NoditSetProofs ZosditFacts ZosditMut ZosditProofs.
Import ListNotations.
Open Scope Z_scope.

Lemma bt_eqb_F2 {K V} (keq : K -> K -> bool) (veq : V -> V -> bool) a : forall b,
  bt_eqb keq veq a b = true <-> Forall2 (fun x y => keq (fst x) (fst y) = true /\ veq (snd x) (snd y) = true) a b.
Proof.
  unfold bt_eqb. induction a as [|x a IH]; intros [|y b]; cbn [length Nat.eqb combine forallb andb fst snd].
  - split; constructor.
  - split; [discriminate|intros F; inversion F].
  - split; [discriminate|intros F; inversion F].
  - specialize (IH b). rewrite !andb_true_iff in *. split.
    + intros (L & (A & B) & C). constructor; [auto|]. apply IH; auto.
    + intros F. inversion F as [|? ? ? ? [A B] F']; subst. apply IH in F' as [L C]. auto.
Qed.
Lemma vec_eqb_eq {V} (veq : V -> V -> bool) (Hv : forall x y, veq x y = true <-> x = y) a : forall b,
  vec_eqb veq a b = true <-> a = b.
Proof.
  induction a as [|x a IH]; intros [|y b]; cbn; [split; reflexivity|split; discriminate..|].
  rewrite andb_true_iff, Hv, IH. split; [intros [-> ->]; reflexivity|intros E; injection E; auto].
Qed.
Lemma F2_eq {T} (R : T -> T -> Prop) l l' : (forall x y, R x y <-> x = y) -> (Forall2 R l l' <-> l = l').
Proof.
  intros HR. split.
  - induction 1 as [|x y l l' E F IH]; [reflexivity|]. apply HR in E. congruence.
  - intros <-. induction l as [|x l IH]; constructor; [apply HR; reflexivity|exact IH].
Qed.
Lemma bt_eqb_eq {K V} (keq : K -> K -> bool) (veq : V -> V -> bool) a b :
  (forall x y, keq x y = true <-> x = y) -> (forall x y, veq x y = true <-> x = y) ->
  (bt_eqb keq veq a b = true <-> a = b).
Proof.
  intros Hk Hv. rewrite bt_eqb_F2. apply F2_eq. intros [k v] [k' v']. cbn. rewrite Hk, Hv.
  split; [intros [-> ->]; reflexivity|intros E; injection E; auto].
Qed.

Section Canon.
  Context {I : Type} `{PL : PointLaws I}.
  Context {K : Type} {IK : InclusiveInterval I K} {IL : IntervalLaws I K}.
  Context {V : Type}.
  Notation entry := (K * V)%type.
  Implicit Types (m : NoditMap K V).

  (** ** Entries that merge by value *)
  Definition vcanon m : Prop :=
    forall k v k' v', In (k, v) m -> In (k', v') m -> hi k + 1 = lo k' -> v <> v'.

  Lemma vcanon_max_run m k v : WF m -> vcanon m -> In (k, v) m -> max_run (fun p => maps_to m p v) k.
  Proof.
    intros W C Hi. pose proof (WF_okv _ _ W Hi) as Vk. unfold elo, ehi in Vk. cbn in Vk.
    apply max_run_intro'; [exact Vk|intros p Hp; exists k; auto|].
    intros p Hp (k' & Hi' & Hc). apply covers_rk in Hc as Hc'.
    assert (NE : k <> k') by (intros ->; lia).
    assert (No : ~ overlap k k').
    { intros (z & Z1 & Z2). apply NE. pose proof (covers_unique m z k v k' v W Hi Hi' Z1 Z2) as E. injection E; auto. }
    pose proof (WF_okv _ _ W Hi') as Vk'. unfold elo, ehi in Vk'. cbn in Vk'.
    rewrite overlap_rk in No. destruct Hp as [Hp|Hp].
    - apply (C k' v k v Hi' Hi); [lia|reflexivity].
    - apply (C k v k' v Hi Hi'); [lia|reflexivity].
  Qed.

  Definition same_entry (e e' : entry) : Prop := same_points (fst e) (fst e') /\ snd e = snd e'.

  Lemma vcanon_sim m m' : WF m -> WF m' -> vcanon m -> vcanon m' -> same_map m m' ->
    forall e, In e m -> exists e', In e' m' /\ same_entry e e'.
  Proof.
    intros W W' C C' S [k v] Hi. pose proof (vcanon_max_run m k v W C Hi) as R. pose proof R as ((p & Hp) & Pk & _).
    pose proof (Pk p Hp) as Mp. apply S in Mp. destruct Mp as (k' & Hi' & Hc').
    pose proof (vcanon_max_run m' k' v W' C' Hi') as R'.
    assert (R2 : max_run (fun p => maps_to m p v) k').
    { destruct R' as (V' & P' & M'). split; [exact V'|]. split; [intros x Hx; apply S, P', Hx|].
      intros j Hj Ho. apply M'; [|exact Ho]. intros x Hx. apply S, Hj, Hx. }
    exists (k', v). split; [exact Hi'|]. split; [|reflexivity]. exact (max_run_same _ k k' p R R2 Hp Hc').
  Qed.

  Lemma sim_F2 m : forall m', WF m -> WF m' -> (forall e, In e m -> exists e', In e' m' /\ same_entry e e') ->
    (forall e', In e' m' -> exists e, In e m /\ same_entry e e') -> Forall2 same_entry m m'.
  Proof.
    induction m as [|a m IH]; intros [|b m'] W W' S S'.
    - constructor.
    - destruct (S' b (or_introl eq_refl)) as (e & [] & _).
    - destruct (S a (or_introl eq_refl)) as (e & [] & _).
    - pose proof W as W0. pose proof W' as W0'.
      apply WF_cons in W as (Va & W & Ha). apply WF_cons in W' as (Vb & W' & Hb). rewrite Forall_forall in Ha, Hb.
      assert (Rk : forall x y, In x (a :: m) -> In y (b :: m') -> same_entry x y -> elo x = elo y /\ ehi x = ehi y /\ elo x <= ehi x).
      { intros x y Hx Hy [Sp _]. apply same_points_rk in Sp; [|apply (WF_okv _ _ W0 Hx)|apply (WF_okv _ _ W0' Hy)].
        pose proof (WF_okv _ _ W0 Hx). unfold elo, ehi in *. lia. }
      assert (Hab : same_entry a b).
      { destruct (S a (or_introl eq_refl)) as (y & [->|Hy] & Sy); [exact Sy|].
        destruct (S' b (or_introl eq_refl)) as (x & [<-|Hx] & Sx); [exact Sx|exfalso].
        pose proof (Rk _ _ (or_introl eq_refl) (or_intror Hy) Sy). pose proof (Rk _ _ (or_intror Hx) (or_introl eq_refl) Sx).
        specialize (Ha x Hx). specialize (Hb y Hy). lia. }
      constructor; [exact Hab|]. pose proof (Rk a b (or_introl eq_refl) (or_introl eq_refl) Hab) as Eab. apply IH; [assumption..| |].
      + intros e He. destruct (S e (or_intror He)) as (y & [<-|Hy] & Sy); [exfalso|exists y; auto].
        pose proof (Rk e b (or_intror He) (or_introl eq_refl) Sy). specialize (Ha e He). lia.
      + intros e He. destruct (S' e (or_intror He)) as (x & [<-|Hx] & Sx); [exfalso|exists x; auto].
        pose proof (Rk a e (or_introl eq_refl) (or_intror He) Sx). specialize (Hb e He). lia.
  Qed.

  Lemma vcanon_ext m m' : WF m -> WF m' -> vcanon m -> vcanon m' -> same_map m m' -> Forall2 same_entry m m'.
  Proof.
    intros W W' C C' S. apply sim_F2; [assumption..|apply vcanon_sim; assumption|].
    intros e He. destruct (vcanon_sim m' m W' W C' C) with (e := e) as (x & Hx & A & B); [intros p v; symmetry; apply S|exact He|].
    exists x. split; [exact Hx|]. split; [intros p; symmetry; apply A|auto].
  Qed.

  Context (veq : V -> V -> bool) (Hveq : forall x y, veq x y = true <-> x = y).

  Lemma vmerge_vcanon m k v m' r : WF m -> valid k -> (forall k' v', In (k', v') m -> ~ overlap k' k) -> vcanon m -> WF m' ->
    absorbs (fun e => touch (fst e) k /\ veq (snd e) v = true) k v m m' r -> vcanon m'.
  Proof.
    intros W Vk Hn C W' (Hr & (l1 & l2 & HS & E) & _). subst m'.
    assert (Old : forall e, In e (l1 ++ l2) -> In e m /\ ~ (touch (fst e) k /\ veq (snd e) v = true)).
    { intros e He. apply (sub_in _ _ _ HS). exact He. }
    pose proof Vk as Vk'. apply valid_rk in Vk'.
    assert (Vr : lo r <= hi r). { apply (WF_okv _ (r, v) W'). apply in_app_iff. right. left. reflexivity. }
    assert (Kr : lo r <= lo k /\ hi k <= hi r).
    { assert (A : covers r (istart k)) by (apply Hr; left; apply covers_rk; unfold lo, hi in *; lia).
      assert (B : covers r (iend k)) by (apply Hr; left; apply covers_rk; unfold lo, hi in *; lia).
      rewrite covers_rk in A, B. unfold lo, hi in *. lia. }
    (* a neighbour of [r] with the value [v] would have been absorbed *)
    assert (Key : forall e, In e (l1 ++ l2) -> snd e = v -> ehi e + 1 = lo r \/ hi r + 1 = elo e -> False).
    { intros [k' v'] He Ev Ht. cbn in Ev. subst v'. destruct (Old _ He) as [Hm Nm]. cbn [fst snd] in Nm.
      pose proof (WF_okv _ _ W Hm) as V1. unfold elo, ehi in *. cbn [fst snd] in *.
      destruct Ht as [Ht|Ht].
      - assert (A : covers r (istart r)) by (apply covers_rk; unfold lo, hi in *; lia).
        apply Hr in A. destruct A as [A|([k2 v2] & H2 & (T2 & E2) & A)].
        + apply Nm. split; [|apply Hveq; reflexivity]. apply touch_rk; [exact V1|exact Vk'|]. apply covers_rk in A. unfold lo, hi in *. lia.
        + cbn [fst snd] in *. apply Hveq in E2. subst v2. apply covers_rk in A.
          pose proof (WF_okv _ _ W H2) as V2. unfold elo, ehi in V2. cbn in V2.
          assert (R2 : covers r (istart k2)) by (apply Hr; right; exists (k2, v); cbn; rewrite Hveq; split; [exact H2|]; split; [auto|]; apply covers_rk; unfold lo, hi in *; lia).
          apply covers_rk in R2. apply (C k' v k2 v Hm H2); [unfold lo, hi in *; lia|reflexivity].
      - assert (A : covers r (iend r)) by (apply covers_rk; unfold lo, hi in *; lia).
        apply Hr in A. destruct A as [A|([k2 v2] & H2 & (T2 & E2) & A)].
        + apply Nm. split; [|apply Hveq; reflexivity]. apply touch_rk; [exact V1|exact Vk'|]. apply covers_rk in A. unfold lo, hi in *. lia.
        + cbn [fst snd] in *. apply Hveq in E2. subst v2. apply covers_rk in A.
          pose proof (WF_okv _ _ W H2) as V2. unfold elo, ehi in V2. cbn in V2.
          assert (R2 : covers r (iend k2)) by (apply Hr; right; exists (k2, v); cbn; rewrite Hveq; split; [exact H2|]; split; [auto|]; apply covers_rk; unfold lo, hi in *; lia).
          apply covers_rk in R2. apply (C k2 v k' v H2 Hm); [unfold lo, hi in *; lia|reflexivity]. }
    assert (Cases : forall e, In e (l1 ++ (r, v) :: l2) -> e = (r, v) \/ In e (l1 ++ l2)).
    { intros e He. rewrite !in_app_iff in *. destruct He as [He|[<-|He]]; auto. }
    intros k1 v1 k2 v2 H1 H2 T E. subst v2.
    destruct (Cases _ H1) as [E1|O1], (Cases _ H2) as [E2|O2].
    - injection E1 as -> ->. injection E2 as ->. lia.
    - injection E1 as -> ->. apply (Key _ O2); [reflexivity|right; exact T].
    - injection E2 as -> ->. apply (Key _ O1); [reflexivity|left; exact T].
    - apply (C k1 v1 k2 v1); [apply Old; assumption..|exact T|reflexivity].
  Qed.

  Lemma vcut_vcanon {Q} {IQ : InclusiveInterval I Q} m (q : Q) : WF m -> valid q -> vcanon m -> vcanon (fst (cut q m)).
  Proof.
    intros W Vq C. destruct (cut_entries m q W Vq) as (m' & out & -> & W' & _ & Hp & _). cbn [fst].
    intros k1 v1 k2 v2 H1 H2 T E. subst v2.
    pose proof (WF_okv _ _ W' H1) as V1. pose proof (WF_okv _ _ W' H2) as V2. unfold elo, ehi in V1, V2. cbn in V1, V2.
    destruct (Hp _ _ H1) as (a & Ha & _ & Ra). destruct (Hp _ _ H2) as (b & Hb & _ & Rb).
    pose proof (WF_okv _ _ W Ha) as Va. pose proof (WF_okv _ _ W Hb) as Vb. unfold elo, ehi in Va, Vb. cbn in Va, Vb.
    pose proof Ra as (_ & Pa & Ma). pose proof Rb as (_ & Pb & Mb).
    assert (A1 : covers k1 (iend k1)) by (apply covers_rk; unfold lo, hi in *; lia).
    assert (A2 : covers k2 (istart k2)) by (apply covers_rk; unfold lo, hi in *; lia).
    destruct (Pa _ A1) as [Qa Na]. destruct (Pb _ A2) as [Qb Nb].
    assert (Dec : a = b \/ ~ overlap a b).
    { destruct (Z_le_gt_dec (Z.max (lo a) (lo b)) (Z.min (hi a) (hi b))) as [L|L].
      - left. assert (O : overlap a b) by (apply overlap_rk; lia). destruct O as (z & Z1 & Z2).
        pose proof (covers_unique m z a v1 b v1 W Ha Hb Z1 Z2) as E. injection E; auto.
      - right. rewrite overlap_rk. lia. }
    destruct Dec as [<-|No].
    - specialize (Ma (mkInterval (iend k1) (istart k2))).
      assert (X : covers k1 (istart k2)).
      { apply Ma.
        - intros p Hc. apply covers_rk in Hc. unfold lo, hi in Hc. cbn in Hc.
          rewrite covers_rk in Qa, Qb. rewrite covers_rk in Na. rewrite covers_rk in Nb. rewrite !covers_rk.
          assert (rk p = rk (iend k1) \/ rk p = rk (istart k2)) as [P|P] by (unfold lo, hi in *; lia); rewrite P; auto.
        - exists (iend k1). split; [exact A1|]. apply covers_rk. unfold lo, hi in *. cbn. lia.
        - apply covers_rk. unfold lo, hi in *. cbn. lia. }
      apply covers_rk in X. unfold lo, hi in *. lia.
    - rewrite overlap_rk in No. rewrite covers_rk in Qa, Qb.
      apply (C a v1 b v1 Ha Hb); [unfold lo, hi in *; lia|reflexivity].
  Qed.

  Lemma vstep_vcanon m (o : op I K V) : value_merging veq o -> WF m -> vcanon m -> vcanon (step m o).
  Proof.
    intros Ho W C. destruct o as [|k v|k v|veq' k v|k v|k v|k v|Q IQ q|Q IQ q|Q IQ f q|f p|f|l|l]; cbn [step value_merging] in *; try contradiction.
    - intros k v k' v' [].
    - subst veq'. destruct (valid_dec k) as [Vk|Nk]; [|rewrite insert_merge_touching_if_equal_invalid by exact Nk; exact C].
      destruct (overlap_dec m k W Vk) as [Hov|Hn].
      + rewrite (insert_merge_touching_if_equal_refused veq m k v W Vk Hov). exact C.
      + destruct (insert_merge_touching_if_equal_done veq m k v W Vk Hn) as (m' & r & -> & W' & Ha). cbn [fst].
        exact (vmerge_vcanon m k v m' r W Vk Hn C W' Ha).
    - destruct (valid_dec q) as [Vq|Nq]; [|rewrite remove_overlapping_invalid by exact Nq; exact C].
      destruct (remove_overlapping_spec m q W Vq) as (m' & out & -> & _ & S & _). cbn [fst].
      intros k v k' v' H1 H2. apply (sub_in _ _ _ S) in H1, H2. apply C; [apply H1|apply H2].
    - destruct (valid_dec q) as [Vq|Nq]; [apply vcut_vcanon; assumption|rewrite NoditInv.cut_invalid by exact Nq; exact C].
  Qed.
  Lemma vrun_vcanon (os : list (op I K V)) : Forall (value_merging veq) os -> vcanon (run os).
  Proof.
    induction os as [|o os IH] using rev_ind; intros HF; [intros k v k' v' []|].
    apply Forall_app in HF as [HF Ho]. inversion_clear Ho. unfold run in *. rewrite fold_left_app. cbn [fold_left].
    apply vstep_vcanon; [assumption|apply fold_step_WF, WF_nil|apply IH, HF].
  Qed.

  Definition vinsert (e : entry) : op I K V := OpInsertMergeTouchingIfValuesEqual veq (fst e) (snd e).
  Lemma vinserts_maps (l : list entry) : disjoint_intervals (map fst l) ->
    forall p v, maps_to (run (map vinsert l)) p v <-> exists k, In (k, v) l /\ covers k p.
  Proof.
    induction l as [|[k v] l IH] using rev_ind; intros [HV HD].
    { intros p v. split; [intros (k & [] & _)|intros (k & [] & _)]. }
    rewrite map_app in HV, HD. apply Forall_app in HV as [HV Hk]. assert (Vk : valid k) by (inversion Hk; assumption). clear Hk. cbn [map fst] in *.
    assert (HD' : ForallOrdPairs (fun a b => ~ overlap a b) (map fst l) /\ forall k', In k' (map fst l) -> ~ overlap k' k).
    { clear - HD. induction (map fst l) as [|x r IHr]; [split; [constructor|intros ? []]|].
      cbn in HD. inversion HD as [|? ? Hx HD']; subst. destruct (IHr HD') as [A B]. apply Forall_app in Hx as [Hx Hk]. split.
      - constructor; assumption.
      - intros k' [<-|Hi]; [inversion_clear Hk; assumption|apply B, Hi]. }
    destruct HD' as [HD' Hn]. specialize (IH (conj HV HD')).
    assert (W : WF (run (map vinsert l))) by (apply fold_step_WF, WF_nil).
    unfold run in *. rewrite map_app, fold_left_app. cbn [map fold_left vinsert fst snd step].
    set (m := fold_left step (map vinsert l) new) in *.
    assert (Hm : forall k' v', In (k', v') m -> ~ overlap k' k).
    { intros k' v' Hi (z & Z1 & Z2). destruct (proj1 (IH z v')) as (k2 & Hi2 & Hc2); [exists k'; auto|].
      apply (Hn k2); [apply (in_map fst _ _ Hi2)|]. exists z. auto. }
    destruct (insert_merge_touching_if_equal_done veq m k v W Vk Hm) as (m' & r & -> & W' & Hr & (l1 & l2 & HS & ->) & _). cbn [fst].
    intros p w. split.
    - intros (k' & Hi & Hc). rewrite in_app_iff in Hi.
      assert (X : In (k', w) (l1 ++ l2) \/ (k', w) = (r, v)) by (rewrite in_app_iff; destruct Hi as [Hi|[Hi|Hi]]; auto).
      destruct X as [X|X].
      + apply (sub_in _ _ _ HS) in X. destruct X as [X _]. destruct (proj1 (IH p w)) as (k2 & Hi2 & Hc2); [exists k'; auto|].
        exists k2. rewrite in_app_iff. auto.
      + injection X as -> ->. apply Hr in Hc. destruct Hc as [Hc|([k2 v2] & H2 & (_ & E2) & Hc)].
        * exists k. rewrite in_app_iff. split; [right; left; reflexivity|exact Hc].
        * cbn [fst snd] in *. apply Hveq in E2. subst v2. destruct (proj1 (IH p v)) as (k3 & Hi3 & Hc3); [exists k2; auto|].
          exists k3. rewrite in_app_iff. auto.
    - intros (k' & Hi & Hc). rewrite in_app_iff in Hi. destruct Hi as [Hi|[Hi|[]]].
      + destruct (proj2 (IH p w)) as (k2 & Hi2 & Hc2); [exists k'; auto|].
        assert (D : touch k2 k /\ w = v \/ ~ (touch k2 k /\ veq w v = true)).
        { rewrite Hveq. destruct (veq w v) eqn:Ev.
          - apply Hveq in Ev. subst w. pose proof (WF_okv _ _ W Hi2) as V2. unfold elo, ehi in V2. cbn in V2. pose proof Vk as Vk'. apply valid_rk in Vk'.
            rewrite touch_rk by assumption.
            destruct (Z.eq_dec (hi k2 + 1) (lo k)), (Z.eq_dec (hi k + 1) (lo k2)); [left; auto..|right; lia].
          - right. intros [_ ->]. rewrite (proj2 (Hveq v v) eq_refl) in Ev. discriminate. }
        destruct D as [[T ->]|D].
        * exists r. rewrite in_app_iff. split; [right; left; reflexivity|]. apply Hr. right. exists (k2, v). cbn. rewrite Hveq. auto.
        * exists k2. split; [|exact Hc2]. assert (X : In (k2, w) (l1 ++ l2)) by (apply (sub_in _ _ _ HS); auto).
          rewrite in_app_iff in *. destruct X; cbn; auto.
      + injection Hi as -> ->. exists r. rewrite in_app_iff. split; [right; left; reflexivity|]. apply Hr. auto.
  Qed.
  Lemma vinserts_merging (l : list entry) : Forall (value_merging veq) (map vinsert l).
  Proof. apply Forall_map, Forall_forall. intros x _. reflexivity. Qed.

  Lemma run_WF (os : list (op I K V)) : WF (run os).
  Proof. apply fold_step_WF, WF_nil. Qed.

  Lemma F2_same_map m m' : Forall2 same_entry m m' -> same_map m m'.
  Proof.
    induction 1 as [|[k v] [k' v'] m m' [A B] F IH]; intros p w; [split; intros (x & [] & _)|].
    cbn in *. subst v'. split.
    - intros (x & [E|Hi] & Hc); [injection E as -> ->; exists k'; cbn; split; [auto|apply A, Hc]|].
      destruct (proj1 (IH p w)) as (y & Hy & Cy); [exists x; auto|]. exists y. cbn. auto.
    - intros (x & [E|Hi] & Hc); [injection E as -> ->; exists k; cbn; split; [auto|apply A, Hc]|].
      destruct (proj2 (IH p w)) as (y & Hy & Cy); [exists x; auto|]. exists y. cbn. auto.
  Qed.
End Canon.

Section ZosditEq.
  Context {I : Type} `{PL : PointLaws I}.
  Context {K : Type} {IK : InclusiveInterval I K} {IL : IntervalLaws I K}.
  Context {V : Type}.
  Implicit Types (z : ZosditMap K V).

  Lemma ZD_inner_unique z z' : ZWF z -> ZWF z' -> ZD (z_inner z) -> ZD (z_inner z') ->
    zosdit_iter z = zosdit_iter z' -> z_inner z = z_inner z'.
  Proof.
    intros (W & Hok & _) (W' & Hok' & _) D D' E. unfold zosdit_iter in E.
    assert (A : forall i : BTreeMap K (list V), ZS i -> Forall okstore i -> ZD i ->
      from_iter_strict_back (flatten i) = Val (Ok (mkZosdit (count i) i))).
    { intros i Wi Oi Di. unfold from_iter_strict_back, z_new.
      rewrite (rebuild_exact i [] 0); [reflexivity|assumption..|cbn; lia]. }
    pose proof (A _ W Hok D) as X. pose proof (A _ W' Hok' D') as X'. rewrite E, X' in X. injection X as _ X. auto.
  Qed.
End ZosditEq.
