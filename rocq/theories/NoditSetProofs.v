(** * NoditSetProofs: histories of NoditSet calls as sets of points; canonical sets. *)
From Coq Require Import List ZArith Bool Lia ZifyBool Sorting.Sorted Permutation.
From Verif Require Import Base BTree UtilsModel IntervalModel NoditModel NoditSetModel NoditOps NoditSetOps Spec
  InstancesModel Instances
  PointFacts IntervalFacts ListFacts NoditFacts NoditQueries NoditGaps NoditMutations NoditMerges NoditInv NoditMore
  NoditNatural NoditSetFacts.
Import ListNotations.
Open Scope Z_scope.

Section Hist.
  Context {I : Type} `{PL : PointLaws I}.
  Context {K : Type} {IK : InclusiveInterval I K} {IL : IntervalLaws I K} {FI : FromInvalid I K}.
  Notation entry := (K * unit)%type.
  Implicit Types (s : NoditSet K) (k : K) (p : I).

  Lemma invalid_no_points {A} {IA : InclusiveInterval I A} (a : A) : ~ valid a -> forall p, ~ covers a p.
  Proof. intros Hv p Hc. apply Hv. exists p. exact Hc. Qed.

  (** One step. *)
  Definition no_remove (o : set_op I K) : Prop :=
    match o with SRemoveOverlapping _ => False | _ => True end.
  Lemma set_step_means s o : WF s -> no_remove o -> set_means o (in_set s) (in_set (set_step s o)).
  Proof.
    intros W Hno. destruct o as [|k|k|k|k|k|Q IQ q|Q IQ q|l|l]; cbn [set_step].
    - constructor. intros p (k & [] & _).
    - constructor. destruct (valid_dec k) as [Vk|Vk].
      + split.
        * intros Hf. rewrite free_points in Hf. destruct (strict_points s k W Vk Hf) as (s' & E & _ & Hp).
          rewrite E. exact Hp.
        * intros Hf. rewrite free_points in Hf. destruct (clash_dec s k) as [Hc|Hc]; [|contradiction].
          rewrite (strict_refused s k W Vk Hc). reflexivity.
      + unfold set_insert_strict. rewrite insert_strict_invalid by exact Vk. cbn [fst].
        pose proof (invalid_no_points k Vk) as Hn. split; [|reflexivity]. intros _ p. specialize (Hn p). tauto.
    - constructor. destruct (valid_dec k) as [Vk|Vk].
      + split.
        * intros Hf. rewrite free_points in Hf. destruct (touching_points s k W Vk Hf) as (s' & r & E & _ & _ & Hp).
          rewrite E. exact Hp.
        * intros Hf. rewrite free_points in Hf. destruct (clash_dec s k) as [Hc|Hc]; [|contradiction].
          rewrite (touching_refused s k W Vk Hc). reflexivity.
      + unfold set_insert_merge_touching. rewrite insert_merge_touching_invalid by exact Vk. cbn [fst].
        pose proof (invalid_no_points k Vk) as Hn. split; [|reflexivity]. intros _ p. specialize (Hn p). tauto.
    - constructor. destruct (valid_dec k) as [Vk|Vk].
      + destruct (overlapping_points s k W Vk) as (s' & r & E & _ & _ & Hp). rewrite E. exact Hp.
      + unfold set_insert_merge_overlapping. rewrite insert_merge_overlapping_invalid by exact Vk. cbn [fst].
        pose proof (invalid_no_points k Vk) as Hn. intros p. specialize (Hn p). tauto.
    - constructor. destruct (valid_dec k) as [Vk|Vk].
      + destruct (tor_points s k W Vk) as (s' & r & E & _ & _ & Hp). rewrite E. exact Hp.
      + unfold set_insert_merge_touching_or_overlapping. rewrite insert_merge_tor_invalid by exact Vk. cbn [fst].
        pose proof (invalid_no_points k Vk) as Hn. intros p. specialize (Hn p). tauto.
    - constructor. destruct (valid_dec k) as [Vk|Vk].
      + destruct (overwrite_points s k W Vk) as (s' & r & E & _ & _ & Hp). rewrite E. exact Hp.
      + unfold set_insert_overwrite. rewrite insert_overwrite_invalid by exact Vk. cbn [fst].
        pose proof (invalid_no_points k Vk) as Hn. intros p. specialize (Hn p). tauto.
    - destruct Hno.
    - constructor. destruct (valid_dec q) as [Vq|Vq].
      + destruct (cut_points s q W Vq) as (s' & r & E & _ & Hp & _). rewrite E. exact Hp.
      + unfold set_cut. rewrite cut_invalid by exact Vq. cbn [fst].
        pose proof (invalid_no_points q Vq) as Hn. intros p. specialize (Hn p). tauto.
    - constructor. pose proof (loads_spec (map Some l) s W) as [_ X].
      assert (E : match set_from_iter_strict l with Val (Ok s') => s' | _ => s end
                = match set_deserialize (map Some l) with Val (Ok s') => s' | _ => s end).
      { clear X Hno. unfold set_deserialize, set_from_iter_strict. generalize (set_new (K := K)).
        induction l as [|k l IH]; intros s1; cbn; [reflexivity|].
        destruct (set_insert_strict k s1) as [s2 [[u|u]|]]; [apply IH|reflexivity..]. }
      rewrite E. exact X.
    - constructor. apply (loads_spec l s W).
  Qed.
  Lemma set_run_snoc os (o : set_op I K) : set_run (os ++ [o]) = set_step (set_run os) o.
  Proof. unfold set_run. rewrite fold_left_app. reflexivity. Qed.
  Lemma set_run_history (os : list (set_op I K)) : Forall no_remove os -> set_history os (in_set (set_run os)).
  Proof.
    induction os as [|o os IH] using rev_ind; intros HF.
    - constructor. intros p (k & [] & _).
    - apply Forall_app in HF. destruct HF as [HF Ho]. inversion_clear Ho.
      econstructor; [apply IH, HF|]. rewrite set_run_snoc. apply set_step_means; [apply set_run_WF|assumption].
  Qed.

  Lemma loads_points_det (l : list (option K)) (P1 P2 P1' P2' : I -> Prop) : (forall p, P1 p <-> P2 p) ->
    ((exists ks, l = map Some ks /\ disjoint_intervals ks) \/ ~ (exists ks, l = map Some ks /\ disjoint_intervals ks)) ->
    loads_points l P1 P1' -> loads_points l P2 P2' -> forall p, P1' p <-> P2' p.
  Proof.
    intros EP [(ks & El & Hd)|Hn] [A1 B1] [A2 B2] p.
    - rewrite (A1 ks El Hd p), (A2 ks El Hd p). reflexivity.
    - rewrite (B1 Hn p), (B2 Hn p). apply EP.
  Qed.
  Lemma disjoint_intervals_dec (ks : list K) : disjoint_intervals ks \/ ~ disjoint_intervals ks.
  Proof.
    destruct (bulk_cases (map unit_entry ks)) as [L|[(l1 & k & v & l2 & E & L & Vk)|(l1 & k & v & l2 & E & L & Vk & k' & Hi & Ho)]].
    - left. unfold loadable in L. rewrite map_map in L. cbn in L. rewrite map_id in L. exact L.
    - right. intros [Hv _]. apply Vk. assert (Hin : In k (map fst (map unit_entry ks))) by (rewrite E, map_app; apply in_or_app; right; left; reflexivity).
      rewrite map_map in Hin. cbn in Hin. rewrite map_id in Hin. rewrite Forall_forall in Hv. apply Hv, Hin.
    - right. intros [_ Hf]. assert (Ek : ks = map fst (map unit_entry ks)) by (rewrite map_map; cbn; rewrite map_id; reflexivity).
      rewrite Ek, E, map_app in Hf. apply FOP_app in Hf. destruct Hf as (_ & _ & Hf). apply (Hf k' k Hi); [left; reflexivity|exact Ho].
  Qed.
  Lemma loads_dec (l : list (option K)) :
    (exists ks, l = map Some ks /\ disjoint_intervals ks) \/ ~ (exists ks, l = map Some ks /\ disjoint_intervals ks).
  Proof.
    assert (X : (exists ks, l = map Some ks) \/ ~ (exists ks, l = map Some ks)).
    { induction l as [|[k|] l IH]; [left; exists []; reflexivity| |].
      - destruct IH as [(ks & ->)|Hn]; [left; exists (k :: ks); reflexivity|].
        right. intros ([|k' ks] & E); [discriminate|]. injection E as _ E. apply Hn. exists ks. exact E.
      - right. intros ([|k' ks] & E); discriminate. }
    destruct X as [(ks & ->)|Hn]; [|right; intros (ks & E & _); apply Hn; exists ks; exact E].
    destruct (disjoint_intervals_dec ks) as [Hd|Hd]; [left; exists ks; auto|].
    right. intros (ks' & E & Hd'). assert (ks = ks') as <-; [|contradiction].
    clear -E. revert ks' E. induction ks as [|k ks IH]; intros [|k' ks'] E; try discriminate; [reflexivity|].
    injection E as -> E. f_equal. apply IH, E.
  Qed.
  Lemma free_dec s k : (forall p, covers k p -> ~ in_set s p) \/ ~ (forall p, covers k p -> ~ in_set s p).
  Proof.
    destruct (clash_dec s k) as [Hc|Hc]; [right|left; apply free_points, Hc].
    intros Hf. rewrite free_points in Hf. destruct Hc as (e & Hi & Ho). apply (Hf e Hi Ho).
  Qed.
  Definition cut_of (o : set_op I K) : I -> Prop :=
    match o with SCut q => covers q | _ => fun _ => False end.
  Lemma set_means_det s o (P1 P2 P1' P2' : I -> Prop) : P1 = in_set s -> (forall p, P1 p <-> P2 p) ->
    set_means (K := K) o P1 P1' -> set_means o P2 P2' -> forall p, P1' p <-> P2' p.
  Proof.
    intros Hd EP M1 M2.
    assert (UF : forall k, unions_if_free k P1 P1' -> unions_if_free k P2 P2' -> forall p, P1' p <-> P2' p).
    { intros k [A1 B1] [A2 B2] p. destruct (free_dec s k) as [Hf|Hf]; rewrite <- Hd in Hf.
      - assert (Hf2 : forall x, covers k x -> ~ P2 x) by (intros x Hc; rewrite <- EP; apply Hf, Hc).
        rewrite (A1 Hf p), (A2 Hf2 p), EP. reflexivity.
      - assert (Hf2 : ~ forall x, covers k x -> ~ P2 x) by (intros X; apply Hf; intros x Hc; rewrite EP; apply X, Hc).
        rewrite (B1 Hf p), (B2 Hf2 p). apply EP. }
    assert (U : forall k, unions k P1 P1' -> unions k P2 P2' -> forall p, P1' p <-> P2' p).
    { intros k A1 A2 p. rewrite (A1 p), (A2 p), EP. reflexivity. }
    destruct M1 as [? ? A1|? ? ? A1|? ? ? A1|? ? ? A1|? ? ? A1|? ? ? A1|Q IQ q ? ? A1|? ? ? A1|? ? ? A1].
    - inversion M2 as [? ? A2| | | | | | | |]; subst. intros p. pose proof (A1 p). pose proof (A2 p). tauto.
    - inversion M2; subst. eapply UF; eassumption.
    - inversion M2; subst. eapply UF; eassumption.
    - inversion M2; subst. eapply U; eassumption.
    - inversion M2; subst. eapply U; eassumption.
    - inversion M2; subst. eapply U; eassumption.
    - remember (SCut q) as o eqn:Eo. destruct M2; try discriminate.
      assert (X : forall p, covers q0 p <-> covers q p).
      { intros p. pose proof (f_equal cut_of Eo) as Y. cbn in Y. rewrite Y. reflexivity. }
      intros p. rewrite (A1 p), (H1 p), X, EP. reflexivity.
    - inversion M2; subst. eapply loads_points_det; [exact EP|apply loads_dec|eassumption..].
    - inversion M2; subst. eapply loads_points_det; [exact EP|apply loads_dec|eassumption..].
  Qed.
  Lemma set_history_no_remove (os : list (set_op I K)) P : set_history os P -> Forall no_remove os.
  Proof.
    induction 1 as [|os o P P' HH IH M]; [constructor|]. apply Forall_app. split; [exact IH|].
    constructor; [|constructor]. destruct M; exact Logic.I.
  Qed.
  Lemma set_history_points (os : list (set_op I K)) P : set_history os P ->
    forall p, in_set (set_run os) p <-> P p.
  Proof.
    induction 1 as [P HP|os o P P' HH IH M]; intros p.
    - split; [intros (k & [] & _)|intros X; destruct (HP p X)].
    - rewrite set_run_snoc. revert p. eapply (set_means_det (set_run os)); [reflexivity|exact IH| |exact M].
      apply set_step_means; [apply set_run_WF|]. destruct M; exact Logic.I.
  Qed.

  (** ** Canonical sets *)
  Definition apart s : Prop := forall x y : entry, In x s -> In y s -> x <> y ->
    ehi x + 1 < elo y \/ ehi y + 1 < elo x.

  Lemma absorbs_apart (P : entry -> Prop) k s s' r : WF s -> WF s' -> valid k -> apart s ->
    (forall e, In e s -> (P e <-> touch (fst e) k \/ overlap (fst e) k)) ->
    absorbs P k tt s s' r -> apart s'.
  Proof.
    intros W W' Vk Ap HP (Hr & (l1 & l2 & Hs & Es') & _).
    assert (Hkept : forall e, In e (l1 ++ l2) -> In e s /\ ~ P e) by (intros e; apply (sub_in _ _ _ Hs)).
    assert (Hin : forall e, In e s' <-> e = (r, tt) \/ In e (l1 ++ l2)).
    { intros e. subst s'. rewrite !in_app_iff. cbn [In].
      assert (X : (r, tt) = e <-> e = (r, tt)) by (split; intros ->; reflexivity). tauto. }
    assert (Vr : lo r <= hi r).
    { apply (WF_okv _ (r, tt) W'), Hin. left. reflexivity. }
    apply valid_rk in Vk.
    (* a kept entry is apart from r *)
    assert (Key : forall e, In e (l1 ++ l2) -> ehi e + 1 < lo r \/ hi r + 1 < elo e).
    { intros e He. destruct (Hkept e He) as [Hes HnP].
      pose proof (WF_okv _ _ W Hes) as Ve.
      assert (Hno : ~ overlap (fst e) r).
      { intros (x & X1 & X2). apply Hr in X2. destruct X2 as [X2|(e' & Hi' & Pe' & X2)].
        - apply HnP, HP; [exact Hes|]. right. exists x. auto.
        - assert (Ne : e <> e') by (intros ->; contradiction).
          apply covers_rk in X1, X2. destruct (Ap e e' Hes Hi' Ne); unfold elo, ehi in *; lia. }
      rewrite overlap_rk in Hno. fold (elo e) (ehi e) in Hno.
      assert (NT : forall x, covers r x -> rk x <> ehi e + 1 /\ rk x <> elo e - 1).
      { intros x Hx. pose proof (proj1 (covers_rk r x) Hx) as Hx'. apply Hr in Hx. destruct Hx as [Hx|(e' & Hi' & Pe' & Hx)].
        - apply covers_rk in Hx.
          assert (N1 : ~ touch (fst e) k) by (intros X; apply HnP, HP; auto).
          assert (N2 : ~ overlap (fst e) k) by (intros X; apply HnP, HP; auto).
          rewrite touch_rk in N1 by assumption. rewrite overlap_rk in N2. unfold elo, ehi in *. lia.
        - assert (Ne : e <> e') by (intros ->; contradiction).
          apply covers_rk in Hx. pose proof (WF_okv _ _ W Hi') as Ve'.
          destruct (Ap e e' Hes Hi' Ne); unfold elo, ehi in *; lia. }
      pose proof (NT (istart r)) as N1. pose proof (NT (iend r)) as N2. rewrite covers_rk in N1, N2.
      unfold lo, hi in *. lia. }
    intros x y Hx Hy Ne. apply Hin in Hx, Hy. destruct Hx as [->|Hx], Hy as [->|Hy].
    - contradiction.
    - destruct (Key y Hy); unfold elo, ehi in *; cbn in *; lia.
    - destruct (Key x Hx); unfold elo, ehi in *; cbn in *; lia.
    - apply Ap; [apply Hkept, Hx|apply Hkept, Hy|exact Ne].
  Qed.

  Lemma max_run_apart (P : I -> Prop) (a b : K) : max_run P a -> max_run P b -> hi a < lo b -> hi a + 1 < lo b.
  Proof.
    intros (Va & Pa & Ma) (Vb & Pb & Mb) L. apply valid_rk in Va, Vb.
    destruct (Z.eq_dec (hi a + 1) (lo b)) as [E|E]; [exfalso|lia].
    assert (X : covers a (iend b)).
    { apply (Ma (mkInterval (istart a) (iend b))).
      - intros p Hp. apply covers_rk in Hp. unfold lo, hi in Hp. cbn in Hp.
        destruct (Z_le_gt_dec (rk p) (hi a)) as [G|G].
        + apply Pa, covers_rk. unfold lo, hi in *. lia.
        + apply Pb, covers_rk. unfold lo, hi in *. lia.
      - exists (istart a). split; apply covers_rk; unfold lo, hi in *; cbn; lia.
      - apply covers_rk. unfold lo, hi in *. cbn. lia. }
    apply covers_rk in X. unfold lo, hi in *. lia.
  Qed.

  Lemma cut_apart {Q} {IQ : InclusiveInterval I Q} s (q : Q) : WF s -> valid q -> apart s -> apart (fst (cut q s)).
  Proof.
    intros W Vq Ap. destruct (cut_full s q W Vq) as (s' & out & E & W' & _ & _ & Hs & _). rewrite E. cbn [fst].
    intros [x []] [y []] Hx Hy Ne.
    pose proof (WF_okv _ _ W' Hx) as Vx. pose proof (WF_okv _ _ W' Hy) as Vy.
    assert (Sep : ehi (x, tt) < elo (y, tt) \/ ehi (y, tt) < elo (x, tt)).
    { destruct (Z_lt_ge_dec (ehi (x, tt)) (elo (y, tt))) as [L|L]; [left; exact L|].
      destruct (Z_lt_ge_dec (ehi (y, tt)) (elo (x, tt))) as [L'|L']; [right; exact L'|exfalso].
      apply Ne. unfold elo, ehi in *. cbn in *.
      destruct (rk_surj (istart x) (iend x) (Z.max (lo x) (lo y))) as (p & Ep); [unfold lo, hi in *; lia|].
      eapply (covers_unique s' p); [exact W'|exact Hx|exact Hy|apply covers_rk; lia..]. }
    apply Hs in Hx, Hy. destruct Hx as (k1 & H1' & R1 & _), Hy as (k2 & H2' & R2 & _).
    assert (Sub : forall (k' k0 : K), max_run (fun p => covers k0 p /\ ~ covers q p) k' -> lo k' <= hi k' -> lo k0 <= lo k' /\ hi k' <= hi k0).
    { intros k' k0 (_ & Hc & _) L. pose proof (Hc (istart k')) as C1. pose proof (Hc (iend k')) as C2.
      rewrite !covers_rk in C1, C2. unfold lo, hi in *. lia. }
    unfold elo, ehi in *. cbn in *. pose proof (Sub _ _ R1 Vx). pose proof (Sub _ _ R2 Vy).
    assert (Dec : (k1, tt) = (k2, tt) \/ (k1, tt) <> (k2, tt)).
    { destruct (Z_lt_ge_dec (hi k1) (lo k2)) as [L|L]; [|destruct (Z_lt_ge_dec (hi k2) (lo k1)) as [L'|L']].
      - right. intros X. injection X as ->. pose proof (WF_okv _ _ W H2') as Z1. unfold elo, ehi in Z1. cbn in Z1. lia.
      - right. intros X. injection X as ->. pose proof (WF_okv _ _ W H2') as Z1. unfold elo, ehi in Z1. cbn in Z1. lia.
      - left. pose proof (WF_okv _ _ W H1') as Z1. pose proof (WF_okv _ _ W H2') as Z2. unfold elo, ehi in Z1, Z2. cbn in Z1, Z2.
        destruct (rk_surj (istart k1) (iend k1) (Z.max (lo k1) (lo k2))) as (p & Ep); [unfold lo, hi in *; lia|].
        eapply (covers_unique s p); [exact W|exact H1'|exact H2'|apply covers_rk; lia..]. }
    destruct Dec as [X|X].
    - injection X as ->. destruct Sep as [L|L]; [left|right].
      + apply (max_run_apart (fun p => covers k2 p /\ ~ covers q p)); assumption.
      + apply (max_run_apart (fun p => covers k2 p /\ ~ covers q p)); assumption.
    - destruct (Ap _ _ H1' H2' X) as [L|L]; unfold elo, ehi in L; cbn in L; lia.
  Qed.

  Lemma set_step_apart s o : WF s -> apart s -> merging o -> apart (set_step s o).
  Proof.
    intros W Ap Hm. destruct o as [|k|k|k|k|k|Q IQ q|Q IQ q|l|l]; cbn [set_step merging] in *; try contradiction.
    - intros x y [].
    - destruct (valid_dec k) as [Vk|Vk].
      + destruct (clash_dec s k) as [Hc|Hc].
        * rewrite (touching_refused s k W Vk Hc). exact Ap.
        * destruct (touching_points s k W Vk Hc) as (s' & r & E & W' & Ha & _). rewrite E. cbn [fst].
          eapply absorbs_apart; [exact W|exact W'|exact Vk|exact Ap| |exact Ha].
          intros e Hi. specialize (Hc e Hi). tauto.
      + unfold set_insert_merge_touching. rewrite insert_merge_touching_invalid by exact Vk. exact Ap.
    - destruct (valid_dec k) as [Vk|Vk].
      + destruct (tor_points s k W Vk) as (s' & r & E & W' & Ha & _). rewrite E. cbn [fst].
        eapply absorbs_apart; [exact W|exact W'|exact Vk|exact Ap| |exact Ha]. intros e Hi. reflexivity.
      + unfold set_insert_merge_touching_or_overlapping. rewrite insert_merge_tor_invalid by exact Vk. exact Ap.
    - destruct (valid_dec q) as [Vq|Vq].
      + destruct (remove_overlapping_spec s q W Vq) as (s' & out & E & _ & S2 & _).
        unfold set_remove_overlapping. rewrite E. cbn [fst]. intros x y Hx Hy.
        apply Ap; [apply (sub_in _ _ _ S2), Hx|apply (sub_in _ _ _ S2), Hy].
      + unfold set_remove_overlapping. rewrite remove_overlapping_invalid by exact Vq. exact Ap.
    - unfold set_cut. destruct (cut q s) as [s' r] eqn:E. cbn [fst]. replace s' with (fst (cut q s)) by (rewrite E; reflexivity).
      destruct (valid_dec q) as [Vq|Vq]; [apply cut_apart; assumption|].
      rewrite cut_invalid by exact Vq. exact Ap.
  Qed.
  Lemma set_run_apart os : Forall merging os -> apart (set_run os).
  Proof.
    induction os as [|o os IH] using rev_ind; intros HF; [intros x y []|].
    apply Forall_app in HF. destruct HF as [HF Ho]. inversion_clear Ho. rewrite set_run_snoc.
    apply set_step_apart; [apply set_run_WF|apply IH, HF|assumption].
  Qed.

  Lemma apart_runs s : WF s -> apart s -> lists_max_runs (in_set s) (fun _ => True) (set_iter s).
  Proof.
    intros W Ap.
    assert (Hrun : forall k, In k (set_iter s) -> max_run (in_set s) k).
    { intros k Hi. pose proof (proj1 (in_set_iter _ _) Hi) as Hs. pose proof (WF_okv _ _ W Hs) as Vk. unfold elo, ehi in Vk. cbn in Vk.
      apply max_run_intro'; [exact Vk|intros p Hp; exists k; auto|].
      intros p Hp Hin. apply in_set_covered in Hin. destruct Hin as (k' & [] & Hs' & Hc).
      assert (Ne : (k, tt) <> (k', tt)).
      { intros X. injection X as ->. apply covers_rk in Hc. lia. }
      apply covers_rk in Hc. destruct (Ap _ _ Hs Hs' Ne) as [L|L]; unfold elo, ehi in L; cbn in L; lia. }
    split; [|split].
    - rewrite set_iter_fst. apply ascending_WF, W.
    - intros k Hi. split; [apply Hrun, Hi|exact Logic.I].
    - intros j Hj _. pose proof Hj as ((p & Hp) & Pj & _).
      destruct (Pj p Hp) as (k & Hi & Hc). exists k. split; [exact Hi|].
      apply (max_run_same (in_set s) k j p (Hrun k Hi) Hj Hc Hp).
  Qed.
  Lemma max_run_ext (P P' : I -> Prop) k : (forall p, P p <-> P' p) -> max_run P k -> max_run P' k.
  Proof.
    intros E (V & A & B). split; [exact V|]. split; [intros p Hp; apply E, A, Hp|].
    intros j Hj. apply B. intros p Hp. apply E, Hj, Hp.
  Qed.
  Lemma runs_tail (P : I -> Prop) k l : ascending (k :: l) ->
    (forall g, In g (k :: l) -> max_run P g /\ True) ->
    (forall j : Interval I, max_run P j -> True -> exists g, In g (k :: l) /\ same_points g j) ->
    lists_max_runs (fun p => P p /\ ~ covers k p) (fun _ => True) l.
  Proof.
    intros A R C. inversion A as [|? ? A1 F1]; subst. rewrite Forall_forall in F1.
    assert (Vs : forall x, In x (k :: l) -> lo x <= hi x) by (intros x Hx; destruct (R x Hx) as [(Vx & _) _]; apply valid_rk, Vx).
    assert (Vk := Vs k (or_introl eq_refl)). destruct (R k (or_introl eq_refl)) as [Rk _].
    assert (Ht : forall g, In g l -> max_run (fun p => P p /\ ~ covers k p) g).
    { intros g Hg. destruct (R g (or_intror Hg)) as [(V & Hp & M) _]. split; [exact V|].
      pose proof (F1 g Hg) as B. apply before_rk in B; [|exact Vk|apply Vs; right; exact Hg].
      split.
      - intros p Hc. split; [apply Hp, Hc|]. rewrite covers_rk in *. lia.
      - intros j Hj. apply M. intros p Hc. apply Hj, Hc. }
    split; [exact A1|]. split; [intros g Hg; split; [apply Ht, Hg|exact Logic.I]|].
    intros j (Vj & Hp & M) _.
    (* a maximal run outside k is a maximal run *)
    assert (Rj : max_run P j).
    { split; [exact Vj|]. split; [intros p Hc; apply Hp, Hc|]. intros i Hi Ho.
      assert (X : forall p, covers i p -> ~ covers k p).
      { intros p Hc Hk. destruct Ho as (x & X1 & X2). apply (proj2 (Hp x X1)).
        apply (proj2 (proj2 Rk) i Hi); [exists p; auto|exact X2]. }
      apply M; [intros p Hc; split; [apply Hi, Hc|apply X, Hc]|exact Ho]. }
    destruct (C j Rj Logic.I) as (g & [<-|Hg] & Sg); [exfalso|exists g; auto].
    destruct Vj as (p & Hc). apply (proj2 (Hp p Hc)), Sg, Hc.
  Qed.
  (** Two lists of the maximal runs of the same points. *)
  Lemma runs_unique (P P' : I -> Prop) (l l' : list K) : (forall p, P p <-> P' p) ->
    lists_max_runs P (fun _ => True) l -> lists_max_runs P' (fun _ => True) l' -> Forall2 same_points l l'.
  Proof.
    revert P P' l'. induction l as [|k l IH]; intros P P' l' E L L'.
    - destruct l' as [|k' l']; [constructor|exfalso]. destruct L as (_ & _ & C), L' as (_ & R' & _).
      destruct (R' k' (or_introl eq_refl)) as [Rk _].
      destruct (C (mkInterval (istart k') (iend k'))) as (g & [] & _); [|exact Logic.I].
      apply (max_run_ext P' P); [intros p; symmetry; apply E|exact Rk].
    - destruct l' as [|k' l'].
      { exfalso. destruct L' as (_ & _ & C), L as (_ & R' & _).
        destruct (R' k (or_introl eq_refl)) as [Rk _].
        destruct (C (mkInterval (istart k) (iend k))) as (g & [] & _); [|exact Logic.I].
        apply (max_run_ext P P'); [exact E|exact Rk]. }
      destruct L as (A & R & C), L' as (A' & R' & C').
      inversion A as [|? ? A1 F1]; subst. inversion A' as [|? ? A1' F1']; subst.
      rewrite Forall_forall in F1, F1'.
      destruct (R k (or_introl eq_refl)) as [Rk _]. destruct (R' k' (or_introl eq_refl)) as [Rk' _].
      assert (Vs : forall x, In x (k :: l) -> lo x <= hi x) by (intros x Hx; destruct (R x Hx) as [(Vx & _) _]; apply valid_rk, Vx).
      assert (Vs' : forall x, In x (k' :: l') -> lo x <= hi x) by (intros x Hx; destruct (R' x Hx) as [(Vx & _) _]; apply valid_rk, Vx).
      assert (Vk := Vs k (or_introl eq_refl)). assert (Vk' := Vs' k' (or_introl eq_refl)).
      (* the heads have the same points *)
      assert (Hk : same_points k k').
      { destruct (C' (mkInterval (istart k) (iend k))) as (g & Hg & Sg); [apply (max_run_ext P P' k E Rk)|exact Logic.I|].
        destruct (C (mkInterval (istart k') (iend k'))) as (g' & Hg' & Sg').
        { apply (max_run_ext P' P k'); [intros p; symmetry; apply E|exact Rk']. } { exact Logic.I. }
        destruct Hg as [<-|Hg]; [intros p; symmetry; apply Sg|].
        destruct Hg' as [<-|Hg']; [apply Sg'|exfalso].
        pose proof (F1' g Hg) as B1. pose proof (F1 g' Hg') as B2.
        apply before_rk in B1; [|exact Vk'|apply Vs'; right; exact Hg].
        apply before_rk in B2; [|exact Vk|apply Vs; right; exact Hg'].
        apply same_points_rk in Sg; [|apply Vs'; right; exact Hg|exact Vk].
        apply same_points_rk in Sg'; [|apply Vs; right; exact Hg'|exact Vk'].
        unfold lo, hi in *. cbn in *. lia. }
      constructor; [exact Hk|].
      apply (IH (fun p => P p /\ ~ covers k p) (fun p => P' p /\ ~ covers k' p)).
      + intros p. rewrite E, (Hk p). reflexivity.
      + apply (runs_tail P k l A R C).
      + apply (runs_tail P' k' l' A' R' C').
  Qed.
End Hist.

Section Canon.
  Context {I : Type} `{PL : PointLaws I}.

  Lemma canonical_runs {K} {IK : InclusiveInterval I K} {IL : IntervalLaws I K} (os : list (set_op I K)) :
    Forall merging os -> lists_max_runs (in_set (set_run os)) (fun _ => True) (set_iter (set_run os)).
  Proof. intros HF. apply apart_runs; [apply set_run_WF|apply set_run_apart, HF]. Qed.
  Lemma canonical_same {K} {IK : InclusiveInterval I K} {IL : IntervalLaws I K} (os os' : list (set_op I K)) :
    Forall merging os -> Forall merging os' ->
    (forall p, set_contains_point (set_run os) p = set_contains_point (set_run os') p) ->
    Forall2 same_points (set_iter (set_run os)) (set_iter (set_run os')).
  Proof.
    intros HF HF' HP. eapply runs_unique; [|apply canonical_runs, HF|apply canonical_runs, HF'].
    intros p. rewrite <- (proj1 (set_contains_point_spec _ p (set_run_WF os))), <- (proj1 (set_contains_point_spec _ p (set_run_WF os'))), HP. reflexivity.
  Qed.
  Lemma set_iter_inj {K} (s s' : NoditSet K) : set_iter s = set_iter s' -> s = s'.
  Proof.
    unfold set_iter, iter. revert s'. induction s as [|[k []] s IH]; intros [|[k' []] s'] E; try discriminate; [reflexivity|].
    cbn in E. injection E as -> E. f_equal. apply IH, E.
  Qed.
  Lemma same_interval {OL : OrdLaws I} (i j : Interval I) : valid i -> valid j -> same_points i j -> i = j.
  Proof.
    intros Vi Vj Hs. rewrite valid_rk in Vi, Vj. apply same_points_rk in Hs; [|assumption..].
    destruct i as [a b], j as [c d]. unfold lo, hi in Hs. cbn in Hs. destruct Hs as [E1 E2].
    apply rk_inj in E1, E2. subst. reflexivity.
  Qed.
  Lemma canonical_eq {OL : OrdLaws I} (os os' : list (set_op I (Interval I))) : Forall merging os -> Forall merging os' ->
    (forall p, set_contains_point (set_run os) p = set_contains_point (set_run os') p) -> set_run os = set_run os'.
  Proof.
    intros HF HF' HP. apply set_iter_inj. pose proof (canonical_same os os' HF HF' HP) as X.
    assert (V : forall os : list (set_op I (Interval I)), Forall valid (set_iter (set_run os))).
    { intros o. rewrite set_iter_fst. apply ascending_WF, set_run_WF. }
    pose proof (V os) as V1. pose proof (V os') as V2.
    induction X as [|i j l l' Hs HX IH]; [reflexivity|].
    inversion_clear V1. inversion_clear V2. f_equal; [apply same_interval; assumption|apply IH; assumption].
  Qed.
  Lemma inserts_points {K} {IK : InclusiveInterval I K} {IL : IntervalLaws I K} (ks : list K) p :
    in_set (set_run (map (fun k => SInsertMergeTouchingOrOverlapping k) ks)) p <-> exists k, In k ks /\ covers k p.
  Proof.
    revert p. apply set_history_points. induction ks as [|k ks IH] using rev_ind.
    - cbn. constructor. intros p (k & [] & _).
    - rewrite map_app. cbn. econstructor; [exact IH|]. constructor. intros p. split.
      + intros (k' & Hi & Hc). apply in_app_iff in Hi. destruct Hi as [Hi|[<-|[]]]; [left; exists k'; auto|auto].
      + intros [(k' & Hi & Hc)|Hc]; [exists k'|exists k]; (split; [|exact Hc]); apply in_app_iff; [auto|right; left; reflexivity].
  Qed.
  Lemma contains_point_ext {K} {IK : InclusiveInterval I K} {IL : IntervalLaws I K} (s s' : NoditSet K) p :
    WF s -> WF s' -> (in_set s p <-> in_set s' p) -> set_contains_point s p = set_contains_point s' p.
  Proof.
    intros W W' E. destruct (set_contains_point_spec s p W) as [T F], (set_contains_point_spec s' p W') as [T' F'].
    unfold set_contains_point in *. destruct (map_contains_point_spec s p W) as (b & Eb & _). rewrite Eb in *.
    symmetry. destruct b; [apply T', E, T|apply F'; rewrite <- E; apply F]; reflexivity.
  Qed.
  Lemma order_same {K} {IK : InclusiveInterval I K} {IL : IntervalLaws I K} (ks ks' : list K) : Permutation ks ks' ->
    let build l := set_run (map (fun k => SInsertMergeTouchingOrOverlapping k) l) in
    forall p, set_contains_point (build ks) p = set_contains_point (build ks') p.
  Proof.
    intros HP build p. apply contains_point_ext; [apply set_run_WF..|]. unfold build. rewrite !inserts_points.
    split; intros (k & Hi & Hc); exists k; (split; [|exact Hc]); eapply Permutation_in; try eassumption. symmetry. exact HP.
  Qed.
  Lemma merging_inserts {K} {IK : InclusiveInterval I K} (ks : list K) :
    Forall (merging (I := I)) (map (fun k => SInsertMergeTouchingOrOverlapping k) ks).
  Proof. apply Forall_map, Forall_forall. intros k _. exact Logic.I. Qed.
End Canon.

(** ** Dropping values *)
Section Forget.
  Context {I : Type} `{Ord I} `{DiscreteFinite I}.
  Context {K : Type} `{InclusiveInterval I K}.
  Context {Q : Type} `{InclusiveInterval I Q}.
  Context {V : Type}.
  Implicit Types (m : NoditMap K V) (k : K) (q : Q) (p : I) (v : V).

  Lemma drop_mape {A B} (g : A -> B) (l : list (K * A)) : map first (mapv g l) = map fst l.
  Proof. unfold mapv. rewrite map_map. apply map_ext. intros [k a]. reflexivity. Qed.
  Lemma forget_queries m q p :
    set_len (forget m) = len m /\
    set_is_empty (forget m) = is_empty m /\
    set_iter (forget m) = map fst (iter m) /\
    set_into_iter (forget m) = map fst (into_iter m) /\
    set_first (forget m) = option_map fst (first_key_value m) /\
    set_last (forget m) = option_map fst (last_key_value m) /\
    set_overlaps (forget m) q = map_overlaps m q /\
    set_overlapping (forget m) q = omap (map fst) (overlapping m q) /\
    set_gaps_untrimmed (forget m) q = gaps_untrimmed m q /\
    set_gaps_trimmed (forget m) q = gaps_trimmed m q /\
    set_contains_interval (forget m) q = map_contains_interval m q /\
    set_contains_point (forget m) p = map_contains_point m p /\
    set_get_at_point (forget m) p =
      omap (fun r => match r with Ok e => Ok (fst e) | Err g => Err g end) (get_key_value_at_point m p).
  Proof.
    rewrite forget_mapv.
    split; [apply map_length|]. split; [destruct m; reflexivity|].
    split; [apply drop_mape|]. split; [apply drop_mape|].
    split. { unfold set_first, first_key_value. rewrite bt_first_mapv. destruct (bt_first m) as [[]|]; reflexivity. }
    split. { unfold set_last, last_key_value. rewrite bt_last_mapv. destruct (bt_last m) as [[]|]; reflexivity. }
    split; [apply map_overlaps_mapv|].
    split. { unfold set_overlapping. rewrite overlapping_mapv. destruct (overlapping m q) as [l|]; cbn; [|reflexivity].
      rewrite drop_mape. reflexivity. }
    split; [apply gaps_untrimmed_mapv|]. split; [apply gaps_trimmed_mapv|]. split; [apply map_contains_interval_mapv|].
    split; [apply map_contains_point_mapv|].
    unfold set_get_at_point. rewrite get_key_value_at_point_mapv.
    destruct (get_key_value_at_point m p) as [[[]|]|]; reflexivity.
  Qed.
  Lemma forget_calls m q k v :
    set_remove_overlapping q (forget m) =
      (forget (fst (remove_overlapping q m)), omap (map fst) (snd (remove_overlapping q m))) /\
    set_cut q (forget m) = (forget (fst (cut q m)), omap (map fst) (snd (cut q m))) /\
    set_insert_strict k (forget m) =
      (forget (fst (insert_strict k v m)), omap drop_error (snd (insert_strict k v m))) /\
    set_insert_merge_touching k (forget m) =
      (forget (fst (insert_merge_touching k v m)), omap drop_error (snd (insert_merge_touching k v m))) /\
    set_insert_merge_overlapping k (forget m) =
      (forget (fst (insert_merge_overlapping k v m)), snd (insert_merge_overlapping k v m)) /\
    set_insert_merge_touching_or_overlapping k (forget m) =
      (forget (fst (insert_merge_touching_or_overlapping k v m)), snd (insert_merge_touching_or_overlapping k v m)) /\
    set_insert_overwrite k (forget m) =
      (forget (fst (insert_overwrite k v m)), omap (map fst) (snd (insert_overwrite k v m))).
  Proof.
    rewrite !forget_mapv. change tt with ((fun _ : V => tt) v).
    split. { unfold set_remove_overlapping. rewrite remove_overlapping_mapv. unfold mapr.
      destruct (snd (remove_overlapping q m)) as [l|]; cbn; rewrite ?drop_mape; reflexivity. }
    split. { unfold set_cut. rewrite cut_mapv. unfold mapr. destruct (snd (cut q m)) as [l|]; cbn; rewrite ?drop_mape; reflexivity. }
    split. { unfold set_insert_strict. rewrite (insert_strict_mapv (fun _ : V => tt) k v m). reflexivity. }
    split. { unfold set_insert_merge_touching. rewrite (insert_merge_touching_mapv (fun _ : V => tt) k v m). reflexivity. }
    split. { unfold set_insert_merge_overlapping. rewrite (insert_merge_overlapping_mapv (fun _ : V => tt) k v m).
      unfold mapr. destruct (snd (insert_merge_overlapping k v m)); reflexivity. }
    split. { unfold set_insert_merge_touching_or_overlapping. rewrite (insert_merge_tor_mapv (fun _ : V => tt) k v m).
      unfold mapr. destruct (snd (insert_merge_touching_or_overlapping k v m)); reflexivity. }
    unfold set_insert_overwrite. rewrite (insert_overwrite_mapv (fun _ : V => tt) k v m). unfold mapr.
    destruct (snd (insert_overwrite k v m)) as [l|]; cbn; rewrite ?drop_mape; reflexivity.
  Qed.
  Lemma forget_bulk (l : list (K * V)) (a : list (option (K * V))) :
    set_from_iter_strict (map fst l) =
      omap (fun r => match r with Ok m => Ok (forget m) | Err _ => Err tt end) (from_iter_strict l) /\
    set_from_slice_strict (map fst l) = set_from_iter_strict (map fst l) /\
    set_deserialize (map (option_map fst) a) =
      omap (fun r => match r with Ok m => Ok (forget m) | Err e => Err e end) (deserialize a) /\
    forall m, set_serialize (forget m) = (fst (serialize m), map fst (snd (serialize m))).
  Proof.
    split; [|split; [reflexivity|split]].
    - unfold set_from_iter_strict. rewrite set_extend_map, map_map.
      change (extend_strict ?l set_new) with (from_iter_strict l).
      change (map (fun x => unit_entry (fst x)) l) with (mapv (fun _ : V => tt) l).
      rewrite from_iter_strict_mapv. destruct (from_iter_strict l) as [[m|e]|]; reflexivity.
    - unfold set_deserialize. rewrite set_visit_map, map_map.
      change (visit_seq ?l set_new) with (deserialize l).
      replace (map (fun x => option_map unit_entry (option_map fst x)) a) with (map (option_map (mape (fun _ : V => tt))) a)
        by (apply map_ext; intros [[]|]; reflexivity).
      rewrite deserialize_mapv. destruct (deserialize a) as [[m|e]|]; reflexivity.
    - intros m. unfold set_serialize, serialize. rewrite forget_mapv. cbn. f_equal; [apply map_length|apply drop_mape].
  Qed.
End Forget.

(** ** Replacing values *)
Section Image.
  Context {I : Type} `{Ord I} `{DiscreteFinite I}.
  Context {K : Type} `{InclusiveInterval I K}.
  Context {Q : Type} `{InclusiveInterval I Q}.
  Context {V W : Type} (g : V -> W).
  Implicit Types (m : NoditMap K V) (k : K) (q : Q) (p : I) (v : V).
  Notation im := (map (image g)).

  Lemma image_queries m q p :
    len (im m) = len m /\ is_empty (im m) = is_empty m /\ iter (im m) = im (iter m) /\ into_iter (im m) = im (into_iter m) /\
    first_key_value (im m) = option_map (image g) (first_key_value m) /\
    last_key_value (im m) = option_map (image g) (last_key_value m) /\
    map_overlaps (im m) q = map_overlaps m q /\
    overlapping (im m) q = omap im (overlapping m q) /\
    gaps_untrimmed (im m) q = gaps_untrimmed m q /\
    gaps_trimmed (im m) q = gaps_trimmed m q /\
    map_contains_interval (im m) q = map_contains_interval m q /\
    map_contains_point (im m) p = map_contains_point m p /\
    get_at_point (im m) p = omap (option_map g) (get_at_point m p) /\
    get_key_value_at_point (im m) p =
      omap (fun r => match r with Ok e => Ok (image g e) | Err k => Err k end) (get_key_value_at_point m p).
  Proof.
    split; [apply map_length|]. split; [destruct m; reflexivity|]. split; [reflexivity|]. split; [reflexivity|].
    split; [apply bt_first_mapv|]. split; [apply bt_last_mapv|]. split; [apply map_overlaps_mapv|].
    split; [apply overlapping_mapv|]. split; [apply gaps_untrimmed_mapv|]. split; [apply gaps_trimmed_mapv|].
    split; [apply map_contains_interval_mapv|]. split; [apply map_contains_point_mapv|].
    split; [apply get_at_point_mapv|apply get_key_value_at_point_mapv].
  Qed.
  Lemma image_calls m q k v :
    snd (remove_overlapping q (im m)) = omap im (snd (remove_overlapping q m)) /\
    snd (cut q (im m)) = omap im (snd (cut q m)) /\
    snd (insert_strict k (g v) (im m)) = omap (image_error g) (snd (insert_strict k v m)) /\
    snd (insert_merge_touching k (g v) (im m)) = omap (image_error g) (snd (insert_merge_touching k v m)) /\
    snd (insert_merge_overlapping k (g v) (im m)) = snd (insert_merge_overlapping k v m) /\
    snd (insert_merge_touching_or_overlapping k (g v) (im m)) = snd (insert_merge_touching_or_overlapping k v m) /\
    snd (insert_overwrite k (g v) (im m)) = omap im (snd (insert_overwrite k v m)) /\
    forall veq veq', (forall x y, veq' (g x) (g y) = veq x y) ->
      snd (insert_merge_touching_if_values_equal veq' k (g v) (im m)) =
      omap (image_error g) (snd (insert_merge_touching_if_values_equal veq k v m)).
  Proof.
    assert (Id : forall A (o : outcome A), omap (fun x => x) o = o) by (intros A []; reflexivity).
    change (im m) with (mapv g m).
    split; [rewrite remove_overlapping_mapv; reflexivity|]. split; [rewrite cut_mapv; reflexivity|].
    split; [rewrite insert_strict_mapv; reflexivity|]. split; [rewrite insert_merge_touching_mapv; reflexivity|].
    split; [rewrite insert_merge_overlapping_mapv; apply Id|]. split; [rewrite insert_merge_tor_mapv; apply Id|].
    split; [rewrite insert_overwrite_mapv; reflexivity|].
    intros veq veq' Hv. rewrite (insert_merge_touching_if_mapv g veq veq' k v m Hv). reflexivity.
  Qed.
End Image.
