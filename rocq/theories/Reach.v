(** * Reach: the invariants are complete: what satisfies them can be built. *)
From Coq Require Import List ZArith Bool Lia Sorting.Sorted Arith Permutation.
From Verif Require Import Base BTree UtilsModel IntervalModel NoditModel NoditSetModel NoditOps NoditSetOps ZosditModel ZosditOps
  GqditModel GqditOps EqModel
  Spec PointFacts IntervalFacts ListFacts NoditFacts NoditQueries NoditMutations NoditMerges NoditInv
  NoditSetFacts NoditSetProofs EqFacts ZosditFacts ZosditMut ZosditProofs GqditFacts GqditProofs.
Import ListNotations.
Open Scope Z_scope.

Section Reach0.
  Context {I : Type} {OI : Ord I} {DI : DiscreteFinite I} {PL : PointLaws I}.
  Context {K : Type} {IK : InclusiveInterval I K} {IL : IntervalLaws I K}.
  Context {V : Type}.

  (** An insertion at the end that absorbs nothing. *)
  Lemma absorbs_snoc (P : K * V -> Prop) k v m m' r : WF (m ++ [(k, v)]) -> WF m' ->
    (forall e, In e m -> ~ P e) -> absorbs P k v m m' r -> m' = m ++ [(k, v)].
  Proof.
    intros W W' N (_ & (l1 & l2 & S & E) & R). rewrite (R N) in E.
    apply WF_perm_eq; [exact W'|exact W|]. intros e. subst m'. rewrite !in_app_iff. cbn [In].
    pose proof (sub_in _ _ _ S e) as X. rewrite in_app_iff in X. specialize (N e). tauto.
  Qed.
  Lemma WF_snoc_elim m (k : K) (v : V) : WF (m ++ [(k, v)]) -> WF m /\ valid k /\ forall e, In e m -> hi (fst e) < lo k.
  Proof.
    intros W. apply WF_app in W as (W & Wk & A). split; [exact W|]. split.
    - apply valid_rk. exact (WF_okv _ (k, v) Wk (or_introl eq_refl)).
    - intros e He. exact (A e (k, v) He (or_introl eq_refl)).
  Qed.
End Reach0.
Section Reach.
  Context {I : Type} {OI : Ord I} {DI : DiscreteFinite I} {PL : PointLaws I}.
  Context {K : Type} {IK : InclusiveInterval I K} {IL : IntervalLaws I K}.
  Context {V : Type}.

  (** ** Merging sets *)
  Lemma FOP_in {A} (R : A -> A -> Prop) l x y : ForallOrdPairs R l -> In x l -> In y l -> x = y \/ R x y \/ R y x.
  Proof.
    induction 1 as [|a l F H IH]; intros Hx Hy; [contradiction|]. rewrite Forall_forall in F.
    destruct Hx as [->|Hx], Hy as [->|Hy]; auto.
  Qed.
  Lemma set_WF (l : list K) : ascending l /\ Forall valid l -> WF (map (fun k => (k, tt)) l).
  Proof. intros X. apply ascending_WF. rewrite map_map. cbn [fst]. rewrite map_id. exact X. Qed.
  Lemma set_inserts (l : list K) : ascending l -> Forall valid l -> ForallOrdPairs (fun a b => ~ touch a b) l ->
    set_run (map (fun k => SInsertMergeTouchingOrOverlapping k) l) = map (fun k => (k, tt)) l.
  Proof.
    induction l as [|k l IH] using rev_ind; intros Ha Hv Hf; [reflexivity|].
    pose proof (set_WF (l ++ [k]) (conj Ha Hv)) as W. rewrite map_app in W |- *. cbn [map] in W |- *.
    destruct (WF_snoc_elim _ _ _ W) as (W0 & Vk & L).
    pose proof (proj2 (ascending_WF _) W0) as [Ha0 Hv0]. rewrite map_map in Ha0, Hv0. cbn [fst] in Ha0, Hv0. rewrite map_id in Ha0, Hv0.
    assert (Hf0 : ForallOrdPairs (fun a b => ~ touch a b) l /\ forall y, In y l -> ~ touch y k).
    { clear - Hf. induction l as [|a l IH]; [split; [constructor|contradiction]|]. cbn in Hf. inversion_clear Hf as [|? ? F Hf'].
      destruct (IH Hf') as [A B]. rewrite Forall_app in F. destruct F as [F1 F2]. inversion_clear F2 as [|? ? T _]. split; [constructor; assumption|].
      intros y [<-|Hy]; [exact T|apply B, Hy]. }
    destruct Hf0 as [Hf0 Nt]. unfold set_run in *. rewrite map_app, fold_left_app. cbn [map fold_left]. rewrite (IH Ha0 Hv0 Hf0).
    cbn [set_step]. unfold set_insert_merge_touching_or_overlapping.
    destruct (insert_merge_touching_or_overlapping_spec (map (fun k => (k, tt)) l) k tt W0 Vk) as (m' & r & -> & W' & A). cbn [fst].
    eapply absorbs_snoc; [exact W|exact W'| |exact A]. intros e He. pose proof (L e He) as Le. apply in_map_iff in He as (x & <- & Hx). cbn [fst] in *.
    intros [T|O]; [exact (Nt x Hx T)|]. apply overlap_rk in O. lia.
  Qed.
  Lemma merging_sets (l : list K) :
    (exists os, Forall (merging (I := I)) os /\ set_iter (set_run os) = l) <->
    Forall valid l /\ ascending l /\ ForallOrdPairs (fun a b => ~ touch a b) l.
  Proof.
    split.
    - intros (os & HF & <-). pose proof (set_run_WF os) as W. pose proof (set_run_apart os HF) as A.
      pose proof (proj2 (ascending_WF _) W) as [B C].
      assert (E : map fst (set_run os) = set_iter (set_run os)) by (unfold set_iter, iter; apply map_ext; intros [? ?]; reflexivity).
      rewrite E in B, C. split; [exact C|]. split; [exact B|]. clear B C. rewrite <- E. clear E HF. revert W A.
      generalize (set_run os). intros s W A. induction s as [|e s IH]; [constructor|].
      apply WF_cons in W as (Ve & W & F). cbn [map]. constructor.
      + rewrite Forall_map. rewrite Forall_forall in F |- *. intros e' He'. specialize (F e' He').
        assert (Ve' : elo e' <= ehi e') by apply (WF_okv _ _ W He').
        unfold okv, elo, ehi in *. rewrite touch_rk by assumption.
        destruct (A e e' (or_introl eq_refl) (or_intror He')) as [X|X]; [intros ->; lia|unfold elo, ehi in X; lia..].
      + apply IH; [exact W|]. intros x y Hx Hy. apply A; right; assumption.
    - intros (Hv & Ha & Hf). exists (map (fun k => SInsertMergeTouchingOrOverlapping k) l). split; [apply merging_inserts|].
      rewrite (set_inserts l Ha Hv Hf). unfold set_iter, iter, first. rewrite map_map. apply map_id.
  Qed.

  (** ** Value-merging maps *)
  Lemma value_inserts veq (l : list (K * V)) : (forall v v', veq v v' = true <-> v = v') -> WF l -> vcanon l ->
    run (map (fun e => OpInsertMergeTouchingIfValuesEqual veq (fst e) (snd e)) l) = l.
  Proof.
    intros Hv. induction l as [|[k v] l IH] using rev_ind; intros W C; [reflexivity|].
    destruct (WF_snoc_elim _ _ _ W) as (W0 & Vk & L).
    assert (C0 : vcanon l) by (intros a x b y Ha Hb; apply C; apply in_app_iff; left; assumption).
    unfold run in *. rewrite map_app, fold_left_app. cbn [map fold_left fst snd]. rewrite (IH W0 C0). cbn [step].
    destruct (insert_merge_touching_if_equal_done veq l k v W0 Vk) as (m' & r & -> & W' & A).
    { intros k' v' Hi O. specialize (L _ Hi). cbn in L. apply overlap_rk in O. lia. }
    cbn [fst]. eapply absorbs_snoc; [exact W|exact W'| |exact A]. intros [k' v'] He [T E]. cbn [fst snd] in *. apply Hv in E. subst v'.
    pose proof (L _ He) as Le. cbn [fst] in Le. pose proof (WF_okv _ _ W0 He) as Ve. unfold elo, ehi in Ve. cbn [fst] in Ve.
    apply valid_rk in Vk. apply touch_rk in T; [|assumption..].
    apply (C k' v k v); [apply in_app_iff; left; exact He|apply in_app_iff; right; left; reflexivity|lia|reflexivity].
  Qed.
  Lemma value_merging_maps veq (l : list (K * V)) : (forall v v', veq v v' = true <-> v = v') ->
    (exists os, Forall (value_merging veq) os /\ iter (run (I := I) os) = l) <->
    Forall valid (map fst l) /\ ascending (map fst l) /\ ForallOrdPairs (fun a b => touch (fst a) (fst b) -> snd a <> snd b) l.
  Proof.
    intros Hv. split.
    - intros (os & HF & <-). pose proof (run_WF os) as W. pose proof (vrun_vcanon veq Hv os HF) as C.
      pose proof (proj2 (ascending_WF _) W) as [A B]. split; [exact B|]. split; [exact A|]. clear A B HF. unfold iter. revert W C.
      generalize (run os). intros m W C. induction m as [|[k v] m IH]; [constructor|]. apply WF_cons in W as (Ve & W & F). constructor.
      + rewrite Forall_forall in F |- *. intros [k' v'] He' T. cbn [fst snd] in *. specialize (F _ He').
        pose proof (WF_okv _ _ W He') as Ve'. unfold okv, elo, ehi in *. cbn [fst] in *. apply touch_rk in T; [|assumption..].
        apply (C k v k' v'); [left; reflexivity|right; exact He'|lia].
      + apply IH; [exact W|]. intros a x b y Ha Hb. apply C; right; assumption.
    - intros (A & B & C). exists (map (fun e => OpInsertMergeTouchingIfValuesEqual veq (fst e) (snd e)) l). split.
      + apply Forall_map, Forall_forall. intros e _. reflexivity.
      + assert (W : WF l) by (apply ascending_WF; auto). apply value_inserts; [exact Hv|exact W|].
        intros k v k' v' Hk Hk' E. destruct (FOP_in _ _ _ _ C Hk Hk') as [X|[X|X]].
        * injection X as -> ->. pose proof (WF_okv _ _ W Hk) as Ve. unfold elo, ehi in Ve. cbn in Ve. lia.
        * apply X. cbn. apply touch_rk; [exact (WF_okv _ _ W Hk)|exact (WF_okv _ _ W Hk')|auto].
        * intros ->. apply X; [|reflexivity]. cbn. apply touch_rk; [exact (WF_okv _ _ W Hk')|exact (WF_okv _ _ W Hk)|auto].
  Qed.

  (** ** ZosditMap *)
  Local Notation same_entry := (ZosditOps.same_entry (I := I)).
  Lemma sorted_inserts os (l : list (K * V)) : Forall not_cut os -> zosdit_iter (zrun os) = [] ->
    Forall valid (map fst l) -> StronglySorted up_to (map fst l) -> 
    let os' := os ++ map (fun e => ZInsertStrictBack (fst e) (snd e)) l in
    Forall2 same_entry l (zosdit_iter (zrun os')) /\ zosdit_len (zrun os') = (zosdit_len (zrun os) + length l)%nat.
  Proof.
    intros Nc E0. induction l as [|[k v] l IH] using rev_ind; intros Hv Hs; cbn zeta.
    - cbn [map length]. rewrite app_nil_r, E0, Nat.add_0_r. split; [constructor|reflexivity].
    - rewrite map_app in Hv, Hs. cbn [map fst] in Hv, Hs. apply Forall_app in Hv as [Hv Vk]. inversion_clear Vk as [|? ? Vk' _].
      apply SS_app in Hs as (Hs & _ & Hlast). destruct (IH Hv Hs) as [F L]. cbn zeta in F, L.
      rewrite map_app. cbn [map fst snd]. rewrite app_assoc, zrun_snoc. set (z := zrun (os ++ _)) in *. cbn [zstep].
      assert (Wz : ZWF z) by apply zrun_ZWF.
      assert (Dz : ZD (z_inner z)).
      { apply zrun_ZD. apply Forall_app. split; [exact Nc|]. apply Forall_map, Forall_forall. intros e _. exact Logic.I. }
      assert (U : forall e, In e (zosdit_iter z) -> up_to (fst e) k).
      { intros e He. assert (X : exists x, In x l /\ same_entry x e).
        { clear - F He. induction F as [|a b la lb R F IH]; [contradiction|]. destruct He as [<-|He]; [exists a; split; [left; reflexivity|exact R]|].
          destruct (IH He) as (x & Hx & Rx). exists x. split; [right; exact Hx|exact Rx]. }
        destruct X as (x & Hx & S & _). intros p q Hp Hq. apply S in Hp.
        apply (Hlast (fst x) k (in_map fst _ _ Hx) (or_introl eq_refl)); assumption. }
      destruct (insert_back_spec z k v Wz Vk') as [_ X].
      destruct X as (z' & l1 & k' & l2 & Ei & Ln & E1 & E2 & Sk & _ & U1 & U2 & U3).
      { intros e He. pose proof (iter_okv z e Wz He) as Ve. apply valid_rk in Vk'. apply zero_overlap_rk; [exact Ve|exact Vk'|].
        left. apply (up_to_rk (fst e) k Ve Vk'), U, He. }
      rewrite Ei. cbn [fst]. assert (l2 = []).
      { destruct l2 as [|e l2]; [reflexivity|]. exfalso. apply (U3 (or_intror Dz) e (or_introl eq_refl)), U.
        rewrite E1. apply in_app_iff. right. left. reflexivity. }
      subst l2. rewrite app_nil_r in E1. subst l1. split.
      + rewrite E2. apply Forall2_app; [exact F|]. constructor; [|constructor]. split; [|reflexivity]. intros p. symmetry. apply Sk.
      + rewrite Ln, L, app_length. cbn [length]. lia.
  Qed.
  (** An insertion taken back leaves the counter one too high. *)
  Definition in_and_out (k : K) (v : V) : list (zop I K V) := [ZInsertStrictBack k v; ZRemoveLast (istart k)].
  Lemma in_and_outs k v n : valid k -> let os := concat (repeat (in_and_out k v) n) in
    Forall not_cut os /\ zrun os = mkZosdit n [].
  Proof.
    intros Vk. cbn zeta. induction n as [|n [IH1 IH2]]; [split; [constructor|reflexivity]|].
    replace (repeat (in_and_out k v) (S n)) with (repeat (in_and_out k v) n ++ [in_and_out k v])
      by (rewrite <- repeat_cons; reflexivity).
    rewrite concat_app. cbn [concat in_and_out app]. split.
    - apply Forall_app. split; [exact IH1|repeat constructor].
    - unfold zrun in *. rewrite fold_left_app, IH2. cbn [fold_left zstep].
      unfold insert_strict_back, is_zero_overlap. rewrite iip_valid by exact Vk. cbn [obind z_inner z_len range seek snd take_upper entry_push app fst].
      unfold remove_last_value_at_point, last_value_cursor, lower_bound. cbn [z_inner z_len seek].
      assert (Cp : contains_point k (istart k) = true).
      { rewrite contains_point_rk. apply valid_rk in Vk. unfold lo, hi in *. rewrite andb_true_iff, !Z.leb_le. lia. }
      destruct (exclusive_comp (istart k) Gt k); cbn; rewrite Cp; cbn; f_equal; lia.
  Qed.
  Lemma zosdits (v0 : V) (l : list (K * V)) n :
    (exists os, Forall2 same_entry l (zosdit_iter (zrun (I := I) os)) /\ zosdit_len (zrun os) = n) <->
    Forall valid (map fst l) /\ StronglySorted up_to (map fst l) /\ (length l <= n)%nat.
  Proof.
    split.
    - intros (os & F & <-). pose proof (zrun_ZWF os) as Wz. destruct (iter_sorted _ Wz) as (A & B & _).
      revert F A B. destruct Wz as (_ & _ & Len). revert Len. unfold count. 
      assert (X : (length (zosdit_iter (zrun os)) <= zosdit_len (zrun os))%nat).
      { apply (zrun_ZWF os). }
      intros _. revert X. generalize (zosdit_len (zrun os)) (zosdit_iter (zrun os)). intros m l' Lm F A B.
      assert (N : length l = length l') by (clear - F; induction F; cbn; congruence).
      split; [|split; [|lia]].
      + clear - F A. induction F as [|a b la lb [S _] F IH]; [constructor|]. cbn in A |- *. inversion_clear A as [|? ? Va A'].
        constructor; [|apply IH, A']. destruct Va as [p Hp]. exists p. apply S, Hp.
      + clear - F B. induction F as [|a b la lb [S _] F IH]; [constructor|]. cbn in B |- *. inversion_clear B as [|? ? B' H'].
        constructor; [apply IH, B'|]. clear - F S H'. rewrite Forall_map in H' |- *. induction F as [|c d lc ld [S' _] F IH]; [constructor|].
        inversion_clear H' as [|? ? U H'']. constructor; [|apply IH, H'']. intros p q Hp Hq. apply U; [apply S, Hp|apply S', Hq].
    - intros (A & B & L). set (k0 := ifrom (mkInterval MIN MIN) : K).
      assert (V0 : valid k0).
      { apply valid_rk. unfold k0. rewrite from_lo, from_hi by (unfold lo, hi; cbn; lia). unfold lo, hi. cbn. lia. }
      destruct (in_and_outs k0 v0 (n - length l) V0) as [N E]. cbn zeta in N, E.
      destruct (sorted_inserts _ l N) as [F G]; [rewrite E; reflexivity|exact A|exact B|].
      eexists. split; [exact F|]. rewrite G, E. unfold zosdit_len. cbn. lia.
  Qed.
End Reach.

Section ReachG.
  Context {I : Type} {OI : Ord I} {DI : DiscreteFinite I} {PL : PointLaws I} {OLI : OrdLaws I}.
  Context {K : Type} {IK : InclusiveInterval I K} {IL : IntervalLaws I K} {FI : FromInvalid I K}.
  Context {D : Type} {OD : Ord D} {OLD : OrdLaws D}.
  Lemma gqdits (g : Gqdit K D) : greachable g <-> ascending (map fst (iter g)) /\ describes_gqdit (iter g).
  Proof.
    split.
    - intros R. apply greachable_GWF in R. split; [apply ascending_WF, R|apply GWF_describes, R].
    - intros [A X]. destruct (describes_GWF g X) as (g' & _ & G & P). pose proof X as ([Hv _] & _).
      replace g with g'; [apply GWF_greachable, G|]. apply WF_perm_eq; [apply G|apply ascending_WF; auto|].
      intros e. split; intros He; [apply (Permutation_in _ (Permutation_sym P) He)|apply (Permutation_in _ P He)].
  Qed.
End ReachG.
