(** * CostFacts: how often a NoditMap call changes the tree. *)
From Coq Require Import List ZArith Bool Lia ZifyBool Arith.
From Verif Require Import Base BTree UtilsModel IntervalModel NoditModel NoditOps Spec Ledger PointFacts IntervalFacts ListFacts
  NoditFacts NoditQueries NoditMutations NoditMerges NoditInv NoditMore NoditSize TraceModel TraceSpec TraceFacts CostOps.
Import ListNotations.
Open Scope nat_scope.

Section Lists.
  Context {T : Type}.
  Implicit Types (t : list (list T)).
  Lemma added_cons (s s' : list T) r : tree_adds (s :: s' :: r) = (if length s <? length s' then 1 else 0) + tree_adds (s' :: r).
  Proof. reflexivity. Qed.
  Lemma removed_cons (s s' : list T) r : tree_removes (s :: s' :: r) = (if length s' <? length s then 1 else 0) + tree_removes (s' :: r).
  Proof. reflexivity. Qed.
  Lemma one_entry_length (l l' : list T) : one_entry l l' ->
    length l' = length l \/ length l' = S (length l) \/ length l = S (length l').
  Proof.
    intros [->|(A & e & B & [[-> ->]|[-> ->]])]; [auto| |]; rewrite !app_length; cbn [length]; lia.
  Qed.
  (** What comes, what goes, what stays. *)
  Lemma balance t x z : path one_entry t x z -> length z + tree_removes t = length x + tree_adds t.
  Proof.
    intros P. induction P as [x|x y l z R P IH]; [reflexivity|].
    destruct (path_head _ _ _ _ P) as (r & ->). rewrite added_cons, removed_cons. apply one_entry_length in R.
    destruct (Nat.ltb_spec (length x) (length y)), (Nat.ltb_spec (length y) (length x)); lia.
  Qed.
  Lemma added_app t1 t2 y y' d : last t1 d = y -> t1 <> [] -> (exists r, t2 = y' :: r) ->
    tree_adds (t1 ++ t2) = tree_adds t1 + (if length y <? length y' then 1 else 0) + tree_adds t2.
  Proof.
    intros L N (r & ->). induction t1 as [|a [|b t1] IH]; [congruence| |].
    - cbn in L. subst. reflexivity.
    - change ((a :: b :: t1) ++ y' :: r) with (a :: b :: (t1 ++ y' :: r)). rewrite !added_cons.
      change (b :: t1 ++ y' :: r) with ((b :: t1) ++ y' :: r). rewrite IH; [lia|exact L|discriminate].
  Qed.
  Lemma added_path_app t1 t2 x y y' z (R R' : list T -> list T -> Prop) : path R t1 x y -> path R' t2 y' z ->
    tree_adds (t1 ++ t2) = tree_adds t1 + (if length y <? length y' then 1 else 0) + tree_adds t2.
  Proof.
    intros P1 P2. apply added_app with (d := []); [apply (path_last _ _ _ _ _ P1)| |apply (path_head _ _ _ _ P2)].
    destruct (path_head _ _ _ _ P1) as (r & ->). discriminate.
  Qed.
  (** Falling paths. *)
  Definition falls (l l' : list T) : Prop := length l' <= length l.
  Lemma falls_added t x z : path falls t x z -> tree_adds t = 0.
  Proof.
    intros P. induction P as [x|x y l z R P IH]; [reflexivity|].
    destruct (path_head _ _ _ _ P) as (r & ->). rewrite added_cons, IH. unfold falls in R. destruct (Nat.ltb_spec (length x) (length y)); lia.
  Qed.
End Lists.

Section Cost.
  Context {I : Type} `{PL : PointLaws I}.
  Context {K : Type} {IK : InclusiveInterval I K} {IL : IntervalLaws I K}.
  Context {V : Type}.
  Notation entry := (K * V)%type.
  Implicit Types (m A B M : NoditMap K V).

  Lemma drops_length (P : entry -> Prop) l l' : drops P l l' -> length l' <= length l.
  Proof. induction 1; cbn [length]; lia. Qed.
  Lemma removed_sub (P Q : entry -> Prop) l l' r : drops P l l' -> (forall e, In e l -> P e -> Q e) -> sub Q l r -> length l <= length l' + length r.
  Proof.
    intros D. revert r. induction D as [|e l l' D IH|e l l' Pe D IH]; intros r HP S; inversion S as [|? ? r' Q' S'|? ? ? N S']; subst; cbn [length].
    - lia.
    - specialize (IH r' (fun x Hx => HP x (or_intror Hx)) S'). lia.
    - specialize (IH r (fun x Hx => HP x (or_intror Hx)) S'). lia.
    - specialize (IH r' (fun x Hx => HP x (or_intror Hx)) S'). lia.
    - exfalso. apply N, HP; [left; reflexivity|exact Pe].
  Qed.

  Section Q.
    Context {Q : Type} {IQ : InclusiveInterval I Q}.
    Implicit Type q : Q.
    Lemma remove_loop_falls q (pre post acc : list entry) :
      path falls (remove_overlapping_loop_t q pre post) (pre ++ post) (fst (remove_overlapping_loop q pre post acc)).
    Proof.
      revert acc. induction post as [|[k v] post IH]; intros acc; cbn [remove_overlapping_loop_t remove_overlapping_loop]; [constructor|].
      destruct (overlaps q k) as [[|]|]; [|constructor|constructor].
      econstructor; [|apply IH]. unfold falls. rewrite !app_length. cbn [length]. lia.
    Qed.
    Lemma remove_added q m : tree_adds (remove_overlapping_t q m) = 0.
    Proof.
      unfold remove_overlapping_t. destruct (invalid_interval_panic q); [|reflexivity].
      destruct (lower_bound (overlapping_comp (istart q)) m) as [pre post] eqn:E. cbn [fst snd].
      eapply falls_added. econstructor; [|apply (remove_loop_falls q pre post [])].
      unfold falls. unfold lower_bound in E. apply seek_app' in E. rewrite E. lia.
    Qed.

    Lemma cut_list_two q M out ins : (lo q <= hi q)%Z -> cut_list q M out ins -> WF M ->
      Forall (meets (lo q) (hi q)) M -> length out <= 2.
    Proof.
      intros Vq HC W HM. destruct HC as [|e ps i M out ins He HC]; [cbn; lia|].
      apply WF_cons in W. destruct W as (Ve & W & We). inversion HM as [|? ? Hme HM']; subst.
      assert (HL : Forall (fun e => (lo q <= elo e)%Z) M).
      { rewrite Forall_forall in *. intros x Hx. specialize (We x Hx). unfold meets in Hme. lia. }
      pose proof (cut_list_right q M out ins Vq HC W HM' HL) as [L1 L2].
      destruct He as [(b & a & -> & Hb & Ha) _ _ _ _].
      destruct a as [a|]; [|rewrite !app_length; destruct b; cbn [opt_list length]; lia].
      assert (M = []) as ->.
      { destruct M as [|x M]; [reflexivity|exfalso]. inversion We as [|? ? Hx _]; subst.
        inversion HM' as [|? ? Hmx _]; subst. unfold meets in *. lia. }
      inversion HC; subst. rewrite !app_length. destruct b; cbn [opt_list length]; lia.
    Qed.
    Lemma cut_loop_added q pre M B acc :
      (lo q <= hi q)%Z -> Forall okv (M ++ B) -> Forall (meets (lo q) (hi q)) M -> Forall (right_of (hi q)) B ->
      exists out ins, cut_loop q pre (M ++ B) acc = (pre ++ out ++ B, Val (acc ++ ins)) /\ cut_list q M out ins /\
        tree_adds (cut_loop_t q pre (M ++ B)) = length out.
    Proof.
      intros Vq HV HM HB. revert pre acc. induction M as [|[k v] M IH]; intros pre acc.
      - exists [], []. cbn [app]. rewrite app_nil_r.
        assert (E : cut_loop_t q pre B = [pre ++ B] /\ cut_loop q pre B acc = (pre ++ B, Val acc)).
        { destruct B as [|[k v] B]; [split; reflexivity|]. cbn [cut_loop_t cut_loop].
          inversion HB as [|? ? Hk _]; subst. inversion HV as [|? ? Vk _]; subst. unfold right_of, okv, elo, ehi in *. cbn in *.
          rewrite overlaps_true by lia. replace (_ && _) with false by lia. split; reflexivity. }
        destruct E as [-> ->]. split; [reflexivity|]. split; [constructor|reflexivity].
      - cbn [app cut_loop_t cut_loop]. inversion HM as [|? ? Hk HM']; subst.
        inversion HV as [|? ? Vk HV']; subst.
        destruct (cut_one q k v Vq Vk Hk) as (r & i & b & a & Er & Ei & Eb & Ea & CE).
        unfold meets, okv, elo, ehi in Hk, Vk. cbn [fst] in Hk, Vk.
        rewrite overlaps_true by lia. replace (_ && _) with true by lia. rewrite Er, Ei. cbv zeta. rewrite !Eb, !Ea.
        destruct (IH HV' HM' ((pre ++ opt_list b) ++ opt_list a) (acc ++ [(ifrom i, v)])) as (out & ins & E & HC & L).
        exists ((opt_list b ++ opt_list a) ++ out), ((ifrom i, v) :: ins). rewrite E. split; [rewrite <- !app_assoc; reflexivity|].
        split; [constructor; assumption|].
        assert (HH : exists r', cut_loop_t q ((pre ++ opt_list b) ++ opt_list a) (M ++ B) = (((pre ++ opt_list b) ++ opt_list a) ++ M ++ B) :: r').
        { destruct (M ++ B) as [|[? ?] ?]; cbn [cut_loop_t]; eauto. }
        destruct HH as (r' & Er'). rewrite Er' in *.
        rewrite !added_cons, L. clear. rewrite !app_length. cbn [length]. rewrite !app_length.
        destruct b, a; cbn [opt_list length];
          repeat match goal with |- context [?x <? ?y] => destruct (Nat.ltb_spec x y) end; lia.
    Qed.
    Lemma cut_added q m : WF m -> valid q ->
      tree_adds (cut_t q m) <= 2 /\ exists l, sub (fun e => overlap (fst e) q) m l /\ length l = tree_removes (cut_t q m).
    Proof.
      intros W Vq. destruct (split_overlap m q W Vq) as (A & M & B & -> & HA & HM & HB & HS & _).
      destruct (cut_t_ok q (A ++ M ++ B) W Vq) as [P _]. apply balance in P. revert P.
      unfold cut_t, cut. rewrite (iip_valid _ Vq). apply valid_rk in Vq as Vq'. unfold lower_bound.
      pose proof W as W0. apply WF_app in W0. destruct W0 as (_ & W0 & _). pose proof W0 as W1. destruct W0 as [_ V0].
      apply WF_app in W1. destruct W1 as (WM & _ & _).
      rewrite seek_split; [|exact W|exact HA|].
      - cbn [fst snd]. destruct (cut_loop_added q A M B [] Vq' V0 HM HB) as (out & ins & E & HC & L). rewrite E. cbn [fst].
        assert (HH : exists r', cut_loop_t q A (M ++ B) = (A ++ M ++ B) :: r').
        { destruct (M ++ B) as [|[? ?] ?]; cbn [cut_loop_t]; eauto. }
        destruct HH as (r' & Er'). unfold NoditMap, BTreeMap in *. rewrite !Er' in *. rewrite !added_cons, !removed_cons, Nat.ltb_irrefl, L. cbn [Nat.add].
        rewrite !app_length. intros P.
        split; [exact (cut_list_two q M out ins Vq' HC WM HM)|]. exists M. split; [exact HS|lia].
      - rewrite Forall_app in *. destruct V0 as [_ VB].
        split; rewrite Forall_forall in *; intros x Hx.
        + specialize (HM x Hx). unfold meets, lo in *. lia.
        + specialize (HB x Hx). specialize (VB x Hx). unfold right_of, okv, lo, hi in *. lia.
    Qed.
  End Q.

  Lemma remove_length (c : K -> comparison) m : length (fst (remove c m)) <= length m.
  Proof.
    destruct (remove_cases c m) as (_ & D & _). apply (drops_length _ _ _ D).
  Qed.
  Lemma comps_added (k : K) (v : V) gs ge rs re m :
    (forall m', length (rs m' v) <= length m') -> (forall m', length (re m' v) <= length m') ->
    tree_adds (insert_merge_with_comps_t k v gs ge rs re m) <= 1.
  Proof.
    intros Hs He. unfold insert_merge_with_comps_t. destruct (valid_dec k) as [Vk|Nk]; [rewrite (iip_valid _ Vk)|rewrite (iip_invalid _ Nk); cbn; lia].
    destruct (remove_overlapping k m) as [m1 [rem|]] eqn:R.
    - assert (P : path falls (remove_overlapping_t k m) m m1).
      { unfold remove_overlapping_t. unfold remove_overlapping in R. rewrite (iip_valid _ Vk) in *.
        destruct (lower_bound (overlapping_comp (istart k)) m) as [pre post] eqn:E. cbn [fst snd] in *.
        assert (E' : m = pre ++ post) by (unfold lower_bound in E; apply seek_app' in E; exact E).
        econstructor; [unfold falls; reflexivity|]. replace m1 with (fst (remove_overlapping_loop k pre post [])) by (rewrite R; reflexivity).
        rewrite E' at 1. apply remove_loop_falls. }
      destruct (path_head _ _ _ _ P) as (r & Er). unfold NoditMap, BTreeMap in *. rewrite Er. cbn [app].
      rewrite added_cons, Nat.ltb_irrefl. cbn [Nat.add].
      change (m :: r ++ ?x) with ((m :: r) ++ x). rewrite <- Er. cbv zeta.
      erewrite added_app with (d := []) (y := m1); [|apply (path_last _ _ _ _ _ P)|rewrite Er; discriminate|eauto].
      rewrite (remove_added k m), !added_cons. cbn [tree_adds]. specialize (Hs m1). specialize (He (rs m1 v)).
      repeat match goal with |- context [?x <? ?y] => destruct (Nat.ltb_spec x y) end; lia.
    - rewrite app_nil_r.
      assert (Er : exists r, remove_overlapping_t k m = m :: r) by (unfold remove_overlapping_t; eauto).
      destruct Er as (r & Er). unfold NoditMap, BTreeMap in *. rewrite Er, added_cons, Nat.ltb_irrefl, <- Er, remove_added. lia.
  Qed.
  Lemma free_added (k : K) m t : (exists r, t = m :: r) -> tree_adds t <= 1 -> tree_adds (if_free_t k m t) <= 1.
  Proof.
    intros (r & ->) L. unfold if_free_t. unfold NoditMap, BTreeMap in *. destruct (invalid_interval_panic k); [|cbn; lia]. destruct (map_overlaps m k) as [[|]|]; [cbn; lia| |cbn; lia].
    unfold NoditMap, BTreeMap in *; rewrite added_cons, Nat.ltb_irrefl. exact L.
  Qed.

  Lemma call_added o m : WF m -> by_entries o -> tree_adds (trace m o) <= at_most_added o.
  Proof.
    intros W By. destruct o as [|k v|k v|veq k v|k v|k v|k v|Q IQ q|Q IQ q|Q IQ g q|g p|g|l|l]; try destruct By; cbn [at_most_added].
    - cbn [trace]. unfold NoditMap, BTreeMap in *; rewrite added_cons. cbn [tree_adds]. destruct (_ <? _); lia.
    - cbn [trace]. apply free_added; [unfold insert_merge_with_comps_t; eauto|]. apply comps_added; intros m'; apply remove_length.
    - cbn [trace]. apply free_added; [unfold insert_merge_with_comps_t; eauto|].
      apply comps_added; intros m'; (destruct (is_some _); [apply remove_length|lia]).
    - cbn [trace]. apply comps_added; intros m'; lia.
    - cbn [trace]. apply comps_added; intros m'; apply remove_length.
    - destruct (valid_dec k) as [Vk|Nk].
      + destruct (cut_added k m W Vk) as [L _]. cbn [trace].
        destruct (cut_t_ok k m W Vk) as [P _]. destruct (path_head _ _ _ _ P) as (r & Er).
        rewrite (added_app (cut_t k m) _ (fst (cut k m)) (step m (OpInsertOverwrite k v)) []); [|apply (path_last _ _ _ _ _ P)|rewrite Er; discriminate|eauto].
        cbn [tree_adds]. destruct (_ <? _); lia.
      + cbn [trace]. destruct (cut_t_invalid k m Nk) as [-> _]. cbn [app]. unfold NoditMap, BTreeMap in *; rewrite added_cons. cbn [tree_adds]. destruct (_ <? _); lia.
    - cbn [trace]. rewrite remove_added. lia.
    - cbn [trace]. destruct (valid_dec q) as [Vq|Nq]; [apply (cut_added q m W Vq)|].
      destruct (cut_t_invalid q m Nq) as [-> _]. cbn. lia.
  Qed.
  Lemma call_balance o m : WF m -> by_entries o -> length (step m o) + tree_removes (trace m o) = length m + tree_adds (trace m o).
  Proof. intros W By. apply balance, (traced_any o m W By). Qed.

  Lemma sub_split (P : entry -> Prop) m r k : sub P m r -> sub (fun e => ~ P e) m k -> length m = length r + length k.
  Proof.
    intros S. revert k. induction S as [|e l r Pe S IH|e l r Ne S IH]; intros k S'; inversion S' as [|? ? k' N S2|? ? ? N S2]; subst; cbn [length];
      try tauto; try (rewrite (IH _ S2)); lia.
  Qed.
  Lemma call_removed o m r : WF m -> by_entries o -> sub (about o) m r -> tree_removes (trace m o) <= length r.
  Proof.
    intros W By S. pose proof (call_balance o m W By) as Ba. pose proof (call_added o m W By) as Ad.
    assert (Same : step m o = m -> tree_adds (trace m o) = 0 -> tree_removes (trace m o) <= length r) by (intros E E0; rewrite E in Ba; lia).
    assert (Abs : forall P k v x, (forall e, P e <-> about o e) -> absorbs P k v m (step m o) x -> at_most_added o = 1 -> tree_removes (trace m o) <= length r).
    { intros P k v x HP HA A1. destruct (absorbs_size _ _ _ _ _ _ HA) as (l & Hs & L).
      assert (S' : sub (fun e => ~ about o e) m l).
      { clear -Hs HP. induction Hs as [|e l l' N S IH|e l l' N S IH]; [constructor| |].
        - apply sub_keep; [rewrite <- HP; exact N|exact IH].
        - apply sub_drop; [rewrite <- HP; exact N|exact IH]. }
      pose proof (sub_split _ _ _ _ S S'). lia. }
    destruct o as [|k v|k v|veq k v|k v|k v|k v|Q IQ q|Q IQ q|Q IQ g q|g p|g|l|l]; try destruct By.
    - clear -Ba Ad W. cbn [at_most_added] in Ad. assert (length m <= length (step m (OpInsertStrict k v))).
      { cbn [step]. destruct (valid_dec k) as [Vk|Nk]; [|rewrite insert_strict_invalid by exact Nk; cbn; lia].
        destruct (overlap_dec m k W Vk) as [Ho|Hn]; [rewrite insert_strict_refused by assumption; cbn; lia|].
        destruct (insert_strict_done m k v W Vk Hn) as (l1 & l2 & -> & -> & _). cbn [fst]. rewrite !app_length. cbn [length]. lia. }
      cbn [trace] in *. unfold NoditMap, BTreeMap in *; rewrite removed_cons. cbn [tree_removes]. destruct (Nat.ltb_spec (length (step m (OpInsertStrict k v))) (length m)); lia.
    - destruct (valid_dec k) as [Vk|Nk].
      + destruct (overlap_dec m k W Vk) as [Ho|Hn].
        * apply Same; [cbn [step]; rewrite (insert_merge_touching_refused m k v W Vk Ho); reflexivity|].
          cbn [trace]. unfold if_free_t. rewrite (iip_valid _ Vk). destruct (map_overlaps_spec m k W Vk) as (b & Eb & Hb). rewrite Eb.
          destruct b; [reflexivity|]. apply Hb in Ho. discriminate.
        * destruct (insert_merge_touching_done m k v W Vk Hn) as (m' & x & E & _ & HA).
          apply (Abs (fun e => touch (fst e) k) k v x); [reflexivity| |reflexivity]. cbn [step]. rewrite E. exact HA.
      + apply Same; [cbn [step]; rewrite insert_merge_touching_invalid by exact Nk; reflexivity|]. cbn [trace]. unfold if_free_t. rewrite (iip_invalid _ Nk). reflexivity.
    - destruct (valid_dec k) as [Vk|Nk].
      + destruct (overlap_dec m k W Vk) as [Ho|Hn].
        * apply Same; [cbn [step]; rewrite (insert_merge_touching_if_equal_refused veq m k v W Vk Ho); reflexivity|].
          cbn [trace]. unfold if_free_t. rewrite (iip_valid _ Vk). destruct (map_overlaps_spec m k W Vk) as (b & Eb & Hb). rewrite Eb.
          destruct b; [reflexivity|]. apply Hb in Ho. discriminate.
        * destruct (insert_merge_touching_if_equal_done veq m k v W Vk Hn) as (m' & x & E & _ & HA).
          apply (Abs (fun e => touch (fst e) k /\ veq (snd e) v = true) k v x); [reflexivity| |reflexivity]. cbn [step]. rewrite E. exact HA.
      + apply Same; [cbn [step]; rewrite insert_merge_touching_if_equal_invalid by exact Nk; reflexivity|]. cbn [trace]. unfold if_free_t. rewrite (iip_invalid _ Nk). reflexivity.
    - destruct (valid_dec k) as [Vk|Nk].
      + destruct (insert_merge_overlapping_spec m k v W Vk) as (m' & x & E & _ & HA).
        apply (Abs (fun e => overlap (fst e) k) k v x); [reflexivity| |reflexivity]. cbn [step]. rewrite E. exact HA.
      + apply Same; [cbn [step]; rewrite insert_merge_overlapping_invalid by exact Nk; reflexivity|]. cbn [trace]. unfold insert_merge_with_comps_t. rewrite (iip_invalid _ Nk). reflexivity.
    - destruct (valid_dec k) as [Vk|Nk].
      + destruct (insert_merge_touching_or_overlapping_spec m k v W Vk) as (m' & x & E & _ & HA).
        apply (Abs (fun e => touch (fst e) k \/ overlap (fst e) k) k v x); [reflexivity| |reflexivity]. cbn [step]. rewrite E. exact HA.
      + apply Same; [cbn [step]; rewrite insert_merge_tor_invalid by exact Nk; reflexivity|]. cbn [trace]. unfold insert_merge_with_comps_t. rewrite (iip_invalid _ Nk). reflexivity.
    - destruct (valid_dec k) as [Vk|Nk].
      + destruct (cut_added k m W Vk) as (_ & l & S' & L). cbn [about] in S. rewrite <- (sub_unique _ _ _ _ S S') in L.
        destruct (cut_t_ok k m W Vk) as [P _]. apply balance in P.
        destruct (overwrite_size m k v W Vk) as (m' & out & E & L' & _).
        assert (X : step m (OpInsertOverwrite k v) = m') by (cbn [step]; rewrite E; reflexivity). rewrite X in *.
        assert (Y : tree_adds (trace m (OpInsertOverwrite k v)) <= 1 + tree_adds (cut_t k m)).
        { cbn [trace]. rewrite X. destruct (cut_t_ok k m W Vk) as [P' _]. destruct (path_head _ _ _ _ P') as (r' & Er).
          rewrite (added_app (cut_t k m) _ (fst (cut k m)) m' []); [|apply (path_last _ _ _ _ _ P')|rewrite Er; discriminate|eauto].
          cbn [tree_adds]. destruct (_ <? _); lia. }
        lia.
      + apply Same; [cbn [step]; rewrite insert_overwrite_invalid by exact Nk; reflexivity|]. cbn [trace].
        destruct (cut_t_invalid k m Nk) as [-> _]. cbn [step]. rewrite insert_overwrite_invalid by exact Nk. cbn [app fst]. unfold NoditMap, BTreeMap in *; rewrite added_cons, Nat.ltb_irrefl. reflexivity.
    - destruct (valid_dec q) as [Vq|Nq].
      + destruct (remove_overlapping_spec m q W Vq) as (m' & rem & E & S1 & S2 & _). cbn [about] in S. rewrite (sub_unique _ _ _ _ S S1).
        pose proof (sub_split _ _ _ _ S1 S2) as L. cbn [step] in Ba. rewrite E in Ba. cbn [fst] in Ba. cbn [at_most_added] in Ad. lia.
      + apply Same; [cbn [step]; destruct (remove_t_invalid q m Nq) as [_ ->]; reflexivity|]. cbn [trace]. apply remove_added.
    - destruct (valid_dec q) as [Vq|Nq].
      + destruct (cut_added q m W Vq) as (_ & l & S' & L). cbn [about] in S. cbn [trace]. rewrite <- L, (sub_unique _ _ _ _ S S'). lia.
      + cbn [trace]. destruct (cut_t_invalid q m Nq) as [-> _]. cbn. lia.
  Qed.

  Lemma work_bound os : forall m, WF m -> Forall by_entries os -> work m os + length (fold_left step os m) <= length m + 6 * length os.
  Proof.
    induction os as [|o os IH]; intros m W F; cbn [work fold_left length]; [lia|].
    inversion F as [|? ? By F']; subst. specialize (IH (step m o) (step_WF m o W) F').
    pose proof (call_balance o m W By). pose proof (call_added o m W By). assert (at_most_added o <= 3) by (destruct o; cbn; lia). lia.
  Qed.
End Cost.
