(** * NoditSize: how many entries a NoditMap gains. *)
From Coq Require Import List ZArith Bool Lia ZifyBool Sorting.Sorted Permutation.
From Verif Require Import Base BTree UtilsModel IntervalModel NoditModel NoditOps Spec Ledger PointFacts IntervalFacts ListFacts
  NoditFacts NoditQueries NoditGaps NoditMutations NoditMerges NoditInv NoditMore.
Import ListNotations.
Open Scope Z_scope.

Section Size.
  Context {I : Type} `{PL : PointLaws I}.
  Context {K : Type} {IK : InclusiveInterval I K} {IL : IntervalLaws I K}.
  Context {V : Type}.
  Notation entry := (K * V)%type.
  Implicit Types (m A B M : NoditMap K V).

  Lemma sub_length {T} (P : T -> Prop) (l l' : list T) : sub P l l' -> (length l' <= length l)%nat.
  Proof. induction 1; cbn [length]; lia. Qed.

  Lemma F2_length {S T} (R : S -> T -> Prop) l l' : Forall2 R l l' -> length l = length l'.
  Proof. induction 1; cbn [length]; congruence. Qed.

  Section Cut.
    Context {Q : Type} {IQ : InclusiveInterval I Q}.
    Implicit Type q : Q.

    Lemma cut_list_right q M out ins : lo q <= hi q -> cut_list q M out ins -> WF M ->
      Forall (meets (lo q) (hi q)) M -> Forall (fun e => lo q <= elo e) M ->
      (length out <= 1 /\ length out <= length M)%nat.
    Proof.
      intros Vq HC. induction HC as [|e ps i M out ins He HC IH]; intros W HM HL; [cbn; lia|].
      apply WF_cons in W. destruct W as (Ve & W & We). inversion HM as [|? ? Hme HM']; subst.
      inversion HL as [|? ? Hle HL']; subst. specialize (IH W HM' HL').
      destruct He as [(b & a & -> & Hb & Ha) _ _ _ _].
      destruct b as [b|]; [lia|]. destruct a as [a|]; cbn [opt_list app length] in *; [|lia].
      assert (M = []) as ->.
      { destruct M as [|x M]; [reflexivity|exfalso]. inversion We as [|? ? Hx _]; subst.
        inversion HM' as [|? ? Hmx _]; subst. unfold meets in *. lia. }
      inversion HC; subst. cbn. lia.
    Qed.

    Lemma cut_list_size q M out ins : lo q <= hi q -> cut_list q M out ins -> WF M ->
      Forall (meets (lo q) (hi q)) M ->
      (length out <= length M + 1)%nat /\
      ((length out = length M + 1)%nat <-> exists e, In e M /\ elo e < lo q /\ hi q < ehi e).
    Proof.
      intros Vq HC W HM. destruct HC as [|e ps i M out ins He HC].
      { split; [cbn; lia|]. split; [cbn; lia|intros (e & [] & _)]. }
      apply WF_cons in W. destruct W as (Ve & W & We). inversion HM as [|? ? Hme HM']; subst.
      assert (HL : Forall (fun e => lo q <= elo e) M).
      { rewrite Forall_forall in *. intros x Hx. specialize (We x Hx). unfold meets in Hme. lia. }
      pose proof (cut_list_right q M out ins Vq HC W HM' HL) as [L1 L2].
      assert (Sp : forall e', In e' (e :: M) -> elo e' < lo q -> hi q < ehi e' -> e' = e).
      { intros e' [<-|He'] S1 S2; [reflexivity|exfalso]. rewrite Forall_forall in HL. specialize (HL e' He'). lia. }
      destruct He as [(b & a & -> & Hb & Ha) _ _ _ _].
      assert (NM : hi q < ehi e -> M = []).
      { intros S2. destruct M as [|x M]; [reflexivity|exfalso]. inversion We as [|? ? Hx _]; subst.
        inversion HM' as [|? ? Hmx _]; subst. unfold meets in *. lia. }
      destruct b as [b|], a as [a|]; cbn [opt_list app length] in *.
      - rewrite NM in * by lia. inversion HC; subst. cbn. split; [lia|]. split; [|lia].
        intros _. exists e. split; [left; reflexivity|lia].
      - split; [lia|]. split; [lia|]. intros (e' & He' & S1 & S2). assert (e' = e) by (apply Sp; assumption). subst e'. lia.
      - rewrite NM in * by lia. inversion HC; subst. cbn. split; [lia|]. split; [lia|].
        intros (e' & He' & S1 & S2). assert (e' = e) by (apply Sp; assumption). subst e'. lia.
      - split; [lia|]. split; [lia|]. intros (e' & He' & S1 & S2). assert (e' = e) by (apply Sp; assumption). subst e'. lia.
    Qed.

    Lemma cut_size m q : WF m -> valid q ->
      exists m' out, cut q m = (m', Val out) /\
        (length m' <= length m + 1)%nat /\
        ((length m' = length m + 1)%nat <-> exists k v, In (k, v) m /\ lo k < lo q /\ hi q < hi k) /\
        (m = [] -> m' = []).
    Proof.
      intros W Vq. destruct (cut_facts m q W Vq) as (A & M & B & out & ins & Em & HA & HM & HB & E & HC & HS & W').
      exists (A ++ out ++ B), ins. split; [exact E|]. apply valid_rk in Vq.
      assert (WM : WF M). { rewrite Em in W. apply WF_app in W. destruct W as (_ & W & _). apply WF_app in W. apply W. }
      destruct (cut_list_size q M out ins Vq HC WM HM) as [L1 L2].
      assert (Lm : length m = (length A + (length M + length B))%nat) by (rewrite Em, !app_length; reflexivity).
      rewrite Lm, !app_length. split; [lia|]. split; [split|].
      - intros Le. destruct L2 as [L2 _]. destruct L2 as (e & He & S1 & S2); [lia|].
        exists (fst e), (snd e). split; [|split; [exact S1|exact S2]]. rewrite Em, !in_app_iff. right. left. destruct e; exact He.
      - intros (k & v & Hin & S1 & S2). assert (length out = length M + 1)%nat; [|lia].
        apply L2. exists (k, v). split; [|split; assumption].
        rewrite Em, !in_app_iff in Hin. rewrite Forall_forall in HA, HB.
        destruct Hin as [Hin|[Hin|Hin]]; [specialize (HA _ Hin)|exact Hin|specialize (HB _ Hin)];
          unfold left_of, right_of, elo, ehi in *; cbn [fst] in *; lia.
      - intros En. rewrite En in Em. symmetry in Em. apply app_eq_nil in Em. destruct Em as [-> Em].
        apply app_eq_nil in Em. destruct Em as [-> ->]. inversion HC; subst. reflexivity.
    Qed.
  End Cut.

  Lemma overwrite_size m k v : WF m -> valid k ->
    exists m' out, insert_overwrite k v m = (m', Val out) /\
      length m' = S (length (fst (cut k m))) /\ (m = [] -> length m' = 1%nat).
  Proof.
    intros W Vk. destruct (insert_overwrite_facts m k v W Vk) as (l1 & l2 & out & Ec & Ei & W').
    exists (l1 ++ (k, v) :: l2), out. split; [exact Ei|]. rewrite Ec. cbn [fst].
    assert (L : length (l1 ++ (k, v) :: l2) = S (length (l1 ++ l2))) by (rewrite !app_length; cbn [length]; lia).
    split; [exact L|]. intros ->. destruct (cut_size [] k W Vk) as (m' & out' & E & _ & _ & Hn).
    rewrite Ec in E. injection E as <- <-. rewrite L, (Hn eq_refl). reflexivity.
  Qed.

  Lemma absorbs_size (P : entry -> Prop) k v m m' r : absorbs P k v m m' r ->
    exists l, sub (fun e => ~ P e) m l /\ length m' = S (length l).
  Proof.
    intros (_ & (l1 & l2 & HS & ->) & _). exists (l1 ++ l2). split; [exact HS|].
    rewrite !app_length. cbn [length]. lia.
  Qed.

  Lemma strict_size l : forall m m', extend_strict l m = Val (Ok m') -> WF m -> length m' = (length m + length l)%nat.
  Proof.
    induction l as [|[k v] l IH]; intros m m'; cbn [extend_strict].
    - intros E _. injection E as <-. cbn. lia.
    - intros E W. destruct (valid_dec k) as [Vk|Nk]; [|rewrite insert_strict_invalid in E by exact Nk; discriminate].
      destruct (overlap_dec m k W Vk) as [Ho|Hn].
      + rewrite (insert_strict_refused m k v W Vk Ho) in E. discriminate.
      + destruct (insert_strict_done m k v W Vk Hn) as (m1 & m2 & -> & Es & W'). rewrite Es in E.
        rewrite (IH _ _ E W'), !app_length. cbn [length]. lia.
  Qed.

  Lemma visit_size l : forall m m', visit_seq l m = Val (Ok m') -> WF m -> length m' = (length m + length l)%nat.
  Proof.
    induction l as [|[[k v]|] l IH]; intros m m'; cbn [visit_seq]; [| |discriminate].
    - intros E _. injection E as <-. cbn. lia.
    - intros E W. destruct (valid_dec k) as [Vk|Nk]; [|rewrite insert_strict_invalid in E by exact Nk; discriminate].
      destruct (overlap_dec m k W Vk) as [Ho|Hn].
      + rewrite (insert_strict_refused m k v W Vk Ho) in E. discriminate.
      + destruct (insert_strict_done m k v W Vk Hn) as (m1 & m2 & -> & Es & W'). rewrite Es in E.
        rewrite (IH _ _ E W'), !app_length. cbn [length]. lia.
  Qed.

  Lemma map_values_length (f : K -> V -> V) m : length (map_values f m) = length m.
  Proof. rewrite <- (map_length fst), map_values_keys, map_length. reflexivity. Qed.

  Lemma step_size m (o : op I K V) : WF m ->
    (length (step m o) <= length m)%nat \/ (length (step m o) <= handed o)%nat \/
    (1 <= handed o /\ length (step m o) <= length m + 2 /\ (m = [] -> length (step m o) <= 1))%nat.
  Proof.
    intros W.
    assert (Abs : forall P k v m' r, absorbs P k v m m' r -> (length m' <= S (length m))%nat).
    { intros P k v m' r Ha. destruct (absorbs_size _ _ _ _ _ _ Ha) as (l & Hs & ->). apply sub_length in Hs. lia. }
    destruct o as [|k v|k v|veq k v|k v|k v|k v|Q IQ q|Q IQ q|Q IQ f q|f p|f|l|l]; cbn [step handed].
    - left. cbn. lia.
    - destruct (valid_dec k) as [Vk|Nk]; [|rewrite insert_strict_invalid by exact Nk; cbn [fst]; auto].
      destruct (overlap_dec m k W Vk) as [Ho|Hn].
      + rewrite (insert_strict_refused m k v W Vk Ho). cbn [fst]. auto.
      + destruct (insert_strict_done m k v W Vk Hn) as (m1 & m2 & -> & -> & _). cbn [fst]. right. right.
        rewrite !app_length. cbn [length]. split; [lia|]. split; [lia|]. intros E. apply app_eq_nil in E. destruct E as [-> ->]. cbn. lia.
    - destruct (valid_dec k) as [Vk|Nk]; [|rewrite insert_merge_touching_invalid by exact Nk; cbn [fst]; auto].
      destruct (overlap_dec m k W Vk) as [Ho|Hn].
      + rewrite (insert_merge_touching_refused m k v W Vk Ho). cbn [fst]. auto.
      + destruct (insert_merge_touching_done m k v W Vk Hn) as (m' & r & -> & _ & Ha). cbn [fst]. right. right.
        apply Abs in Ha. split; [lia|]. split; [lia|]. intros ->. exact Ha.
    - destruct (valid_dec k) as [Vk|Nk]; [|rewrite insert_merge_touching_if_equal_invalid by exact Nk; cbn [fst]; auto].
      destruct (overlap_dec m k W Vk) as [Ho|Hn].
      + rewrite (insert_merge_touching_if_equal_refused veq m k v W Vk Ho). cbn [fst]. auto.
      + destruct (insert_merge_touching_if_equal_done veq m k v W Vk Hn) as (m' & r & -> & _ & Ha). cbn [fst]. right. right.
        apply Abs in Ha. split; [lia|]. split; [lia|]. intros ->. exact Ha.
    - destruct (valid_dec k) as [Vk|Nk]; [|rewrite insert_merge_overlapping_invalid by exact Nk; cbn [fst]; auto].
      destruct (insert_merge_overlapping_spec m k v W Vk) as (m' & r & -> & _ & Ha). cbn [fst]. right. right.
      apply Abs in Ha. split; [lia|]. split; [lia|]. intros ->. exact Ha.
    - destruct (valid_dec k) as [Vk|Nk]; [|rewrite insert_merge_tor_invalid by exact Nk; cbn [fst]; auto].
      destruct (insert_merge_touching_or_overlapping_spec m k v W Vk) as (m' & r & -> & _ & Ha). cbn [fst]. right. right.
      apply Abs in Ha. split; [lia|]. split; [lia|]. intros ->. exact Ha.
    - destruct (valid_dec k) as [Vk|Nk]; [|rewrite insert_overwrite_invalid by exact Nk; cbn [fst]; auto].
      destruct (overwrite_size m k v W Vk) as (m' & out & -> & L & Hn). cbn [fst]. right. right.
      destruct (cut_size m k W Vk) as (m1 & o1 & E & L1 & _). rewrite E in L. cbn [fst] in L.
      split; [lia|]. split; [lia|]. intros En. rewrite (Hn En). lia.
    - destruct (valid_dec q) as [Vq|Nq]; [|rewrite remove_overlapping_invalid by exact Nq; cbn [fst]; auto].
      destruct (remove_overlapping_spec m q W Vq) as (m' & o & -> & _ & Hs & _). left. apply sub_length in Hs. exact Hs.
    - destruct (valid_dec q) as [Vq|Nq]; [|rewrite cut_invalid by exact Nq; cbn [fst]; auto].
      destruct (cut_size m q W Vq) as (m' & out & -> & L & _ & Hn). cbn [fst]. right. right.
      split; [lia|]. split; [lia|]. intros En. rewrite (Hn En). cbn. lia.
    - destruct (valid_dec q) as [Vq|Nq]; [|rewrite overlapping_mut_invalid by exact Nq; cbn [fst]; auto].
      destruct (overlapping_mut_spec f q m W Vq) as (m' & -> & Hf). left. cbn [fst].
      apply F2_length in Hf. lia.
    - destruct (get_at_point_mut_spec f p m W) as (m' & o & -> & _ & Hf). left. cbn [fst].
      apply F2_length in Hf. lia.
    - left. unfold iter_mut. rewrite map_values_length. lia.
    - unfold from_iter_strict. destruct (extend_strict l new) as [[m'|]|] eqn:E; auto.
      right. left. rewrite (strict_size _ _ _ E WF_nil). cbn. lia.
    - unfold deserialize. destruct (visit_seq l new) as [[m'|]|] eqn:E; auto.
      right. left. rewrite (visit_size _ _ _ E WF_nil). cbn. lia.
  Qed.

  Lemma run_size (ops : list (op I K V)) :
    (length (run ops) <= 2 * list_sum (map handed ops) - 1)%nat.
  Proof.
    induction ops as [|o ops IH] using rev_ind; [cbn; lia|].
    unfold run in *. rewrite fold_left_app. cbn [fold_left].
    rewrite map_app, list_sum_app. cbn [map list_sum fold_right].
    set (m := fold_left step ops new) in *.
    assert (W : WF m) by (apply fold_step_WF, WF_nil).
    destruct (step_size m o W) as [L|[L|(L1 & L2 & L3)]]; [lia|lia|].
    destruct m as [|e m']; [specialize (L3 eq_refl); lia|]. cbn [length] in *. lia.
  Qed.
End Size.
