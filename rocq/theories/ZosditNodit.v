(** * ZosditNodit: a ZosditMap and a NoditMap with the same entries (used for C102). *)
From Coq Require Import List ZArith Bool Lia ZifyBool Sorting.Sorted Permutation.
From Verif Require Import Base BTree UtilsModel IntervalModel NoditModel NoditOps ZosditModel ZosditOps Spec EqualOps
  PointFacts IntervalFacts NoditFacts NoditQueries NoditMutations NoditInv GqditAlgebra PropsNodit PropsZosdit.
Import ListNotations.
Open Scope nat_scope.

Section Facts.
  Context {I : Type} {OI : Ord I} {DI : DiscreteFinite I} {PL : PointLaws I}.
  Context {K : Type} {IK : InclusiveInterval I K} {IL : IntervalLaws I K} {V : Type}.
  Context {Q : Type} {IQ : InclusiveInterval I Q}.
  Notation entry := (K * V)%type.
  Implicit Types (m : NoditMap K V) (z : ZosditMap K V) (k : K) (q : Q) (p : I) (v : V).

  Lemma FOP_snoc {A} (P : A -> A -> Prop) (l : list A) x : ForallOrdPairs P (l ++ [x]) -> ForallOrdPairs P l /\ forall y, In y l -> P y x.
  Proof.
    induction l as [|a l IH]; cbn; intros F; [split; [constructor|intros y []]|]. inversion F as [|? ? Fa Fl]; subst.
    destruct (IH Fl) as [B C]. apply Forall_app in Fa as [Fa Fx]. split; [constructor; assumption|].
    intros y [<-|Hy]; [apply Forall_inv in Fx; exact Fx|apply C, Hy].
  Qed.

  Section Same.
    Context (m : NoditMap K V) (z : ZosditMap K V) (R : reachable (I := I) m) (Rz : zreachable (I := I) z) (E : zosdit_iter z = iter m).

    Lemma same_overlapping q : zosdit_overlapping z q = overlapping m q.
    Proof.
      destruct (valid_dec q) as [Vq|N].
      - destruct (C35_overlapping z q Rz Vq) as (l & -> & S). destruct (C04_overlapping m q R Vq) as (l' & -> & S').
        rewrite E in S. rewrite (ListFacts.sub_unique _ _ _ _ S S'). reflexivity.
      - rewrite overlapping_invalid by exact N. apply (C42_queries_panic_iff_invalid z q Rz), N.
    Qed.

    Lemma split_same {A} (P : A -> Prop) (l1 l2 l1' l2' : list A) : l1 ++ l2 = l1' ++ l2' ->
      (forall x, In x l1 -> P x) -> (forall x, In x l2 -> ~ P x) -> (forall x, In x l1' -> P x) -> (forall x, In x l2' -> ~ P x) -> l1 = l1' /\ l2 = l2'.
    Proof.
      revert l1'. induction l1 as [|a l1 IH]; intros [|b l1'] X H1 H2 H1' H2'.
      - auto.
      - exfalso. cbn in X. subst l2. apply (H2 b); [left; reflexivity|apply H1'; left; reflexivity].
      - exfalso. cbn in X. subst l2'. apply (H2' a); [left; reflexivity|apply H1; left; reflexivity].
      - cbn in X. injection X as <- X. destruct (IH l1' X) as [-> ->]; auto.
        + intros x Hx. apply H1. right. exact Hx.
        + intros x Hx. apply H1'. right. exact Hx.
    Qed.

    Definition mWF : WF (iter m) := reachable_WF m R.

    Lemma same_insert k v : valid k -> (forall e, In e (iter m) -> ~ overlap (fst e) k) -> exists m' z',
      insert_strict k v m = (m', Val (Ok tt)) /\ insert_strict_back k v z = (z', Val (Ok tt)) /\ zosdit_iter z' = iter m'.
    Proof.
      intros Vk N. pose proof mWF as W. change (iter m) with m in W.
      destruct (insert_strict_done m k v W Vk) as (l1 & l2 & Em1 & Em & W').
      { intros k' v' Hin Ho. apply (N (k', v') Hin Ho). }
      assert (Ve : forall e, In e m -> valid (fst e)) by (intros e He; apply valid_rk; destruct W as [_ F]; rewrite Forall_forall in F; apply (F e He)).
      destruct (C34_insert_strict_back_done z k v Rz Vk) as (z' & z1 & k' & z2 & Ez & _ & Ez1 & Ez2 & Sp & Hk & U1 & U2).
      { rewrite E. intros e He. split; [|split].
        - intros x y A B. exfalso. apply (N e He). exists x. auto.
        - intros [_ (x & y & A & B & C)]. destruct (Ve e He) as (p & Hp).
          destruct (C p Hp) as [C1 C2]. apply (N e He). exists p. split; [exact Hp|].
          apply covers_rk. apply covers_rk in A, B. apply plt_rk in C1, C2. lia.
        - intros [_ (x & y & A & B & C)]. destruct Vk as (p & Hp).
          destruct (C p Hp) as [C1 C2]. apply (N e He). exists p. split; [|exact Hp].
          apply covers_rk. apply covers_rk in A, B. apply plt_rk in C1, C2. lia. }
      exists (l1 ++ (k, v) :: l2), z'. split; [exact Em|]. split; [exact Ez|]. rewrite Ez2.
      assert (k' = k) as ->.
      { destruct Hk as [Hk|(v' & Hk)]; [exact Hk|]. exfalso. destruct Vk as (p & Hp).
        apply (N (k', v')); [rewrite <- E, Ez1; apply in_app_iff; auto|]. exists p. split; [apply Sp, Hp|exact Hp]. }
      apply WF_app in W' as (_ & W2 & L1). apply WF_cons in W2 as (_ & _ & L2). rewrite Forall_forall in L2.
      pose proof (proj1 (valid_rk k) Vk) as Lk.
      assert (D : forall e, In e m -> (lo (fst e) <= hi (fst e) /\ (hi (fst e) < lo k \/ hi k < lo (fst e)))%Z).
      { intros e He. pose proof (proj1 (valid_rk _) (Ve e He)) as Le. split; [exact Le|]. destruct (Z.lt_ge_cases (hi (fst e)) (lo k)) as [A|A]; [auto|].
        destruct (Z.lt_ge_cases (hi k) (lo (fst e))) as [B|B]; [auto|]. exfalso. apply (N e He). apply overlap_rk; unfold lo, hi in *; lia. }
      assert (Hin1 : forall e, In e z1 -> In e m) by (intros e He; change m with (iter m); rewrite <- E, Ez1; apply in_app_iff; auto).
      assert (Hin2 : forall e, In e z2 -> In e m) by (intros e He; change m with (iter m); rewrite <- E, Ez1; apply in_app_iff; auto).
      assert (C1 : covers k (istart k)) by (apply covers_rk; unfold lo, hi in *; lia).
      assert (C2 : covers k (iend k)) by (apply covers_rk; unfold lo, hi in *; lia).
      destruct (split_same (fun e : entry => (hi (fst e) < lo k)%Z) z1 z2 l1 l2) as [-> ->]; [|..|reflexivity].
      - rewrite <- Ez1, <- Em1. exact E.
      - intros e He. destruct (D e (Hin1 e He)) as [Le [A|A]]; [exact A|]. exfalso.
        assert (X : ple (istart (fst e)) (iend k)) by (apply (U1 e He); [apply covers_rk; unfold lo, hi in *; lia|exact C2]).
        apply ple_rk in X. unfold lo, hi in *. lia.
      - intros e He A. destruct (D e (Hin2 e He)) as [Le _].
        assert (X : ple (istart k) (iend (fst e))) by (apply (U2 e He); [exact C1|apply covers_rk; unfold lo, hi in *; lia]).
        apply ple_rk in X. unfold lo, hi in *. lia.
      - intros e He. apply (L1 e (k, v) He). left. reflexivity.
      - intros e He A. specialize (L2 e He). assert (Hm : In e m) by (rewrite Em1; apply in_app_iff; auto). destruct (D e Hm) as [Le _].
        unfold ehi, elo in *. cbn in *. lia.
    Qed.

    Lemma same_refused k v : valid k -> (exists e, In e (iter m) /\ overlap (fst e) k) -> insert_strict k v m = (m, Val (Err v)).
    Proof. intros Vk ([k' v'] & He & Ho). apply C09_insert_strict_refused; [exact R|exact Vk|]. exists k', v'. auto. Qed.

    Lemma entry_unique e e' p : In e (iter m) -> In e' (iter m) -> covers (fst e) p -> covers (fst e') p -> e = e'.
    Proof. destruct e as [k v], e' as [k' v']. apply (C02_one_entry m R p). Qed.

    Lemma get_sound p v : get_last_value_at_point z p = Some v -> get_at_point m p = Val (Some v).
    Proof.
      intros X. apply (C38_returned_value_is_the_last_partial z p v Rz) in X as (l1 & k & l2 & X & Hc & _).
      apply C02_get_at_point_Some; [exact R|]. exists k. split; [|exact Hc]. rewrite <- E, X. apply in_app_iff. right. left. reflexivity.
    Qed.
    Lemma get_reached p : point_reached (iter m) p -> get_at_point m p = Val (get_last_value_at_point z p).
    Proof.
      intros X. rewrite <- E in X. destruct (C38_get_last_value_at_point_partial z p Rz X) as [_ Y].
      destruct (get_last_value_at_point z p) as [v|] eqn:G; [apply get_sound, G|].
      apply C02_get_at_point_None; [exact R|]. intros (k & v & Hk & Hc). apply (proj1 Y eq_refl (k, v)); [rewrite E; exact Hk|exact Hc].
    Qed.

    Definition same_item (e e' : entry) : Prop := same_points (fst e) (fst e') /\ snd e = snd e'.

    Lemma leaf_in q (L : list entry) ls : Forall2 (leaves q) L ls -> forall e', In e' (concat ls) ->
      exists e, In e L /\ snd e' = snd e /\ max_run (fun p => covers (fst e) p /\ ~ covers q p) (fst e').
    Proof.
      induction 1 as [|e l L ls (A & B & _) F IH]; intros e' He; cbn in He; [destruct He|]. apply in_app_iff in He as [He|He].
      - exists e. split; [left; reflexivity|]. split; [apply B, He|]. apply A, in_map, He.
      - destruct (IH e' He) as (x & Hx & Y). exists x. split; [right; exact Hx|exact Y].
    Qed.
    Lemma leaf_all q (L : list entry) ls : Forall2 (leaves q) L ls -> forall e (j : Interval I), In e L ->
      max_run (fun p => covers (fst e) p /\ ~ covers q p) j -> exists e', In e' (concat ls) /\ snd e' = snd e /\ same_points (fst e') j.
    Proof.
      induction 1 as [|e l L ls (A & B & _) F IH]; intros x j Hx M; [destruct Hx|]. destruct Hx as [<-|Hx].
      - destruct A as (_ & _ & A). destruct (A j M Logic.I) as (g & Hg & Sg). apply in_map_iff in Hg as (e' & <- & He').
        exists e'. split; [cbn; apply in_app_iff; auto|]. split; [apply B, He'|exact Sg].
      - destruct (IH x j Hx M) as (e' & He' & Y). exists e'. split; [cbn; apply in_app_iff; auto|exact Y].
    Qed.
    Lemma leaf_sorted q (L : list entry) ls : ascending (map fst L) -> Forall2 (leaves q) L ls -> ascending (map fst (concat ls)).
    Proof.
      intros S F. revert S. induction F as [|e l L ls A F IH]; intros S; cbn; [constructor|]. cbn in S. inversion S as [|? ? S' Hb]; subst.
      rewrite map_app. apply ListFacts.SS_app. split; [apply A|]. split; [apply IH, S'|].
      intros a b Ha Hb' x y Hx Hy. apply in_map_iff in Ha as (a' & <- & Ha), Hb' as (b' & <- & Hb').
      destruct A as ((_ & A & _) & _). destruct (A (fst a') (in_map fst _ _ Ha)) as ((_ & A1 & _) & _).
      destruct (leaf_in q L ls F b' Hb') as (e' & He' & _ & (_ & B1 & _)). rewrite Forall_forall in Hb.
      apply (Hb (fst e') (in_map fst _ _ He')); [apply A1, Hx|apply B1, Hy].
    Qed.

    Lemma same_cut q : valid q -> cut_reaches q (iter m) -> exists m' z' out out',
      cut q m = (m', Val out) /\ zosdit_cut q z = (z', Val out') /\ Forall2 same_item out out' /\ Forall2 same_item (iter m') (zosdit_iter z').
    Proof.
      intros Vq C. rewrite <- E in C.
      destruct (C37_cut_partial z q Rz Vq C) as (z' & out' & Ez & (o' & So' & Fo') & (ls & Fl & El) & _ & _). rewrite E in So', Fl.
      destruct (C11_cut_yields m q R Vq) as (m' & out & Em & o & So & Fo).
      destruct (C11_cut_leaves m q R Vq) as (m2 & out2 & Em2 & _ & X1 & X2). rewrite Em in Em2. injection Em2 as <- <-.
      exists m', z', out, out'. split; [exact Em|]. split; [exact Ez|]. split.
      - rewrite (ListFacts.sub_unique _ _ _ _ So' So) in Fo'. clear - Fo Fo'. revert out' Fo'. induction Fo as [|e i o out [A B] Fo IH]; intros out' F'; inversion F' as [|? i' ? out'' [A' B'] F'']; subst; constructor.
        + split; [intros p; rewrite B, B'; reflexivity|congruence].
        + apply IH, F''.
      - rewrite El. assert (W' : WF (iter m')).
        { pose proof (reachable_WF m R) as W. assert (Y : m' = step m (OpCut q)) by (cbn; rewrite Em; reflexivity). rewrite Y. apply step_WF, W. }
        destruct (proj2 (ascending_WF _) W') as [Sm Vm]. pose proof (proj1 (proj2 (ascending_WF _) mWF)) as SL.
        assert (U : Forall2 same_points (map fst (iter m')) (map fst (concat ls))).
        { apply asc_same; [exact Sm|apply (leaf_sorted q _ _ SL Fl)|exact Vm|..].
          - apply Forall_forall. intros k Hk. apply in_map_iff in Hk as (e' & <- & He'). destruct (leaf_in q _ _ Fl e' He') as (e & _ & _ & M). apply M.
          - intros k Hk. apply in_map_iff in Hk as ([k' v] & <- & Hk). destruct (X1 k' v Hk) as (k0 & Hk0 & _ & M).
            destruct (leaf_all q _ _ Fl (k0, v) (mkInterval (istart k') (iend k')) Hk0 M) as (e' & He' & _ & Sp).
            exists (fst e'). split; [apply in_map, He'|]. intros p. symmetry. apply Sp.
          - intros k Hk. apply in_map_iff in Hk as (e' & <- & He'). destruct (leaf_in q _ _ Fl e' He') as ([k0 v0] & He & _ & M).
            destruct (proj2 (X2 k0 v0 He) (mkInterval (istart (fst e')) (iend (fst e'))) M) as (k' & Hk' & Sp).
            exists k'. split; [apply in_map_iff; exists (k', v0); auto|exact Sp]. }
        assert (Val2 : forall e e', In e (iter m') -> In e' (concat ls) -> same_points (fst e) (fst e') -> snd e = snd e').
        { intros [k v] e' He He' Sp. destruct (X1 k v He) as (k0 & Hk0 & _ & ((p & Hp) & M & _)).
          destruct (leaf_in q _ _ Fl e' He') as (e0 & He0 & Ev & (_ & M' & _)). rewrite Ev.
          assert (Y : (k0, v) = e0) by (apply (entry_unique _ _ p Hk0 He0); [apply M, Hp|apply M', Sp, Hp]). subst e0. reflexivity. }
        clear - U Val2. revert U Val2. generalize (concat ls) as l', (iter m') as l. intros l' l. revert l'.
        induction l as [|e l IH]; intros [|e' l'] U Val2; inversion U; subst; constructor.
        + split; [assumption|]. apply Val2; [left; reflexivity..|assumption].
        + apply IH; [assumption|]. intros x x' Hx Hx'. apply Val2; right; assumption.
    Qed.
  End Same.
End Facts.
