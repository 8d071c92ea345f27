(** * ZosditCoherence: what the methods of ZosditMap say about each other. *)
From Coq Require Import List ZArith Bool Lia Permutation Sorting.Sorted.
From Verif Require Import Base BTree UtilsModel IntervalModel NoditModel ZosditModel ZosditOps Ledger
  Spec PointFacts IntervalFacts ListFacts NoditFacts ZosditFacts ZosditMut ZosditProofs AccountFacts ZosditPops.
Import ListNotations.
Open Scope Z_scope.

Section Coherence.
  Context {I : Type} {OI : Ord I} {DI : DiscreteFinite I} {PL : PointLaws I}.
  Context {K : Type} {IK : InclusiveInterval I K} {IL : IntervalLaws I K}.
  Context {V : Type}.
  Implicit Types (z : ZosditMap K V) (k : K) (v : V) (p : I).

  Lemma inserted_iff z k v : ZWF z ->
    (snd (insert_strict_back k v z) = Val (Ok tt) <-> is_zero_overlap z k = Val true) /\
    (snd (insert_strict_back k v z) = Val (Err v) <-> is_zero_overlap z k = Val false) /\
    (snd (insert_strict_back k v z) = Panic <-> is_zero_overlap z k = Panic).
  Proof.
    intros W. destruct (valid_dec k) as [Vk|N].
    - destruct (zero_overlap_decides k z W Vk) as (b & -> & Hb). destruct (insert_back_spec z k v W Vk) as [A B]. destruct b.
      + destruct (B (proj1 Hb eq_refl)) as (z' & ? & ? & ? & -> & _). cbn. repeat split; congruence.
      + rewrite A; [cbn; repeat split; congruence|]. intros X. apply Hb in X. discriminate.
    - unfold insert_strict_back, is_zero_overlap. rewrite iip_invalid by exact N. cbn. repeat split; congruence.
  Qed.

  Lemma overlapping_nil_zero {Q} {IQ : InclusiveInterval I Q} z (q : Q) : ZWF z -> valid q ->
    zosdit_overlapping z q = Val [] -> is_zero_overlap z q = Val true.
  Proof.
    intros W Vq E. destruct (overlapping_lists q z W Vq) as (l & E' & S). rewrite E in E'. injection E' as <-.
    destruct (zero_overlap_decides q z W Vq) as (b & -> & Hb). f_equal. apply Hb. intros e He.
    assert (N : ~ overlap (fst e) q). { intros X. assert (In e []) as []. apply (sub_in _ _ _ S). auto. }
    pose proof (iter_okv z e W He) as Ve. apply valid_rk in Vq. unfold elo, ehi in Ve. apply zero_overlap_rk; [exact Ve|exact Vq|].
    rewrite overlap_rk in N. lia.
  Qed.

  Lemma sub_exists {Q} {IQ : InclusiveInterval I Q} (l : list (K * V)) (q : Q) : exists l0, sub (fun e => overlap (fst e) q) l l0.
  Proof.
    induction l as [|e l (l0 & IH)]; [exists []; constructor|].
    destruct (Z_le_gt_dec (lo (fst e)) (hi (fst e))), (Z_le_gt_dec (lo q) (hi q)), (Z_le_gt_dec (lo (fst e)) (hi q)), (Z_le_gt_dec (lo q) (hi (fst e)));
      try (exists l0; apply sub_drop; [rewrite overlap_rk; lia|exact IH]).
    exists (e :: l0). apply sub_keep; [apply overlap_rk; lia|exact IH].
  Qed.
  Lemma last_split {A} (P : A -> Prop) (l1 m1 l2 m2 : list A) x y : l1 ++ x :: l2 = m1 ++ y :: m2 -> P x -> P y ->
    Forall (fun e => ~ P e) l2 -> Forall (fun e => ~ P e) m2 -> l1 = m1 /\ x = y /\ l2 = m2.
  Proof.
    intros E Px Py N1 N2. revert m1 E. induction l1 as [|a l1 IH]; intros [|b m1] E; cbn in E; injection E as -> E.
    - auto.
    - exfalso. rewrite Forall_forall in N1. apply (N1 y); [rewrite E; apply in_or_app; right; left; reflexivity|exact Py].
    - exfalso. rewrite Forall_forall in N2. apply (N2 x); [rewrite <- E; apply in_or_app; right; left; reflexivity|exact Px].
    - destruct (IH m1 E) as (-> & ? & ?). auto.
  Qed.

  Lemma point_overlapping {Q} {IQ : InclusiveInterval I Q} z p (q : Q) : ZWF z -> (forall x, covers q x <-> cmp x p = Eq) ->
    (forall v, get_last_value_at_point z p = Some v -> exists l k, zosdit_overlapping z q = Val (l ++ [(k, v)])) /\
    (findable z p -> (get_last_value_at_point z p = None <-> zosdit_overlapping z q = Val [])).
  Proof.
    intros W Hq.
    assert (Vq : valid q). { exists p. apply Hq, rk_eq. reflexivity. }
    assert (Ho : forall k, overlap k q <-> covers k p).
    { intros k. unfold overlap. split.
      - intros (x & Hk & Hx). apply Hq, rk_eq in Hx. apply covers_rk. apply covers_rk in Hk. rewrite <- Hx. exact Hk.
      - intros Hk. exists p. split; [exact Hk|]. apply Hq, rk_eq. reflexivity. }
    destruct (overlapping_lists q z W Vq) as (l & El & S). rewrite El. split.
    - intros v Hv. destruct (get_last_sound z p v W Hv) as (l1 & k & l2 & E & Hk & H2).
      rewrite E in S. apply (fun X => X) in S.
      assert (S' : exists l0, sub (fun e => overlap (fst e) q) (l1 ++ [(k, v)] ++ l2) (l0 ++ [(k, v)] ++ [])).
      { destruct (sub_exists l1 q) as (l0 & S0). exists l0. apply sub_app; [exact S0|]. apply sub_app.
        - apply sub_all. constructor; [apply Ho, Hk|constructor].
        - apply sub_none, Forall_forall. intros e He X. apply (H2 e He), Ho, X. }
      destruct S' as (l0 & S'). exists l0, k. f_equal. rewrite app_nil_r in S'. exact (sub_unique _ _ _ _ S S').
    - intros F. destruct (get_last_char z p W F) as [_ ->]. split.
      + intros N. f_equal. eapply sub_unique; [exact S|]. apply sub_none, Forall_forall. intros e He X. apply (N e He), Ho, X.
      + intros X. injection X as ->. intros e He Hp. assert (In e []) as []. apply (sub_in _ _ _ S). split; [exact He|apply Ho, Hp].
  Qed.

  (** ** Cutting twice *)
  Lemma cut_nothing_met {Q} {IQ : InclusiveInterval I Q} z (q : Q) : ZWF z -> valid q ->
    (forall e, In e (zosdit_iter z) -> ~ overlap (fst e) q) -> zosdit_cut q z = (z, Val []).
  Proof.
    intros W Vq N. pose proof W as (WS & Hok & _). apply valid_rk in Vq.
    destruct (zsplit3 (z_inner z) (lo q) (hi q) WS Vq) as (A & M & B & El & HA & HM & HB).
    assert (M = []).
    { destruct M as [|[k vs] M]; [reflexivity|exfalso]. rewrite El in Hok.
      destruct (flatten_key (z_inner z) k vs) as (v & Hi); [rewrite El; exact Hok|rewrite El; apply in_or_app; right; left; reflexivity|].
      apply (N (k, v) Hi). apply Forall_cons_iff in HM. destruct HM as [HM _].
      pose proof (iter_okv z (k, v) W Hi) as Ve. unfold meets, elo, ehi in *. cbn in *. apply overlap_rk. lia. }
    subst M. destruct (cut_zosdit_cases z q A [] B W Vq El HA HM HB) as [(_ & n' & E & L)|(C & E)].
    - rewrite E. cbn [flat_map app] in E |- *. cbn [flat_map app count] in L. destruct z as [n inner]. cbn in *. rewrite El.
      assert (n' = n) as -> by (unfold count in L; cbn in L; lia). reflexivity.
    - exact E.
  Qed.
  Lemma cut_clears_zosdit {Q} {IQ : InclusiveInterval I Q} z (q : Q) : ZWF z -> valid q ->
    zosdit_cut q (fst (zosdit_cut q z)) = (fst (zosdit_cut q z), Val []) /\
    (cuttable z q -> zosdit_overlapping (fst (zosdit_cut q z)) q = Val []).
  Proof.
    intros W Vq. destruct (cuttable_dec z q) as [C|C].
    - destruct (cut_done z q W Vq C) as (z' & out & E & W' & _ & _ & Hn & _). rewrite E. cbn [fst].
      assert (N : forall e, In e (zosdit_iter z') -> ~ overlap (fst e) q).
      { rewrite Forall_forall in Hn. intros e He X. apply (Hn e He). apply overlap_rk in X. unfold meets, elo, ehi. lia. }
      split; [apply cut_nothing_met; assumption|]. intros _. destruct (overlapping_lists q z' W' Vq) as (l & -> & S). f_equal.
      eapply sub_unique; [exact S|]. apply sub_none, Forall_forall. exact N.
    - rewrite (cut_not_done z q W Vq C). cbn [fst]. split; [apply cut_not_done; assumption|contradiction].
  Qed.

  (** ** Insertion and removal *)
  Lemma insert_remove z z' k v p : ZWF z -> insert_strict_back k v z = (z', Val (Ok tt)) -> covers k p -> (exists x, covers k x /\ plt p x) ->
    exists z'', remove_last_value_at_point p z' = (z'', Val (Some v)) /\ zosdit_iter z'' = zosdit_iter z /\ zosdit_len z'' = S (zosdit_len z).
  Proof.
    intros W E Hp (x & Hx & Hl). apply covers_rk in Hp, Hx. rewrite plt_rk in Hl.
    destruct (insert_back_cases z k v W) as [(_ & E')|[(_ & _ & E')|(Vk & _ & l1 & l2 & k' & inner' & E' & E1 & E2 & L1 & L2 & _ & F1 & F2 & W' & _)]];
      rewrite E' in E; [discriminate|discriminate|]. injection E as <-.
    set (z' := mkZosdit (z_len z + 1) inner') in *. assert (E3 : flatten (z_inner z') = l1 ++ (k', v) :: l2) by exact E2. assert (Ln : z_len z' = S (z_len z)) by (cbn; lia). clearbody z'. clear E2 E'.
    assert (F : findable z' p).
    { left. exists (k', v). split; [rewrite E3; apply in_or_app; right; left; reflexivity|]. unfold elo, ehi. cbn. lia. }
    destruct (remove_last_cases z' p W') as [(m1 & m2 & k2 & v2 & z'' & _ & Er & R1 & R2 & Hk2 & H2 & RL & _)|(_ & _ & N)].
    - rewrite E3 in R1.
      assert (X : l1 = m1 /\ (k', v) = (k2, v2) /\ l2 = m2).
      { apply (last_split (fun e => elo e <= rk p <= ehi e) l1 m1 l2 m2 (k', v) (k2, v2) R1).
        - unfold elo, ehi. cbn. lia.
        - exact Hk2.
        - eapply Forall_impl; [|exact F2]. cbn. intros e Le. lia.
        - eapply Forall_impl; [|exact H2]. cbn. intros e Le. lia. }
      destruct X as (<- & X & <-). injection X as <- <-. exists z''. split; [exact Er|]. split.
      + unfold zosdit_iter. rewrite R2, E1. reflexivity.
      + unfold zosdit_len. rewrite RL. exact Ln.
    - exfalso. specialize (N F). rewrite Forall_forall in N. apply (N (k', v)); [rewrite E3; apply in_or_app; right; left; reflexivity|].
      unfold elo, ehi. cbn. lia.
  Qed.

  (** ** Insertions of different intervals commute *)
  Fixpoint put k v (l : BTreeMap K (list V)) : BTreeMap K (list V) :=
    match l with
    | [] => [(k, [v])]
    | (k', vs) :: r =>
        match entry_comp k' k with
        | Val Gt => (k', vs) :: put k v r
        | Val Eq => (k', vs ++ [v]) :: r
        | _ => (k, [v]) :: l
        end
    end.
  Lemma push_put k v l : lo k <= hi k -> ZS l -> Forall (apart_from (lo k) (hi k)) l -> forall pre, entry_push k v pre l = Val (pre ++ put k v l).
  Proof.
    intros Vk. induction l as [|[k' vs] l IH]; intros W A pre; [reflexivity|]. cbn [entry_push put].
    apply ZS_cons in W. destruct W as (Vk' & W & _). apply Forall_cons_iff in A. destruct A as [H1 A].
    destruct (entry_comp_rk k' k Vk' Vk H1) as [(-> & _)|[(-> & _)|(-> & _)]]; [reflexivity| |reflexivity].
    rewrite (IH W A), <- app_assoc. reflexivity.
  Qed.
  Lemma put_commute k1 v1 k2 v2 : lo k1 <= hi k1 -> lo k2 <= hi k2 -> hi k1 <= lo k2 \/ hi k2 <= lo k1 -> ~ (lo k1 = lo k2 /\ hi k1 = hi k2) ->
    forall l, ZS l -> Forall (apart_from (lo k1) (hi k1)) l -> Forall (apart_from (lo k2) (hi k2)) l ->
    put k2 v2 (put k1 v1 l) = put k1 v1 (put k2 v2 l).
  Proof.
    intros V1 V2 R12 D. assert (R21 : hi k2 <= lo k1 \/ hi k1 <= lo k2) by tauto.
    assert (X : (entry_comp k1 k2 = Val Gt /\ entry_comp k2 k1 = Val Lt /\ hi k1 <= lo k2) \/ (entry_comp k1 k2 = Val Lt /\ entry_comp k2 k1 = Val Gt /\ hi k2 <= lo k1)).
    { destruct (entry_comp_rk k1 k2 V1 V2 R12) as [(-> & ?)|[(-> & ?)|(-> & ?)]]; [lia|..];
        (destruct (entry_comp_rk k2 k1 V2 V1 R21) as [(-> & ?)|[(-> & ?)|(-> & ?)]]; try lia); [left|right]; repeat split; lia. }
    induction l as [|[k vs] l IH]; intros W A1 A2.
    - cbn [put]. destruct X as [(-> & -> & _)|(-> & -> & _)]; reflexivity.
    - apply ZS_cons in W. destruct W as (Vk & W & _). apply Forall_cons_iff in A1, A2. destruct A1 as [H1 A1], A2 as [H2 A2].
      specialize (IH W A1 A2). cbn [put]. unfold apart_from, elo, ehi in H1, H2, Vk. cbn [fst] in H1, H2, Vk.
      destruct (entry_comp_rk k k1 Vk V1 H1) as [(C1 & ?)|[(C1 & ?)|(C1 & ?)]];
        destruct (entry_comp_rk k k2 Vk V2 H2) as [(C2 & ?)|[(C2 & ?)|(C2 & ?)]]; try (exfalso; lia);
        rewrite ?C1, ?C2; cbn [put]; rewrite ?C1, ?C2, ?IH; try reflexivity;
        destruct X as [(X1 & X2 & ?)|(X1 & X2 & ?)]; try (exfalso; lia); rewrite ?X1, ?X2; cbn [put]; rewrite ?C1, ?C2, ?X1, ?X2; try reflexivity.
  Qed.
  Lemma insert_put z k v : ZWF z -> lo k <= hi k -> Forall (apart_from (lo k) (hi k)) (z_inner z) ->
    insert_strict_back k v z = (mkZosdit (z_len z + 1) (put k v (z_inner z)), Val (Ok tt)).
  Proof.
    intros W Vk A. pose proof W as (WS & _). unfold insert_strict_back. rewrite iip_valid by (apply valid_rk, Vk).
    destruct (is_zero_overlap_rk z k WS Vk) as [Z1 _]. rewrite (Z1 A), (push_put k v _ Vk WS A []). reflexivity.
  Qed.
  Lemma insert_ok_apart z k v z' : ZWF z -> insert_strict_back k v z = (z', Val (Ok tt)) ->
    lo k <= hi k /\ Forall (apart_from (lo k) (hi k)) (z_inner z) /\ z' = mkZosdit (z_len z + 1) (put k v (z_inner z)) /\ ZWF z' /\
    exists l1 l2 k', zosdit_iter z = l1 ++ l2 /\ zosdit_iter z' = l1 ++ (k', v) :: l2 /\ lo k' = lo k /\ hi k' = hi k.
  Proof.
    intros W E. destruct (insert_back_cases z k v W) as [(_ & E')|[(_ & _ & E')|(Vk & A & l1 & l2 & k' & inner' & E' & E1 & E2 & L1 & L2 & _ & F1 & F2 & W' & _)]];
      [congruence|congruence|]. rewrite E in E'. injection E' as ->. pose proof (insert_put z k v W Vk A) as X. rewrite E in X. injection X as X.
    split; [exact Vk|]. split; [exact A|]. split; [f_equal; exact X|]. split; [exact W'|]. exists l1, l2, k'. auto.
  Qed.
  Lemma inserts_commute z z1 z12 k1 v1 k2 v2 : ZWF z -> insert_strict_back k1 v1 z = (z1, Val (Ok tt)) ->
    insert_strict_back k2 v2 z1 = (z12, Val (Ok tt)) -> ~ same_points k1 k2 ->
    exists z2, insert_strict_back k2 v2 z = (z2, Val (Ok tt)) /\ insert_strict_back k1 v1 z2 = (z12, Val (Ok tt)).
  Proof.
    intros W E1 E2 D. destruct (insert_ok_apart z k1 v1 z1 W E1) as (V1 & A1 & X1 & W1 & l1 & l2 & k1' & I1 & I2 & L1 & L2).
    destruct (insert_ok_apart z1 k2 v2 z12 W1 E2) as (V2 & A2 & X2 & _ & _).
    apply (apart_iter z1 _ _ W1) in A2. rewrite I2 in A2. apply Forall_app in A2. destruct A2 as [B1 B2]. apply Forall_cons_iff in B2. destruct B2 as [B0 B2].
    assert (A2 : Forall (apart_from (lo k2) (hi k2)) (z_inner z)).
    { apply (apart_iter z _ _ W). rewrite I1. apply Forall_app. auto. }
    unfold apart_from, elo, ehi in B0. cbn [fst] in B0. rewrite L1, L2 in B0.
    pose proof (insert_put z k2 v2 W V2 A2) as Y. set (z2 := mkZosdit (z_len z + 1) (put k2 v2 (z_inner z))) in *. exists z2. split; [exact Y|].
    destruct (insert_ok_apart z k2 v2 z2 W Y) as (_ & _ & _ & W2 & m1 & m2 & k2' & J1 & J2 & M1 & M2).
    assert (A1' : Forall (apart_from (lo k1) (hi k1)) (z_inner z2)).
    { apply (apart_iter z _ _ W) in A1. apply (apart_iter z2 _ _ W2). rewrite J2. rewrite J1 in A1. apply Forall_app in A1. destruct A1 as [C1 C2].
      apply Forall_app. split; [exact C1|]. constructor; [|exact C2]. unfold apart_from, elo, ehi. cbn [fst]. rewrite M1, M2. tauto. }
    rewrite (insert_put z2 k1 v1 W2 V1 A1'), X2, X1. unfold z2. cbn [z_len z_inner]. f_equal. f_equal.
    symmetry. apply put_commute; [exact V1|exact V2|tauto| |apply W|exact A1|exact A2].
    intros [Q1 Q2]. apply D. apply same_points_rk; [exact V1|exact V2|auto].
  Qed.

  (** ** Removing repeatedly *)
  Lemma pops_spec n p : forall z, ZWF z -> exists l z' rest, pops n p z = (l, z') /\ ZWF z' /\
    vals (zosdit_iter z) p = rest ++ rev l /\ vals (zosdit_iter z') p = rest /\
    filter (fun e => negb (contains_point (fst e) p)) (zosdit_iter z') = filter (fun e => negb (contains_point (fst e) p)) (zosdit_iter z) /\
    ((forall e, In e (zosdit_iter z) -> ehi e <= rk p) -> (length (vals (zosdit_iter z) p) <= n)%nat -> rest = []).
  Proof.
    induction n as [|n IH]; intros z W.
    - exists [], z, (vals (zosdit_iter z) p). cbn. rewrite app_nil_r. split; [reflexivity|]. split; [exact W|]. split; [reflexivity|]. split; [reflexivity|]. split; [reflexivity|].
      intros _ L. apply length_zero_iff_nil. lia.
    - cbn [pops]. destruct (remove_last_cases z p W) as [(l1 & l2 & k & v & z' & _ & E & E1 & E2 & Hk & H2 & _ & W' & _)|(E0 & E & N)]; rewrite E.
      + destruct (IH z' W') as (l & z'' & rest & Ep & W'' & P1 & P2 & P3 & P4). rewrite Ep. exists (v :: l), z'', rest.
        assert (Hc : contains_point k p = true) by (apply contains_point_true, covers_rk, Hk).
        assert (H2' : forall e, In e l2 -> ~ covers (fst e) p).
        { rewrite Forall_forall in H2. intros e He X. specialize (H2 e He). apply covers_rk in X. unfold elo in H2. lia. }
        assert (Ev : vals (zosdit_iter z) p = vals (zosdit_iter z') p ++ [v]).
        { unfold zosdit_iter. rewrite E1, E2. rewrite !vals_app, (vals_none l2 p H2').
          change ((k, v) :: l2) with ([(k, v)] ++ l2). rewrite vals_app, (vals_none l2 p H2'), !app_nil_r.
          f_equal. unfold vals. cbn [filter fst]. rewrite Hc. reflexivity. }
        split; [reflexivity|]. split; [exact W''|]. split; [rewrite Ev, P1, <- app_assoc; reflexivity|]. split; [exact P2|]. split.
        * rewrite P3. unfold zosdit_iter. rewrite E1, E2, !filter_app. cbn [filter fst]. rewrite Hc. reflexivity.
        * intros Le Ln. apply P4.
          -- intros e He. apply Le. unfold zosdit_iter in *. rewrite E1. rewrite E2 in He. apply in_app_iff in He. apply in_app_iff. cbn. tauto.
          -- rewrite Ev, app_length in Ln. cbn in Ln. lia.
      + exists [], z, (vals (zosdit_iter z) p). cbn. rewrite app_nil_r. split; [reflexivity|]. split; [exact W|]. split; [reflexivity|]. split; [reflexivity|]. split; [reflexivity|].
        intros Le _. apply vals_none. specialize (N (or_intror Le)). rewrite Forall_forall in N. intros e He X. apply (N e He). apply covers_rk in X.
        unfold elo, ehi. exact X.
  Qed.
  Lemma pops_values n z p vs : ZWF z -> values_at (zosdit_iter z) p vs ->
    exists l z' rest, pops n p z = (l, z') /\ vs = rest ++ rev l /\ values_at (zosdit_iter z') p rest /\
      (forall o, sub (fun e => ~ covers (fst e) p) (zosdit_iter z) o <-> sub (fun e => ~ covers (fst e) p) (zosdit_iter z') o) /\
      ((forall e x, In e (zosdit_iter z) -> covers (fst e) x -> ple x p) -> (length vs <= n)%nat -> rest = []).
  Proof.
    intros W X. apply values_at_vals in X. subst vs. destruct (pops_spec n p z W) as (l & z' & rest & E & W' & P1 & P2 & P3 & P4).
    exists l, z', rest. split; [exact E|]. split; [exact P1|]. split; [apply values_at_vals; congruence|]. split.
    - assert (S : forall l : list (K * V), sub (fun e => ~ covers (fst e) p) l (filter (fun e => negb (contains_point (fst e) p)) l)).
      { intros m. apply sub_filter. intros e. rewrite negb_true_iff, <- not_true_iff_false, contains_point_true. reflexivity. }
      intros o. split; intros So.
      + rewrite (sub_unique _ _ _ _ So (S _)), <- P3. apply S.
      + rewrite (sub_unique _ _ _ _ So (S _)), P3. apply S.
    - intros Le. apply P4. intros e He. pose proof (iter_okv z e W He) as Ve. specialize (Le e (iend (fst e)) He). rewrite covers_rk, ple_rk in Le.
      unfold elo, ehi, lo, hi in *. apply Le. lia.
  Qed.
End Coherence.
