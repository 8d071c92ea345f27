(** * ZosditOrder: the order of insertions into a ZosditMap. *)
From Coq Require Import List ZArith Bool Lia ZifyBool Sorting.Sorted Permutation.
From Verif Require Import Base BTree UtilsModel IntervalModel NoditModel ZosditModel ZosditOps Spec
  PointFacts IntervalFacts ListFacts NoditFacts ZosditFacts ZosditMut ZosditProofs.
Import ListNotations.
Open Scope Z_scope.

Section Order.
  Context {I : Type} {OI : Ord I} {DI : DiscreteFinite I} {PL : PointLaws I}.
  Context {K : Type} {IK : InclusiveInterval I K} {IL : IntervalLaws I K}.
  Context {V : Type}.
  Notation store := (BTreeMap K (list V)).
  Implicit Types (z : ZosditMap K V) (k : K) (v : V).

  (** Sorted entries are determined by the values at each interval. *)
  Lemma vals_cons a b (e : K * V) l : vals a b (e :: l) = if ext a b e then snd e :: vals a b l else vals a b l.
  Proof. unfold vals. cbn [filter]. destruct (ext a b e); reflexivity. Qed.
  Lemma vals_in a b (l : list (K * V)) v r : vals a b l = v :: r -> exists e, In e l /\ elo e = a /\ ehi e = b.
  Proof.
    induction l as [|e l IH]; [discriminate|]. rewrite vals_cons. destruct (ext a b e) eqn:E.
    - intros _. exists e. split; [left; reflexivity|]. unfold ext in E. lia.
    - intros X. destruct (IH X) as (f & Hf & Ef). exists f. split; [right; exact Hf|exact Ef].
  Qed.
  Lemma sorted_by_vals (l l' : list (K * V)) : ZS l -> ZS l' -> (forall a b, vals a b l = vals a b l') -> Forall2 same_entry l l'.
  Proof.
    revert l'. induction l as [|e l IH]; intros l' S S' Hv.
    - destruct l' as [|f l']; [constructor|]. specialize (Hv (elo f) (ehi f)). rewrite vals_cons in Hv.
      unfold ext in Hv. rewrite !Z.eqb_refl in Hv. discriminate.
    - destruct l' as [|f l'].
      { specialize (Hv (elo e) (ehi e)). rewrite vals_cons in Hv. unfold ext in Hv. rewrite !Z.eqb_refl in Hv. discriminate. }
      apply ZS_cons in S. destruct S as (Ve & S & Fe). apply ZS_cons in S'. destruct S' as (Vf & S' & Ff).
      rewrite Forall_forall in Fe, Ff.
      assert (Ex : elo e = elo f /\ ehi e = ehi f).
      { pose proof (Hv (elo e) (ehi e)) as H1. rewrite vals_cons in H1. unfold ext at 1 in H1. rewrite !Z.eqb_refl in H1. cbn [andb] in H1.
        symmetry in H1. apply vals_in in H1. destruct H1 as (f' & Hf' & Ea & Eb).
        pose proof (Hv (elo f) (ehi f)) as H2. rewrite (vals_cons _ _ f) in H2. unfold ext in H2 at 1. rewrite !Z.eqb_refl in H2. cbn [andb] in H2.
        apply vals_in in H2. destruct H2 as (e' & He' & Ec & Ed).
        destruct Hf' as [<-|Hf']; [lia|]. destruct He' as [<-|He']; [lia|].
        specialize (Fe e' He'). specialize (Ff f' Hf'). lia. }
      destruct Ex as [Ea Eb].
      assert (Ee : forall a b, ext a b e = ext a b f) by (intros a b; unfold ext; rewrite Ea, Eb; reflexivity).
      constructor.
      + split.
        * intros p. rewrite !covers_rk. unfold elo, ehi in *. lia.
        * specialize (Hv (elo e) (ehi e)). rewrite !vals_cons, <- Ee in Hv. unfold ext in Hv. rewrite !Z.eqb_refl in Hv.
          cbn [andb] in Hv. congruence.
      + apply IH; try assumption. intros a b. specialize (Hv a b). rewrite !vals_cons, <- Ee in Hv.
        destruct (ext a b e); congruence.
  Qed.

  Lemma zero_overlapping_perm (l l' : list K) : Permutation l l' -> zero_overlapping l -> zero_overlapping l'.
  Proof.
    intros P [Hv Hp]. split; [eapply Permutation_Forall; eassumption|].
    assert (Sym : forall a b : K, zero_overlap a b -> zero_overlap b a).
    { intros a b (A & B & C). split; [|split; assumption]. intros x y X1 X2 Y1 Y2. apply A; assumption. }
    clear Hv. induction P as [|x l l' P IH|x y l|l l' l'' P1 IH1 P2 IH2].
    - exact Hp.
    - inversion_clear Hp as [|? ? F Hp']. constructor; [|apply IH, Hp']. eapply Permutation_Forall; eassumption.
    - inversion_clear Hp as [|? ? F Hp']. inversion_clear Hp' as [|? ? G Hp]. apply Forall_cons_iff in F. destruct F as [Exy F].
      constructor; [constructor; [apply Sym, Exy|exact G]|]. constructor; assumption.
    - apply IH2, IH1, Hp.
  Qed.

  Lemma vals_of_sub (l l' : list (K * V)) : Forall okv l -> Forall okv l' ->
    (forall k s s', valid k -> sub (fun e => same_points (fst e) k) l s -> sub (fun e => same_points (fst e) k) l' s' -> map snd s = map snd s') ->
    (forall e, In e l <-> In e l') -> forall a b, vals a b l = vals a b l'.
  Proof.
    intros Vl Vl' H Hin a b.
    assert (Sub : forall k (x : list (K * V)), Forall okv x -> lo k <= hi k -> sub (fun e => same_points (fst e) k) x (filter (ext (lo k) (hi k)) x)).
    { intros k x Vx Vk. apply sub_filter. rewrite Forall_forall in Vx. intros e He. specialize (Vx e He). unfold ext, okv in *.
      rewrite same_points_rk by assumption. zl. }
    destruct (filter (ext a b) l) as [|e r] eqn:E.
    - destruct (filter (ext a b) l') as [|e r] eqn:E'; [unfold vals; rewrite E, E'; reflexivity|exfalso].
      assert (He : In e (filter (ext a b) l')) by (rewrite E'; left; reflexivity). apply filter_In in He. destruct He as [He Xe].
      assert (X : In e (filter (ext a b) l)) by (apply filter_In; split; [apply Hin, He|exact Xe]). rewrite E in X. destruct X.
    - assert (He : In e (filter (ext a b) l)) by (rewrite E; left; reflexivity). apply filter_In in He. destruct He as [He Xe].
      assert (Ea : lo (fst e) = a /\ hi (fst e) = b) by (unfold ext, elo, ehi in Xe; lia). destruct Ea as [<- <-].
      pose proof Vl as Vl0. rewrite Forall_forall in Vl. pose proof (Vl e He) as Ve. unfold okv, elo, ehi in Ve.
      unfold vals. apply (H (fst e)); [apply valid_rk, Ve|apply Sub; assumption|apply Sub; assumption].
  Qed.

  Lemma from_iter_reordered (l l' : list (K * V)) z : Permutation l l' ->
    (forall k s s', valid k -> sub (fun e => same_points (fst e) k) l s -> sub (fun e => same_points (fst e) k) l' s' -> map snd s = map snd s') ->
    from_iter_strict_back l = Val (Ok z) ->
    exists z', from_iter_strict_back l' = Val (Ok z') /\ Forall2 same_entry (zosdit_iter z) (zosdit_iter z') /\ z_len z = z_len z'.
  Proof.
    intros P Hs E. assert (O : zero_overlapping (map fst l)) by (apply from_iter_Ok; exists z; exact E).
    assert (O' : zero_overlapping (map fst l')).
    { apply (zero_overlapping_perm (map fst l)); [apply Permutation_map, P|exact O]. }
    pose proof O' as E'. apply from_iter_Ok in E'. destruct E' as (z' & E'). exists z'. split; [exact E'|].
    apply from_iter_grown in E, E'. destruct E as ((W & Ok & _) & _ & N & _ & Hv). destruct E' as ((W' & Ok' & _) & _ & N' & _ & Hv').
    assert (okl : forall x : list (K * V), zero_overlapping (map fst x) -> Forall okv x).
    { intros x [Vx _]. apply Forall_forall. intros e He. rewrite Forall_forall in Vx. apply valid_rk. apply Vx, in_map, He. }
    split.
    - apply sorted_by_vals; [apply flatten_ZS; assumption..|]. intros a b. rewrite Hv, Hv'. f_equal.
      apply vals_of_sub; [apply okl, O|apply okl, O'|exact Hs|]. intros e. split; apply Permutation_in; [exact P|apply Permutation_sym, P].
    - rewrite N, N'. cbn. apply Permutation_length, P.
  Qed.

  (** ** Two insertions *)
  Definition push k v (l : store) : outcome store := entry_push k v [] l.
  Lemma entry_push_pre k v l : forall pre, entry_push k v pre l = omap (fun x => pre ++ x) (push k v l).
  Proof.
    unfold push. induction l as [|[k' vs] l IH]; intros pre; [reflexivity|]. cbn [entry_push app].
    destruct (entry_comp k' k) as [[| |]|]; [reflexivity..| |reflexivity].
    rewrite (IH (pre ++ [(k', vs)])), (IH [(k', vs)]). destruct (entry_push k v [] l); cbn [omap]; [|reflexivity].
    rewrite <- app_assoc. reflexivity.
  Qed.
  Lemma push_cons k v k' vs (l : store) : push k v ((k', vs) :: l) =
    match entry_comp k' k with
    | Panic => Panic
    | Val Gt => omap (cons (k', vs)) (push k v l)
    | Val Eq => Val ((k', vs ++ [v]) :: l)
    | Val Lt => Val ((k, [v]) :: (k', vs) :: l)
    end.
  Proof. unfold push at 1. cbn [entry_push app]. destruct (entry_comp k' k) as [[| |]|]; try reflexivity. apply (entry_push_pre k v l [(k', vs)]). Qed.

  (** Where the comparator sends apart intervals. *)
  Lemma comp_lt a b : lo a <= hi a -> lo b <= hi b -> hi b <= lo a -> lo b < hi a -> entry_comp a b = Val Lt.
  Proof. intros Va Vb L1 L2. destruct (entry_comp_rk a b Va Vb) as [(E & H)|[(E & H)|(E & H)]]; [lia|lia|lia|exact E]. Qed.
  Lemma comp_gt a b : lo a <= hi a -> lo b <= hi b -> hi a <= lo b -> lo a < hi b -> entry_comp a b = Val Gt.
  Proof. intros Va Vb L1 L2. destruct (entry_comp_rk a b Va Vb) as [(E & H)|[(E & H)|(E & H)]]; [lia|lia|exact E|lia]. Qed.

  Lemma push_keys k v (l l' : store) : push k v l = Val l' ->
    (forall P : K -> Prop, P k -> Forall (fun e => P (fst e)) l -> Forall (fun e => P (fst e)) l').
  Proof.
    revert l'. induction l as [|[k' vs] l IH]; intros l' E P Pk F.
    - injection E as <-. constructor; [exact Pk|constructor].
    - rewrite push_cons in E. apply Forall_cons_iff in F. destruct F as [Pk' F].
      destruct (entry_comp k' k) as [[| |]|]; [..|discriminate].
      + injection E as <-. constructor; assumption.
      + injection E as <-. constructor; [exact Pk|]. constructor; assumption.
      + destruct (push k v l) as [x|]; [|discriminate]. injection E as <-. constructor; [exact Pk'|]. apply IH; [reflexivity|assumption..].
  Qed.
  Lemma push_keeps k v (l l' : store) (P : K -> Prop) : push k v l = Val l' -> Forall (fun e => P (fst e)) l' -> Forall (fun e => P (fst e)) l.
  Proof.
    revert l'. induction l as [|[k' vs] l IH]; intros l' E F; [constructor|]. rewrite push_cons in E.
    destruct (entry_comp k' k) as [[| |]|]; [..|discriminate].
    - injection E as <-. apply Forall_cons_iff in F. destruct F as [P1 F]. constructor; assumption.
    - injection E as <-. apply Forall_cons_iff in F. exact (proj2 F).
    - destruct (push k v l) as [x|]; [|discriminate]. injection E as <-. apply Forall_cons_iff in F. destruct F as [P1 F].
      constructor; [exact P1|]. apply (IH x eq_refl F).
  Qed.
  Lemma push_some k v (l : store) : lo k <= hi k -> Forall okv l -> Forall (apart_from (lo k) (hi k)) l -> exists l', push k v l = Val l'.
  Proof.
    intros Vk. induction l as [|[k' vs] l IH]; intros O F; [eexists; reflexivity|]. apply Forall_cons_iff in F, O.
    destruct F as [F1 F], O as [O1 O]. rewrite push_cons. destruct (IH O F) as (l' & E).
    destruct (entry_comp_rk k' k O1 Vk F1) as [(-> & _)|[(-> & _)|(-> & _)]]; [eexists; reflexivity| |eexists; reflexivity].
    rewrite E. eexists. reflexivity.
  Qed.

  Lemma push_commute k v k' v' (l : store) : lo k <= hi k -> lo k' <= hi k' -> hi k <= lo k' -> lo k < hi k' ->
    Forall okv l -> Forall (apart_from (lo k) (hi k)) l -> Forall (apart_from (lo k') (hi k')) l ->
    (let? x := push k v l in push k' v' x) = (let? x := push k' v' l in push k v x).
  Proof.
    intros Vk Vk' L1 L2. induction l as [|[x vs] l IH]; intros O F F'.
    - change (push k' v' [(k, [v])] = push k v [(k', [v'])]). rewrite !push_cons.
      rewrite (comp_gt k k'), (comp_lt k' k) by assumption. reflexivity.
    - apply Forall_cons_iff in O, F, F'. destruct O as [Ox O], F as [Ax F], F' as [Ax' F']. specialize (IH O F F').
      unfold okv, apart_from, elo, ehi in Ox, Ax, Ax'. cbn [fst] in *.
      destruct (push_some k v l Vk O F) as (lk & Ek). destruct (push_some k' v' l Vk' O F') as (lk' & Ek').
      rewrite (push_cons k v), (push_cons k' v'), Ek, Ek' in *. cbn [obind omap] in *.
      destruct (entry_comp_rk x k Ox Vk Ax) as [(-> & X1 & X2)|[(-> & X1 & X2)|(-> & X1 & X2)]]; cbn [obind].
      + rewrite (comp_gt x k') by lia. cbn [obind]. rewrite !push_cons, (comp_gt x k') by lia. rewrite Ek'. cbn [omap].
        destruct (entry_comp_rk x k Ox Vk Ax) as [(-> & _)|[(_ & X)|(_ & X)]]; [reflexivity|lia|lia].
      + rewrite (comp_gt x k') by lia. cbn [obind]. rewrite !push_cons, (comp_gt x k') by lia.
        rewrite (comp_gt x k) by lia. rewrite IH. reflexivity.
      + rewrite (push_cons k' v' k), (comp_gt k k') by lia. rewrite push_cons.
        destruct (entry_comp_rk x k' Ox Vk' Ax') as [(-> & Y1 & Y2)|[(-> & Y1 & Y2)|(-> & Y1 & Y2)]]; cbn [obind omap].
        * rewrite push_cons, (comp_lt x k) by lia. reflexivity.
        * rewrite Ek'. cbn [obind omap]. rewrite push_cons, (comp_lt x k) by lia. reflexivity.
        * rewrite push_cons, (comp_lt k' k) by lia. reflexivity.
  Qed.

  Lemma insert_form z k v : ZWF z -> lo k <= hi k ->
    (Forall (apart_from (lo k) (hi k)) (z_inner z) /\ exists l, push k v (z_inner z) = Val l /\ insert_strict_back k v z = (mkZosdit (z_len z + 1) l, Val (Ok tt))) \/
    (~ Forall (apart_from (lo k) (hi k)) (z_inner z) /\ insert_strict_back k v z = (z, Val (Err v))).
  Proof.
    intros Wf Vk. destruct (insert_back_cases z k v Wf) as [(X & _)|[(_ & X & E)|(_ & X & _)]]; [lia|right; auto|left].
    split; [exact X|]. destruct Wf as (W & Hok & _). destruct (push_some k v (z_inner z) Vk (okvs _ W) X) as (l & E). exists l. split; [exact E|].
    unfold insert_strict_back. rewrite iip_valid by (apply valid_rk, Vk). rewrite (proj1 (is_zero_overlap_rk z k W Vk) X).
    unfold push in E. rewrite E. reflexivity.
  Qed.

  Lemma insert_commute_left z k v k' v' : ZWF z -> lo k <= hi k -> lo k' <= hi k' -> hi k <= lo k' -> lo k < hi k' ->
    fst (insert_strict_back k' v' (fst (insert_strict_back k v z))) = fst (insert_strict_back k v (fst (insert_strict_back k' v' z))) /\
    snd (insert_strict_back k' v' (fst (insert_strict_back k v z))) = snd (insert_strict_back k' v' z) /\
    snd (insert_strict_back k v (fst (insert_strict_back k' v' z))) = snd (insert_strict_back k v z).
  Proof.
    intros Wf Vk Vk' L1 L2. pose proof (insert_ZWF z k v Wf) as Wk. pose proof (insert_ZWF z k' v' Wf) as Wk'.
    destruct (insert_form z k v Wf Vk) as [(A & l & Pl & El)|(N & El)];
    destruct (insert_form z k' v' Wf Vk') as [(A' & l' & Pl' & El')|(N' & El')]; rewrite El, El' in *; cbn [fst snd] in *.
    - assert (B : Forall (apart_from (lo k') (hi k')) l).
      { apply (push_keys k v _ _ Pl (fun x => hi x <= lo k' \/ hi k' <= lo x)); [lia|exact A']. }
      assert (B' : Forall (apart_from (lo k) (hi k)) l').
      { apply (push_keys k' v' _ _ Pl' (fun x => hi x <= lo k \/ hi k <= lo x)); [lia|exact A]. }
      destruct (insert_form (mkZosdit (z_len z + 1) l) k' v' Wk Vk') as [(_ & x & Px & Ex)|(N & _)]; [|contradiction].
      destruct (insert_form (mkZosdit (z_len z + 1) l') k v Wk' Vk) as [(_ & y & Py & Ey)|(N & _)]; [|contradiction].
      rewrite Ex, Ey. cbn [fst snd z_len z_inner] in *.
      pose proof (push_commute k v k' v' (z_inner z) Vk Vk' L1 L2 (okvs _ (proj1 Wf)) A A') as C.
      rewrite Pl, Pl' in C. cbn [obind] in C. rewrite Px, Py in C. injection C as <-. auto.
    - destruct (insert_form (mkZosdit (z_len z + 1) l) k' v' Wk Vk') as [(B & _)|(_ & E)]; [exfalso|rewrite E, El; auto].
      apply N'. apply (push_keeps k v _ _ (fun x => hi x <= lo k' \/ hi k' <= lo x) Pl B).
    - destruct (insert_form (mkZosdit (z_len z + 1) l') k v Wk' Vk) as [(B & _)|(_ & E)]; [exfalso|rewrite E, El'; auto].
      apply N. apply (push_keeps k' v' _ _ (fun x => hi x <= lo k \/ hi k <= lo x) Pl' B).
    - rewrite El, El'. auto.
  Qed.

  Lemma insert_commute z k v k' v' : ZWF z -> (valid k -> valid k' -> zero_overlap k k' /\ ~ same_points k k') ->
    fst (insert_strict_back k' v' (fst (insert_strict_back k v z))) = fst (insert_strict_back k v (fst (insert_strict_back k' v' z))) /\
    snd (insert_strict_back k' v' (fst (insert_strict_back k v z))) = snd (insert_strict_back k' v' z) /\
    snd (insert_strict_back k v (fst (insert_strict_back k' v' z))) = snd (insert_strict_back k v z).
  Proof.
    intros Wf H.
    assert (Bad : forall (q : K) (w : V) (y : ZosditMap K V), ~ valid q -> insert_strict_back q w y = (y, Panic)).
    { intros q w y N. unfold insert_strict_back. rewrite iip_invalid by exact N. reflexivity. }
    destruct (valid_dec k) as [Vk|N]; [|rewrite !(Bad k) by exact N; auto].
    destruct (valid_dec k') as [Vk'|N]; [|rewrite !(Bad k') by exact N; auto].
    destruct (H Vk Vk') as [Z S]. apply valid_rk in Vk, Vk'. rewrite same_points_rk in S by assumption.
    apply zero_overlap_rk in Z; [|assumption..].
    destruct (Z_le_gt_dec (hi k) (lo k')) as [L|L].
    - apply insert_commute_left; try assumption. lia.
    - destruct (insert_commute_left z k' v' k v Wf Vk' Vk ltac:(lia) ltac:(lia)) as (A & B & C). auto.
  Qed.

  Lemma push_apart k v (l l' : store) a b : lo k <= hi k -> a <= b -> Forall okv l -> Forall (apart_from (lo k) (hi k)) l ->
    push k v l = Val l' -> Forall (apart_from a b) l' -> hi k <= a \/ b <= lo k.
  Proof.
    intros Vk Vab. revert l'. induction l as [|[x vs] l IH]; intros l' O A E F.
    - injection E as <-. apply Forall_cons_iff in F. exact (proj1 F).
    - apply Forall_cons_iff in O, A. destruct O as [Ox O], A as [Ax A]. rewrite push_cons in E.
      destruct (entry_comp_rk x k Ox Vk Ax) as [(X & X1 & X2)|[(X & X1 & X2)|(X & X1 & X2)]]; rewrite X in E.
      + injection E as <-. apply Forall_cons_iff in F. destruct F as [F _]. unfold apart_from, okv, elo, ehi in *. cbn [fst] in *. lia.
      + destruct (push k v l) as [y|]; [|discriminate]. injection E as <-. apply Forall_cons_iff in F. apply (IH y O A eq_refl (proj2 F)).
      + injection E as <-. apply Forall_cons_iff in F. exact (proj1 F).
  Qed.
  Lemma insert_blocks z k v k' v' : ZWF z -> valid k -> valid k' -> ~ zero_overlap k k' ->
    snd (insert_strict_back k v z) = Val (Ok tt) ->
    insert_strict_back k' v' (fst (insert_strict_back k v z)) = (fst (insert_strict_back k v z), Val (Err v')).
  Proof.
    intros Wf Vk Vk' H Ok. apply valid_rk in Vk, Vk'. rewrite zero_overlap_rk in H by assumption.
    pose proof (insert_ZWF z k v Wf) as Wk.
    destruct (insert_form z k v Wf Vk) as [(A & l & Pl & El)|(N & El)]; rewrite El in *; cbn [fst snd] in *; [|discriminate].
    destruct (insert_form (mkZosdit (z_len z + 1) l) k' v' Wk Vk') as [(B & _)|(_ & E)]; [exfalso|exact E].
    apply H. apply (push_apart k v (z_inner z) l); try assumption. apply okvs, (proj1 Wf).
  Qed.
End Order.
