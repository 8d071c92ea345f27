(** * PropsUndo: what a removal returned can be put back (C139). *)
From Coq Require Import List ZArith Bool Lia Permutation Sorting.Sorted.
From Verif Require Import Base BTree IntervalModel NoditModel NoditOps ZosditModel ZosditOps UndoOps Spec InstancesModel Instances
  PointFacts IntervalFacts ListFacts NoditFacts NoditQueries NoditInv NoditMutations NoditCoherence EqModel EqFacts UndoFacts
  ZosditFacts ZosditMut ZosditProofs PropsNodit PropsZosdit PropsCoherence CompleteProofs.
Import ListNotations.
Open Scope nat_scope.

Section Nodit.
  Context {I : Type} `{PL : PointLaws I}.
  Context {K : Type} {IK : InclusiveInterval I K} {IL : IntervalLaws I K} {FI : FromInvalid I K}.
  Context {V : Type}.
  Context {Q : Type} {IQ : InclusiveInterval I Q}.
  Implicit Types (m : NoditMap K V) (k : K) (v : V) (p : I) (q : Q) (l out : list (K * V)).

  Lemma same_map_get m m' p : WF m -> WF m' -> same_map m m' -> get_at_point m p = get_at_point m' p.
  Proof.
    intros W W' S. destruct (get_at_point_cases m p W) as [(v & M & -> & _)|(N & -> & _)].
    - symmetry. apply get_at_point_Some; [exact W'|]. apply S, M.
    - symmetry. apply get_at_point_None; [exact W'|]. intros C. apply covered_maps_to in C. destruct C as (v & C).
      apply N. apply (maps_to_covered m p v), S, C.
  Qed.

  Lemma cut_put_back {R} {IR : InclusiveInterval I R} m (q : R) m1 out l : WF m -> cut q m = (m1, Val out) -> Permutation l out ->
    exists m2, put_back l m1 m2 /\ (forall e, In e m2 <-> In e m1 \/ In e out) /\ forall p, get_at_point m2 p = get_at_point m p.
  Proof.
    intros W E P. destruct (cut_fits m q m1 out W E) as (W1 & F & M).
    destruct (put_all l m1 W1) as (m2 & B & W2 & M2); [apply (fits_perm out l m1 (Permutation_sym P) F)|].
    assert (M3 : forall e, In e m2 <-> In e m1 \/ In e out).
    { intros e. rewrite M2. split; (intros [X|X]; [left; exact X|right]); [apply (Permutation_in _ P X)|apply (Permutation_in _ (Permutation_sym P) X)]. }
    exists m2. split; [exact B|]. split; [exact M3|]. intros p. apply same_map_get; [exact W2|exact W|]. intros p' v. rewrite M.
    apply maps_to_members, M3.
  Qed.

  (** ** C139 *)
  (** In any order, without a refusal, and giving the very same map. *)
  Theorem C139_remove_undone : forall m q m1 out l, reachable m -> remove_overlapping q m = (m1, Val out) -> Permutation l out ->
    put_back l m1 m.
  Proof.
    intros m q m1 out l R E P. apply reachable_WF in R. destruct (removed_fits m q m1 out R E) as (W1 & F & M).
    destruct (put_all l m1 W1) as (m2 & B & W2 & M2); [apply (fits_perm out l m1 (Permutation_sym P) F)|].
    replace m with m2; [exact B|]. apply WF_perm_eq; [exact W2|exact R|]. intros e. rewrite M2, M.
    split; (intros [X|X]; [left; exact X|right]); [apply (Permutation_in _ P X)|apply (Permutation_in _ (Permutation_sym P) X)].
  Qed.
  (** What [cut] returned, likewise; entries it has split remain split, ... *)
  Theorem C139_cut_undone : forall m q m1 out l, reachable m -> cut q m = (m1, Val out) -> Permutation l out ->
    exists m2, put_back l m1 m2 /\ (forall e, In e (iter m2) <-> In e (iter m1) \/ In e out) /\
      forall p, get_at_point m2 p = get_at_point m p.
  Proof.
    intros m q m1 out l R. apply cut_put_back, reachable_WF, R.
  Qed.
  (** ... unless they are put back by merging equal values into a map in which
      no two touching entries have equal values: then it is as before. *)
  Theorem C139_cut_undone_by_merging : forall veq m q m1 out l, (forall x y, veq x y = true <-> x = y) -> reachable m ->
    (forall a b, In a (iter m) -> In b (iter m) -> touch (fst a) (fst b) -> snd a <> snd b) ->
    cut q m = (m1, Val out) -> Permutation l out ->
    exists m2, put_back_merging veq l m1 m2 /\ Forall2 (fun a b => same_points (fst a) (fst b) /\ snd a = snd b) (iter m) (iter m2).
  Proof.
    intros veq m q m1 out l Hv R C E P. apply reachable_WF in R. destruct (cut_fits m q m1 out R E) as (W1 & F & M).
    assert (Vc : vcanon m).
    { intros k v k' v' Hi Hi' T. apply (C (k, v) (k', v') Hi Hi').
      apply touch_rk; [apply (WF_okv _ _ R Hi)|apply (WF_okv _ _ R Hi')|]. left. exact T. }
    assert (V1 : vcanon m1).
    { replace m1 with (fst (cut q m)) by (rewrite E; reflexivity). apply vcut_vcanon; [exact R| |exact Vc].
      destruct (valid_dec q) as [Vq|N]; [exact Vq|]. rewrite NoditInv.cut_invalid in E by exact N. discriminate. }
    destruct (put_all_merging veq Hv l m1 W1 V1) as (m2 & B & W2 & V2 & M2); [apply (fits_perm out l m1 (Permutation_sym P) F)|].
    exists m2. split; [exact B|]. apply vcanon_ext; [assumption..|]. intros p v. rewrite M, M2. rewrite (maps_to_perm l out P p v). reflexivity.
  Qed.
  (** An overwriting insertion is undone by removing what it inserted and putting
      back what it returned. *)
  Theorem C139_overwrite_undone : forall m k v m1 out l, reachable m -> insert_overwrite k v m = (m1, Val out) -> Permutation l out ->
    exists m2 m3, remove_overlapping k m1 = (m2, Val [(k, v)]) /\ put_back l m2 m3 /\ forall p, get_at_point m3 p = get_at_point m p.
  Proof.
    intros m k v m1 out l R E P. rewrite (C88_overwrite_is_cut_then_insert m k v R) in E. injection E as E1 E2.
    assert (Vk : valid k).
    { destruct (valid_dec k) as [Vk|N]; [exact Vk|]. rewrite NoditInv.cut_invalid in E2 by exact N. discriminate. }
    pose proof (reachable_WF m R) as W. destruct (cut k m) as [m2 o] eqn:Ec. cbn [fst snd] in *. subst o.
    destruct (cut_entries m k W Vk) as (m' & o & Ec' & W2 & _ & _ & _ & M). rewrite Ec in Ec'. injection Ec' as <- <-.
    destruct (insert_strict_done m2 k v W2 Vk) as (l1 & l2 & Em & Ei & _).
    { intros k' v' Hi (p & H1 & H2). destruct (proj1 (M p v')) as [_ X]; [exists k'; split; assumption|]. exact (X H2). }
    rewrite Ei in E1. cbn [fst] in E1. subst m1. destruct (strict_remove m2 _ k v W2 Ei) as [Er _].
    destruct (cut_put_back m k m2 out l W Ec P) as (m3 & B & _ & G). exists m2, m3. auto.
  Qed.
End Nodit.

Section Zosdit.
  Context {I : Type} `{PL : PointLaws I}.
  Context {K : Type} {IK : InclusiveInterval I K} {IL : IntervalLaws I K}.
  Context {V : Type}.
  Implicit Types (k : K) (v : V) (p : I) (os : list (zop I K V)).

  Lemma split_unique {A} (P : A -> Prop) (a : list A) : forall b a' b', a ++ b = a' ++ b' -> (forall x, In x a -> P x) -> (forall x, In x b -> ~ P x) ->
    (forall x, In x a' -> P x) -> (forall x, In x b' -> ~ P x) -> a = a' /\ b = b'.
  Proof.
    induction a as [|x a IH]; intros b a' b' E Ha Hb Ha' Hb'.
    - destruct a' as [|y a']; [split; [reflexivity|exact E]|]. cbn in E. subst b. exfalso. apply (Hb y); [left; reflexivity|apply Ha'; left; reflexivity].
    - destruct a' as [|y a']; cbn in E.
      + subst b'. exfalso. apply (Hb' x); [left; reflexivity|apply Ha; left; reflexivity].
      + injection E as -> E. destruct (IH b a' b' E) as [-> ->]; [intros z Hz; apply Ha; right; exact Hz|exact Hb|intros z Hz; apply Ha'; right; exact Hz|exact Hb'|].
        split; reflexivity.
  Qed.

  (** In a map that was never cut, what [remove_last_value_at_point] removed goes
      back to its place. *)
  Theorem C139_remove_last_undone : forall os p z1 v, Forall not_cut os -> remove_last_value_at_point p (zrun os) = (z1, Val (Some v)) ->
    exists k, In (k, v) (zosdit_iter (zrun os)) /\ covers k p /\
      exists z2, insert_strict_back k v z1 = (z2, Val (Ok tt)) /\ Forall2 ZosditOps.same_entry (zosdit_iter (zrun os)) (zosdit_iter z2).
  Proof.
    intros os p z1 v Nc E. assert (R : zreachable (zrun os)) by (exists os; reflexivity).
    destruct (C39_remove_last_value_at_point (zrun os) p R) as (z' & E' & _ & X). rewrite E in E'. injection E' as <- Eg.
    destruct (X v (eq_sym Eg)) as (l1 & k & l2 & E1 & Hk & No & E2). exists k. split; [rewrite E1; apply in_elt|]. split; [exact Hk|].
    destruct (C32_entries_ascending_zero_overlap os) as (Va & So & _ & Zo). rewrite E1 in Va, So, Zo. rewrite map_app in Va, So, Zo. cbn [map fst] in Va, So, Zo.
    assert (Vk : valid k) by (exists p; exact Hk).
    assert (U1 : forall e, In e l1 -> up_to (fst e) k).
    { intros e He. clear -So He. induction l1 as [|a l1 IH]; [destruct He|]. cbn in So. inversion_clear So as [|? ? S F].
      destruct He as [<-|He]; [|auto]. rewrite Forall_forall in F. apply F, in_elt. }
    assert (U2 : forall e, In e l2 -> up_to k (fst e)).
    { intros e He. clear -So He. induction l1 as [|a l1 IH]; cbn in So; inversion_clear So as [|? ? S F]; [|auto].
      rewrite Forall_forall in F. apply F, in_map, He. }
    assert (V2 : forall e, In e l2 -> valid (fst e)).
    { intros e He. rewrite Forall_forall in Va. apply Va, in_or_app. right. right. apply in_map, He. }
    assert (V1 : forall e, In e l1 -> valid (fst e)).
    { intros e He. rewrite Forall_forall in Va. apply Va, in_or_app. left. apply in_map, He. }
    assert (N2 : forall e, In e l2 -> ~ up_to (fst e) k).
    { intros e He U. apply (No e He). pose proof (V2 e He) as Ve. apply valid_rk in Ve, Vk. specialize (U2 e He).
      apply (proj1 (up_to_rk _ _ Ve Vk)) in U. apply (proj1 (up_to_rk _ _ Vk Ve)) in U2. apply covers_rk in Hk. apply covers_rk. lia. }
    assert (Wz : z1 = zrun (os ++ [ZRemoveLast p])).
    { unfold zrun. rewrite fold_left_app. cbn [fold_left zstep]. fold (zrun os). rewrite E. reflexivity. }
    assert (Nc' : Forall not_cut (os ++ [ZRemoveLast (K := K) (V := V) p])) by (apply Forall_app; split; [exact Nc|constructor; [exact Logic.I|constructor]]).
    assert (Zk : forall e, In e (zosdit_iter (zrun (os ++ [ZRemoveLast p]))) -> zero_overlap (fst e) k).
    { rewrite <- Wz, E2. intros e He. apply in_app_or in He. pose proof Vk as Vk'. apply valid_rk in Vk'. destruct He as [He|He].
      - pose proof (V1 e He) as Ve. apply valid_rk in Ve. apply zero_overlap_rk; [assumption..|]. left. apply (proj1 (up_to_rk _ _ Ve Vk')), U1, He.
      - pose proof (V2 e He) as Ve. apply valid_rk in Ve. apply zero_overlap_rk; [assumption..|]. right. apply (proj1 (up_to_rk _ _ Vk' Ve)), U2, He. }
    destruct (C65_insert_at_the_back_partial (os ++ [ZRemoveLast p]) k v Vk Zk (or_intror (or_introl Nc'))) as (a & k' & b & Ea & Eb & Sk & Ua & Ub).
    rewrite <- Wz in *. rewrite E2 in Ea. destruct (split_unique (fun e => up_to (fst e) k) l1 l2 a b Ea U1 N2 Ua Ub) as [<- <-].
    destruct (insert_back_spec z1 k v) as [_ Y]; [rewrite Wz; apply zrun_ZWF|exact Vk|]. destruct (Y Zk) as (z2 & _ & _ & _ & Ei & _).
    exists z2. split; [exact Ei|]. rewrite Ei in Eb. cbn [fst] in Eb. rewrite Eb, E1.
    assert (Rf : forall l : list (K * V), Forall2 ZosditOps.same_entry l l).
    { intros l. induction l; constructor; [split; [intros x; reflexivity|reflexivity]|assumption]. }
    apply Forall2_app; [apply Rf|]. constructor; [split; [intros x; symmetry; apply Sk|reflexivity]|apply Rf].
  Qed.
End Zosdit.

Definition C139_ops : list (op u8 (Interval u8) nat) :=
  [OpInsertStrict (2 --> 4) 1; OpInsertStrict (6 --> 12) 2; OpInsertStrict (13 --> 20) 3].
Example C139_ex_remove : put_back [(6 --> 12, 2); (2 --> 4, 1)] (fst (remove_overlapping (3 --> 8 : Interval u8) (run C139_ops))) (run C139_ops).
Proof. vm_compute. eexists. split; [reflexivity|]. eexists. split; reflexivity. Qed.
Example C139_ex_cut : cut (3 --> 8 : Interval u8) (run C139_ops) =
    ([(2 --> 2, 1); (9 --> 12, 2); (13 --> 20, 3)], Val [(3 --> 4, 1); (6 --> 8, 2)]) /\
  put_back [(6 --> 8, 2); (3 --> 4, 1)] (fst (cut (3 --> 8 : Interval u8) (run C139_ops)))
    [(2 --> 2, 1); (3 --> 4, 1); (6 --> 8, 2); (9 --> 12, 2); (13 --> 20, 3)] /\
  put_back_merging Nat.eqb [(6 --> 8, 2); (3 --> 4, 1)] (fst (cut (3 --> 8 : Interval u8) (run C139_ops))) (run C139_ops).
Proof.
  split; [vm_compute; reflexivity|]. split; vm_compute.
  - eexists. split; [reflexivity|]. eexists. split; reflexivity.
  - eexists. eexists. split; [reflexivity|]. eexists. eexists. split; reflexivity.
Qed.
Example C139_ex_overwrite : insert_overwrite (3 --> 8) 9 (run C139_ops) =
  ([(2 --> 2, 1); (3 --> 8, 9); (9 --> 12, 2); (13 --> 20, 3)], Val [(3 --> 4, 1); (6 --> 8, 2)]).
Proof. vm_compute. reflexivity. Qed.
Definition C139_zops : list (zop u8 (Interval u8) nat) :=
  [ZInsertStrictBack (4 --> 4) 1; ZInsertStrictBack (4 --> 8) 2; ZInsertStrictBack (4 --> 4) 3].
Example C139_ex_zosdit : Forall not_cut C139_zops /\ snd (remove_last_value_at_point '4 (zrun C139_zops)) = Val (Some 2) /\
  zosdit_iter (zrun C139_zops) = [(4 --> 4, 1); (4 --> 4, 3); (4 --> 8, 2)] /\
  zosdit_iter (fst (insert_strict_back (4 --> 8) 2 (fst (remove_last_value_at_point '4 (zrun C139_zops))))) = [(4 --> 4, 1); (4 --> 4, 3); (4 --> 8, 2)].
Proof. split; [repeat constructor|vm_compute; auto]. Qed.

Print Assumptions C139_remove_undone.
Print Assumptions C139_cut_undone.
Print Assumptions C139_cut_undone_by_merging.
Print Assumptions C139_overwrite_undone.
Print Assumptions C139_remove_last_undone.
