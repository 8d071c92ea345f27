(** * PropsEq: what [==] means for the containers (C80-C82). *)
From Coq Require Import List ZArith Bool Lia Sorting.Sorted Permutation.
From Verif Require Import Base BTree UtilsModel IntervalModel NoditModel NoditSetModel NoditOps NoditSetOps ZosditModel ZosditOps EqModel
  Spec InstancesModel Instances PointFacts IntervalFacts ListFacts NoditFacts NoditQueries NoditMutations NoditMerges NoditInv
  NoditSetFacts NoditSetProofs EqFacts ZosditFacts ZosditMut ZosditProofs PropsNodit PropsZosdit.
Import ListNotations.
Open Scope nat_scope.

Section Props.
  Context {I : Type} `{PL : PointLaws I}.
  Context {K : Type} {IK : InclusiveInterval I K} {IL : IntervalLaws I K}.
  Context {V : Type}.
  Implicit Types (m : NoditMap K V) (s : NoditSet K) (keq : K -> K -> bool) (veq : V -> V -> bool).

  (** [K]'s [==] tells valid intervals with the same points from others. *)
  Definition compares_points keq : Prop :=
    forall k k', valid k -> valid k' -> (keq k k' = true <-> same_points k k').

  (** ** C80 *)
  Theorem C80_map_equality : forall keq veq m m',
    (forall k k', keq k k' = true <-> k = k') -> (forall v v', veq v v' = true <-> v = v') -> reachable m -> reachable m' ->
    (nodit_eqb keq veq m m' = true <-> forall e, In e (iter m) <-> In e (iter m')).
  Proof.
    intros keq veq m m' Hk Hv R R'. unfold nodit_eqb. rewrite (bt_eqb_eq keq veq m m' Hk Hv). split; [intros ->; reflexivity|].
    apply WF_perm_eq; apply reachable_WF; assumption.
  Qed.
  Theorem C80_set_equality : forall keq (os os' : list (set_op I K)), compares_points keq ->
    Forall merging os -> Forall merging os' ->
    (set_eqb keq (set_run os) (set_run os') = true <->
     forall p, set_contains_point (set_run os) p = set_contains_point (set_run os') p).
  Proof.
    intros keq os os' Hk HF HF'. unfold set_eqb, nodit_eqb. rewrite bt_eqb_F2.
    assert (Val : forall os : list (set_op I K), forall e, In e (set_run os) -> valid (fst e)).
    { intros o e He. apply valid_rk, (WF_okv _ _ (set_run_WF o) He). }
    assert (X : forall s s' : NoditSet K, (forall e, In e s -> valid (fst e)) -> (forall e, In e s' -> valid (fst e)) ->
      (Forall2 (fun x y => keq (fst x) (fst y) = true /\ true = true) s s' <-> Forall2 same_points (set_iter s) (set_iter s'))).
    { unfold set_iter, iter, first. clear - Hk. induction s as [|[k []] s IH]; intros [|[k' []] s'] A B; cbn [map fst snd].
      - split; constructor.
      - split; intros F; inversion F.
      - split; intros F; inversion F.
      - specialize (IH s' (fun e He => A e (or_intror He)) (fun e He => B e (or_intror He))).
        pose proof (Hk k k' (A _ (or_introl eq_refl)) (B _ (or_introl eq_refl))) as E.
        split; intros F; inversion F; subst; constructor; try (apply IH; assumption).
        + apply E. cbn in *. tauto.
        + cbn. split; [apply E; assumption|reflexivity]. }
    rewrite (X _ _ (Val os) (Val os')). split.
    - intros F p. apply contains_point_ext; [apply set_run_WF..|]. unfold in_set.
      assert (Y : forall p, (exists k, In k (set_iter (set_run os)) /\ covers k p) <-> (exists k, In k (set_iter (set_run os')) /\ covers k p)).
      { intros x. clear - F. induction F as [|k k' l l' E F IH]; [split; intros (k & [] & _)|]. split.
        - intros (a & [<-|Ha] & C); [exists k'; cbn; split; [auto|apply E, C]|].
          destruct (proj1 IH) as (b & Hb & Cb); [exists a; auto|]. exists b. cbn. auto.
        - intros (a & [<-|Ha] & C); [exists k; cbn; split; [auto|apply E, C]|].
          destruct (proj2 IH) as (b & Hb & Cb); [exists a; auto|]. exists b. cbn. auto. }
      exact (Y p).
    - apply canonical_same; assumption.
  Qed.

  (** ** C81 *)
  Theorem C81_entries_are_maximal : forall veq (os : list (op I K V)), (forall v v', veq v v' = true <-> v = v') ->
    Forall (value_merging veq) os ->
    forall k v, In (k, v) (iter (run os)) -> max_run (fun p => maps_to (iter (run os)) p v) k.
  Proof. intros veq os Hv HF k v. apply vcanon_max_run; [apply run_WF|apply (vrun_vcanon veq Hv os HF)]. Qed.
  Theorem C81_equality_is_extensional : forall keq veq (os os' : list (op I K V)), compares_points keq ->
    (forall v v', veq v v' = true <-> v = v') -> Forall (value_merging veq) os -> Forall (value_merging veq) os' ->
    (nodit_eqb keq veq (run os) (run os') = true <-> same_map (iter (run os)) (iter (run os'))).
  Proof.
    intros keq veq os os' Hk Hv HF HF'. unfold nodit_eqb. rewrite bt_eqb_F2.
    assert (X : Forall2 (fun x y => keq (fst x) (fst y) = true /\ veq (snd x) (snd y) = true) (run os) (run os') <->
      Forall2 same_entry (run os) (run os')).
    { pose proof (run_WF os) as W. pose proof (run_WF os') as W'.
      assert (A : forall e, In e (run os) -> valid (fst e)) by (intros e He; apply valid_rk, (WF_okv _ _ W He)).
      assert (B : forall e, In e (run os') -> valid (fst e)) by (intros e He; apply valid_rk, (WF_okv _ _ W' He)).
      revert A B. generalize (run os) (run os'). clear - Hk Hv. intros l l'. revert l'. unfold same_entry.
      induction l as [|x l IH]; intros [|y l'] A B; [split; constructor|split; intros F; inversion F..|].
      specialize (IH l' (fun e He => A e (or_intror He)) (fun e He => B e (or_intror He))).
      pose proof (Hk (fst x) (fst y) (A _ (or_introl eq_refl)) (B _ (or_introl eq_refl))) as E.
      split; intros F; inversion F as [|? ? ? ? [P Q] F']; subst; constructor; try (apply IH; assumption).
      - split; [apply E, P|apply Hv, Q].
      - split; [apply E, P|apply Hv, Q]. }
    rewrite X. split; [apply F2_same_map|].
    apply vcanon_ext; [apply run_WF..|apply (vrun_vcanon veq Hv); assumption|apply (vrun_vcanon veq Hv); assumption].
  Qed.
  (** Disjoint intervals may be inserted in any order. *)
  Theorem C81_insertion_order : forall keq veq (l l' : list (K * V)), compares_points keq ->
    (forall v v', veq v v' = true <-> v = v') -> disjoint_intervals (map fst l) -> Permutation l l' ->
    let build := fun l => run (map (fun e => OpInsertMergeTouchingIfValuesEqual veq (fst e) (snd e)) l) in
    nodit_eqb keq veq (build l) (build l') = true.
  Proof.
    intros keq veq l l' Hk Hv HD HP build. apply C81_equality_is_extensional; [assumption..|apply (vinserts_merging veq)|apply (vinserts_merging veq)|].
    assert (HD' : disjoint_intervals (map fst l')).
    { destruct HD as [A B]. apply (Permutation_map fst) in HP. split; [apply (Permutation_Forall HP A)|].
      clear - B HP. revert B. induction HP as [|x a b P IH|x y a|a b c P IH P' IH']; intros B; [exact B| | |auto].
      - inversion B; subst. constructor; [apply (Permutation_Forall P); assumption|auto].
      - inversion B as [|? ? F B']; subst. inversion B' as [|? ? F' B'']; subst. inversion F; subst.
        constructor; [constructor; [|assumption]|constructor; assumption].
        intros (p & P1 & P2). match goal with N : ~ overlap _ _ |- _ => apply N end. exists p. auto. }
    intros p v. pose proof (vinserts_maps veq Hv l HD p v) as X. pose proof (vinserts_maps veq Hv l' HD' p v) as X'.
    etransitivity; [exact X|]. etransitivity; [|symmetry; exact X'].
    split; intros (k & Hi & Hc); exists k; (split; [|exact Hc]); [apply (Permutation_in _ HP Hi)|apply (Permutation_in _ (Permutation_sym HP) Hi)].
  Qed.

  (** ** C82: full claim without the hypotheses on the histories; false, see
      below. *)
  Theorem C82_zosdit_equality_partial : forall keq veq (os os' : list (zop I K V)),
    (forall k k', keq k k' = true <-> k = k') -> (forall v v', veq v v' = true <-> v = v') ->
    Forall not_cut os -> Forall not_cut os' ->
    (zosdit_eqb keq veq (zrun os) (zrun os') = true <->
     zosdit_iter (zrun os) = zosdit_iter (zrun os') /\ removed os = removed os').
  Proof.
    intros keq veq os os' Hk Hv N N'. unfold zosdit_eqb.
    rewrite andb_true_iff, Nat.eqb_eq, (bt_eqb_eq keq (vec_eqb veq)); [|exact Hk|apply vec_eqb_eq, Hv].
    pose proof (removed_len os) as L. pose proof (removed_len os') as L'. unfold zosdit_len in *. split.
    - intros [E1 E2]. assert (E : zosdit_iter (zrun os) = zosdit_iter (zrun os')) by (unfold zosdit_iter; rewrite E2; reflexivity).
      split; [exact E|]. rewrite E in L. lia.
    - intros [E R]. rewrite E in L. split; [lia|].
      apply ZD_inner_unique; [apply zrun_ZWF..|apply zrun_ZD, N|apply zrun_ZD, N'|exact E].
  Qed.
  (** With cuts, for maps whose trees hold no interval twice. *)
  Theorem C82_zosdit_equality_stored_once_partial : forall keq veq (z z' : ZosditMap K V),
    (forall k k', keq k k' = true <-> k = k') -> (forall v v', veq v v' = true <-> v = v') ->
    zreachable (I := I) z -> zreachable (I := I) z' -> stored_once (I := I) z -> stored_once (I := I) z' ->
    (zosdit_eqb keq veq z z' = true <-> zosdit_iter z = zosdit_iter z' /\ zosdit_len z = zosdit_len z').
  Proof.
    intros keq veq z z' Hk Hv R R' S S'. unfold zosdit_eqb.
    rewrite andb_true_iff, Nat.eqb_eq, (bt_eqb_eq keq (vec_eqb veq)); [|exact Hk|apply vec_eqb_eq, Hv].
    unfold zosdit_len, zosdit_iter. split; [intros [A B]; rewrite B; auto|]. intros [E N]. split; [exact N|].
    pose proof (zreachable_ZWF z R) as W. pose proof (zreachable_ZWF z' R') as W'.
    apply ZD_inner_unique; [exact W|exact W'|apply (stored_once_ZD z W), S|apply (stored_once_ZD z' W'), S'|exact E].
  Qed.
  (** What [==] does guarantee, with cuts too. *)
  Theorem C82_equal_maps_have_equal_entries_partial : forall keq veq (z z' : ZosditMap K V),
    (forall k k', keq k k' = true <-> k = k') -> (forall v v', veq v v' = true <-> v = v') ->
    zosdit_eqb keq veq z z' = true -> zosdit_iter z = zosdit_iter z' /\ zosdit_len z = zosdit_len z'.
  Proof.
    intros keq veq z z' Hk Hv. unfold zosdit_eqb.
    rewrite andb_true_iff, Nat.eqb_eq, (bt_eqb_eq keq (vec_eqb veq)); [|exact Hk|apply vec_eqb_eq, Hv].
    intros [A B]. unfold zosdit_iter. rewrite B. auto.
  Qed.
End Props.

(** ** Refutation of C82: after a removal the counters differ, after a cut the
    same entries may be stored differently. *)
Definition ieq : Interval u8 -> Interval u8 -> bool := interval_eqb eqb.
Theorem C82_zosdit_equality_refuted :
  (exists ops ops' : list (zop u8 (Interval u8) nat), zosdit_iter (zrun ops) = zosdit_iter (zrun ops') /\
     zosdit_eqb ieq Nat.eqb (zrun ops) (zrun ops') = false /\ Forall not_cut ops /\ Forall not_cut ops') /\
  (exists ops ops' : list (zop u8 (Interval u8) nat), zosdit_iter (zrun ops) = zosdit_iter (zrun ops') /\
     zosdit_eqb ieq Nat.eqb (zrun ops) (zrun ops') = false /\ Forall not_remove ops /\ Forall not_remove ops').
Proof.
  split.
  - exists [ZInsertStrictBack (0 --> 1) 1; ZRemoveLast '0], [].
    split; [vm_compute; reflexivity|]. split; [vm_compute; reflexivity|]. split; repeat constructor.
  - exists [ZInsertStrictBack (0 --> 0) 1; ZInsertStrictBack (0 --> 4) 2; ZCut (1 --> 3)],
      [ZInsertStrictBack (0 --> 0) 1; ZInsertStrictBack (0 --> 0) 2; ZInsertStrictBack (4 --> 4) 2].
    split; [vm_compute; reflexivity|]. split; [vm_compute; reflexivity|]. split; repeat constructor.
Qed.

(** ** Examples: the hypotheses are met, non-trivially. *)
Example C82_stored_once_example : stored_once (zrun C64_cut_ops) /\ zosdit_eqb ieq Nat.eqb (zrun C64_cut_ops) (zrun C64_cut_ops) = true.
Proof. split; [apply C64_cut_example|vm_compute; reflexivity]. Qed.
Lemma u8_eqb (x y : u8) : eqb x y = true <-> x = y.
Proof. apply eqb_true. Qed.
Lemma ieq_eq (a b : Interval u8) : ieq a b = true <-> a = b.
Proof.
  destruct a as [a b0], b as [c d]. unfold ieq, interval_eqb. cbn [ivl_start ivl_end]. rewrite andb_true_iff, !u8_eqb.
  split; [intros [-> ->]; reflexivity|intros E; injection E; auto].
Qed.
Example C80_example : compares_points ieq /\
  nodit_eqb ieq Nat.eqb (run [OpInsertStrict (1 --> 4) 1; OpInsertStrict (6 --> 9) 2; OpCut (3 --> 7)])
    (run [OpInsertStrict (8 --> 9) 2; OpInsertStrict (1 --> 2) 1]) = true /\
  set_eqb ieq (set_run [SInsertMergeTouching (1 --> 4); SInsertMergeTouching (7 --> 9); SInsertMergeTouching (5 --> 6)])
    (set_run [SInsertMergeTouchingOrOverlapping (1 --> 5); SInsertMergeTouchingOrOverlapping (4 --> 9)]) = true /\
  set_eqb ieq (set_run [SInsertStrict (1 --> 4); SInsertStrict (5 --> 9)]) (set_run [SInsertStrict (1 --> 9)]) = false.
Proof.
  split.
  - intros k k' Vk Vk'. rewrite ieq_eq. split; [intros ->; intros p; reflexivity|apply same_interval; assumption].
  - vm_compute. auto.
Qed.
Example C81_example :
  iter (run [OpInsertMergeTouchingIfValuesEqual Nat.eqb (1 --> 4) 7; OpInsertMergeTouchingIfValuesEqual Nat.eqb (8 --> 9) 7;
             OpInsertMergeTouchingIfValuesEqual Nat.eqb (10 --> 12) 8; OpInsertMergeTouchingIfValuesEqual Nat.eqb (5 --> 7) 7]) =
    [(1 --> 9, 7); (10 --> 12, 8)] /\
  nodit_eqb ieq Nat.eqb
    (run [OpInsertMergeTouchingIfValuesEqual Nat.eqb (1 --> 4) 7; OpInsertMergeTouchingIfValuesEqual Nat.eqb (5 --> 7) 7])
    (run [OpInsertMergeTouchingIfValuesEqual Nat.eqb (1 --> 9) 7; OpCut (8 --> 10)]) = true /\
  (** with a plain insertion equality is not extensional *)
  nodit_eqb ieq Nat.eqb
    (run [OpInsertMergeTouchingIfValuesEqual Nat.eqb (1 --> 4) 7; OpInsertStrict (5 --> 7) 7])
    (run [OpInsertMergeTouchingIfValuesEqual Nat.eqb (1 --> 7) 7]) = false.
Proof. vm_compute. auto. Qed.
Example C82_example :
  zosdit_eqb ieq Nat.eqb
    (zrun [ZInsertStrictBack (1 --> 4) 1; ZInsertStrictBack (4 --> 6) 3; ZInsertStrictBack (4 --> 4) 2; ZRemoveLast '1])
    (zrun [ZInsertStrictBack (4 --> 4) 2; ZInsertStrictBack (4 --> 6) 3; ZInsertStrictBack (6 --> 8) 1; ZRemoveLast '8]) = true.
Proof. vm_compute. reflexivity. Qed.

Print Assumptions C80_map_equality.
Print Assumptions C80_set_equality.
Print Assumptions C81_entries_are_maximal.
Print Assumptions C81_equality_is_extensional.
Print Assumptions C81_insertion_order.
Print Assumptions C82_zosdit_equality_partial.
Print Assumptions C82_zosdit_equality_stored_once_partial.
Print Assumptions C82_equal_maps_have_equal_entries_partial.
Print Assumptions C82_zosdit_equality_refuted.
