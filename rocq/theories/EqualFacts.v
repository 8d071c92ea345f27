(** * EqualFacts: the ranks of the points are an integer type, and everything
      can be carried over to it (C97, C98). *)
From Coq Require Import List ZArith Bool Lia ZifyBool.
From Verif Require Import Base BTree UtilsModel IntervalModel NoditModel NoditOps ZosditModel ZosditOps Spec
  InstancesModel Instances PointFacts IntervalFacts IntervalProofs NoditFacts NoditInv ZosditProofs TransportOps TransportFacts EqualOps.
Import ListNotations.
Open Scope Z_scope.

Section Ranks.
  Context {I : Type} `{PL : PointLaws I}.
  Definition bottom : Z := rk (MIN : I).
  Definition top : Z := rk (MAX : I).
  #[export] Instance IntType_rank : IntType bottom top := IntType_range bottom top (rk_min MAX).
  Definition J : Type := int bottom top.
  Lemma rank_fits (x : I) : fits bottom top (rk x) = true.
  Proof. unfold fits, bottom, top. pose proof (rk_min x). pose proof (rk_max x). lia. Qed.
  Definition rank (x : I) : J := mkInt (rk x) (rank_fits x).
  Lemma rank_eq x y : rank x = rank y <-> cmp x y = Eq.
  Proof.
    rewrite rk_eq. split; intros E; [exact (f_equal ival E)|]. apply int_eq. exact E.
  Qed.
  Lemma rank_embeds : embeds rank.
  Proof.
    split; [|split].
    - intros x y. rewrite plt_rk. unfold plt. cbn. rewrite Z.compare_lt_iff. auto.
    - intros x y E. cbn. apply Z.compare_eq_iff, rk_eq, E.
    - intros x y z A B. unfold plt in A, B. cbn in A, B. rewrite Z.compare_lt_iff in A, B.
      destruct (rk_surj x y (ival z)) as (w & Hw); [lia|]. exists w. apply int_eq. cbn. lia.
  Qed.
  Lemma rank_ends : onto_ends rank.
  Proof. split; apply int_eq; reflexivity. Qed.
  (** Some point of a rank. *)
  Definition unrank (j : J) : I := match find (fun x => rk x =? ival j) points with Some x => x | None => MIN end.
  Lemma rank_unrank j : rank (unrank j) = j.
  Proof.
    unfold unrank. destruct (find (fun x => rk x =? ival j) points) as [x|] eqn:E.
    - apply find_some in E. apply int_eq. cbn. lia.
    - exfalso. pose proof (int_range j) as R. destruct (rk_surj MIN MAX (ival j) R) as (p & Hp).
      destruct (points_all p) as (y & Hy & C). apply rk_eq in C.
      pose proof (find_none _ _ E y Hy) as N. cbn in N. lia.
  Qed.
  Definition ranks {Q} {IQ : InclusiveInterval I Q} (q : Q) : Interval J := mkInterval (rank (istart q)) (rank (iend q)).
  Lemma ranks_carried {Q} {IQ : InclusiveInterval I Q} (q : Q) : carried rank q (ranks q).
  Proof. split; reflexivity. Qed.
  Lemma ranks_eq {Q R} {IQ : InclusiveInterval I Q} {IR : InclusiveInterval I R} (q : Q) (r : R) : ranks q = ranks r <-> same_ends q r.
  Proof.
    unfold ranks, same_ends. rewrite <- !rank_eq. split; [intros [= A B]|intros [A B]; rewrite A, B; reflexivity].
    split; apply int_eq; assumption.
  Qed.

  Context {K : Type} {IK : InclusiveInterval I K}.
  Hypothesis keeps : forall i : Interval I, same_ends (ifrom i : K) i.
  Lemma keeps_laws : IntervalLaws I K.
  Proof. split. intros i _. apply keeps. Qed.
  Lemma ranks_converts : converts rank (ranks : K -> Interval J).
  Proof.
    split; [intros k; apply ranks_carried|]. intros i. exact (proj2 (ranks_eq (ifrom i : K) i) (keeps i)).
  Qed.
  Definition unranks (j : Interval J) : K := ifrom (mkInterval (unrank (ivl_start j)) (unrank (ivl_end j))).
  Lemma ranks_unranks j : ranks (unranks j) = j.
  Proof.
    unfold unranks. rewrite (proj2 (ranks_eq _ _) (keeps _)). unfold ranks. cbn. rewrite !rank_unrank. destruct j. reflexivity.
  Qed.
  Lemma unranks_ends (k : K) : same_ends (unranks (ranks k)) k.
  Proof. apply ranks_eq, ranks_unranks. Qed.

  Context {V : Type}.
  Notation id := (fun v : V => v).
  Notation sent := (send (ranks : K -> Interval J) id).
  Lemma entry_eq (e e' : K * V) : sent e = sent e' <-> same_entry e e'.
  Proof.
    unfold send, same_entry. rewrite <- ranks_eq. split; [intros [= A B C]|intros [A B]; rewrite A, B; reflexivity].
    split; [|exact C]. unfold ranks. f_equal; apply int_eq; assumption.
  Qed.
  Lemma entries_eq (l l' : list (K * V)) : map sent l = map sent l' <-> Forall2 same_entry l l'.
  Proof.
    split.
    - revert l'. induction l as [|e l IH]; intros [|e' l'] E; try discriminate; [constructor|]. cbn [map] in E.
      assert (A : sent e = sent e') by congruence. assert (B : map sent l = map sent l') by congruence.
      constructor; [apply entry_eq, A|apply IH, B].
    - induction 1 as [|e e' l l' A _ IH]; [reflexivity|]. cbn [map]. rewrite IH. f_equal. apply entry_eq, A.
  Qed.
  Lemma options_eq (l l' : list (option (K * V))) : Forall2 (alike_option same_entry) l l' ->
    map (option_map sent) l = map (option_map sent) l'.
  Proof.
    induction 1 as [|[e|] [e'|] l l' A _ IH]; try destruct A; cbn [map option_map]; [reflexivity| |rewrite IH; reflexivity].
    rewrite IH. f_equal. f_equal. apply entry_eq. split; assumption.
  Qed.
  Lemma keys_eq (l l' : list K) : map ranks l = map ranks l' <-> Forall2 same_ends l l'.
  Proof.
    split.
    - revert l'. induction l as [|e l IH]; intros [|e' l'] E; try discriminate; [constructor|]. cbn [map] in E.
      assert (A : ranks e = ranks e') by congruence. assert (B : map ranks l = map ranks l') by congruence.
      constructor; [apply ranks_eq, A|apply IH, B].
    - induction 1 as [|e e' l l' A _ IH]; [reflexivity|]. cbn [map]. rewrite IH. f_equal. apply ranks_eq, A.
  Qed.

  (** Two calls with Equal points have the same image. *)
  Lemma op_join (o o' : op I K V) : op_equal o o' ->
    exists oj, op_sent rank ranks id o oj /\ op_sent rank ranks id o' oj.
  Proof.
    intros E. destruct E as [|k k' v E|k k' v E|veq k k' v E|k k' v E|k k' v E|k k' v E|Q IQ R IR q r E|Q IQ R IR q r E|Q IQ R IR q r u u' E U|u p p' E|u u' U|l l' E|l l' E].
    - eexists; split; constructor.
    - eexists; split; [apply os_strict|]. rewrite (proj2 (ranks_eq k k') E). apply os_strict.
    - eexists; split; [apply os_touching|]. rewrite (proj2 (ranks_eq k k') E). apply os_touching.
    - exists (OpInsertMergeTouchingIfValuesEqual veq (ranks k) v). split.
      + apply (os_touching_eq rank ranks id veq veq k v). reflexivity.
      + rewrite (proj2 (ranks_eq k k') E). apply (os_touching_eq rank ranks id veq veq k' v). reflexivity.
    - eexists; split; [apply os_overlapping|]. rewrite (proj2 (ranks_eq k k') E). apply os_overlapping.
    - eexists; split; [apply os_tor|]. rewrite (proj2 (ranks_eq k k') E). apply os_tor.
    - eexists; split; [apply os_overwrite|]. rewrite (proj2 (ranks_eq k k') E). apply os_overwrite.
    - exists (OpRemoveOverlapping (ranks q)). split; apply os_remove; [apply ranks_carried|].
      rewrite (proj2 (ranks_eq q r) E). apply ranks_carried.
    - exists (OpCut (ranks q)). split; apply os_cut; [apply ranks_carried|].
      rewrite (proj2 (ranks_eq q r) E). apply ranks_carried.
    - exists (OpOverlappingMut (fun j v => u (unranks j) v) (ranks q)). split; apply os_overlapping_mut.
      + apply ranks_carried.
      + intros k v. rewrite (U _ k v (unranks_ends k)). symmetry. apply U. split; apply cmp_same.
      + rewrite (proj2 (ranks_eq q r) E). apply ranks_carried.
      + intros k v. apply U, unranks_ends.
    - exists (OpGetAtPointMut u (rank p)). split; [apply os_get_mut; reflexivity|].
      rewrite (proj2 (rank_eq p p') E). apply os_get_mut. reflexivity.
    - exists (OpIterMut (fun j v => u (unranks j) v)). split; apply os_iter_mut.
      + intros k v. rewrite (U _ k v (unranks_ends k)). symmetry. apply U. split; apply cmp_same.
      + intros k v. apply U, unranks_ends.
    - eexists; split; [apply os_from_iter|]. rewrite (proj2 (entries_eq l l') E). apply os_from_iter.
    - eexists; split; [apply os_deserialize|]. rewrite (options_eq l l' E). apply os_deserialize.
  Qed.
  Lemma ops_join (os os' : list (op I K V)) : Forall2 op_equal os os' ->
    exists oj, Forall2 (op_sent rank ranks id) os oj /\ Forall2 (op_sent rank ranks id) os' oj.
  Proof.
    induction 1 as [|o o' os os' A _ (oj & B & C)]; [exists []; split; constructor|].
    destruct (op_join o o' A) as (j & D & E). exists (j :: oj). split; constructor; assumption.
  Qed.
  Lemma zop_join (o o' : zop I K V) : zop_equal o o' ->
    exists oj, zop_sent rank ranks id o oj /\ zop_sent rank ranks id o' oj.
  Proof.
    intros E. destruct E as [|k k' v E|p p' E|Q IQ R IR q r E|l l' E|l l' E].
    - eexists; split; constructor.
    - eexists; split; [apply zs_insert|]. rewrite (proj2 (ranks_eq k k') E). apply zs_insert.
    - eexists; split; [apply zs_remove|]. rewrite (proj2 (rank_eq p p') E). apply zs_remove.
    - exists (ZCut (ranks q)). split; apply zs_cut; [apply ranks_carried|].
      rewrite (proj2 (ranks_eq q r) E). apply ranks_carried.
    - eexists; split; [apply zs_from_iter|]. rewrite (proj2 (entries_eq l l') E). apply zs_from_iter.
    - eexists; split; [apply zs_deserialize|]. rewrite (options_eq l l' E). apply zs_deserialize.
  Qed.
  Lemma zops_join (os os' : list (zop I K V)) : Forall2 zop_equal os os' ->
    exists oj, Forall2 (zop_sent rank ranks id) os oj /\ Forall2 (zop_sent rank ranks id) os' oj.
  Proof.
    induction 1 as [|o o' os os' A _ (oj & B & C)]; [exists []; split; constructor|].
    destruct (zop_join o o' A) as (j & D & E). exists (j :: oj). split; constructor; assumption.
  Qed.

  (** Back from the images to the results. *)
  Lemma back {A B} (a : A -> B) (R : A -> A -> Prop) (x y : outcome A) : (forall u v, a u = a v -> R u v) ->
    omap a x = omap a y -> alike R x y.
  Proof. intros Hr E. destruct x, y; try discriminate; cbn in *; [apply Hr; congruence|exact Logic.I]. Qed.
  Lemma back_eq {A} (x y : outcome A) : omap (fun v => v) x = omap (fun v => v) y -> x = y.
  Proof. destruct x, y; cbn; congruence. Qed.
  Lemma back_result {A B} (a : A -> B) (R : A -> A -> Prop) (x y : result A V) : (forall u v, a u = a v -> R u v) ->
    send_error id a x = send_error id a y -> alike_result R eq x y.
  Proof. intros Hr E. destruct x, y; try discriminate; cbn in *; [apply Hr; congruence|congruence]. Qed.
End Ranks.
