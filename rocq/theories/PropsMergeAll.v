(** * PropsMergeAll: many merging insertions one after the other (C148). *)
From Coq Require Import List ZArith Bool Lia Permutation.
From Verif Require Import Base BTree UtilsModel IntervalModel NoditModel NoditOps Spec SplitOps MergeAllOps InstancesModel Instances
  PointFacts IntervalFacts NoditFacts NoditInv MergeAllFacts PropsNodit PropsSplit.
Import ListNotations.
Open Scope nat_scope.

Section Props.
  Context {I : Type} `{PL : PointLaws I}.
  Context {K : Type} {IK : InclusiveInterval I K} {IL : IntervalLaws I K}.
  Context {V : Type}.
  Implicit Types (m : NoditMap K V) (l : list (K * V)).

  (** ** C148 *)
  (** [insert_merge_overlapping]: the intervals grow together with those they
      overlap, however long the chain. *)
  Theorem C148_insert_merge_overlapping : forall m l, reachable m -> Forall (fun e => valid (fst e)) l ->
    reachable (merge_all_overlapping m l) /\ components overlap (iter m ++ l) (iter (merge_all_overlapping m l)).
  Proof.
    intros m l R Fv. pose proof (all_overlapping m l (reachable_WF m R) Fv) as G.
    split; [apply WF_reachable, (gr_wf _ _ _ G)|apply grown_components; [apply link_overlap|exact G]].
  Qed.
  (** [insert_merge_touching_or_overlapping], beginning with a map in which
      nothing is left to be merged. *)
  Theorem C148_insert_merge_touching_or_overlapping : forall m l, reachable m ->
    (forall e e', In e (iter m) -> In e' (iter m) -> ~ touch (fst e) (fst e')) -> Forall (fun e => valid (fst e)) l ->
    reachable (merge_all_touching_or_overlapping m l) /\
    components (fun a b => touch a b \/ overlap a b) (iter m ++ l) (iter (merge_all_touching_or_overlapping m l)).
  Proof.
    intros m l R Ap Fv. pose proof (all_either m l (reachable_WF m R) Ap Fv) as G.
    split; [apply WF_reachable, (gr_wf _ _ _ G)|apply grown_components; [apply link_either|exact G]].
  Qed.
  (** [insert_merge_touching]: the same for the intervals that are not refused,
      that is, those that overlap none accepted before. *)
  Theorem C148_insert_merge_touching : forall m l, reachable m ->
    (forall e e', In e (iter m) -> In e' (iter m) -> ~ touch (fst e) (fst e')) -> Forall (fun e => valid (fst e)) l ->
    reachable (merge_all_touching m l) /\
    exists acc, accepted (iter m ++ l) acc /\ components touch acc (iter (merge_all_touching m l)).
  Proof.
    intros m l R Ap Fv. destruct (all_touching m l (reachable_WF m R) Ap Fv) as (acc & Ac & G).
    split; [apply WF_reachable, (gr_wf _ _ _ G)|]. exists acc. split; [exact Ac|]. apply grown_components; [apply link_touch|exact G].
  Qed.
  Theorem C148_accepted : forall l acc acc', accepted l acc ->
    (accepted l acc' -> acc' = acc) /\ (disjoint_intervals (map fst l) -> acc = l).
  Proof.
    intros l acc acc' A. split; [intros A'; apply (accepted_unique l); assumption|].
    intros D. apply (accepted_unique l); [exact A|apply accepted_disjoint, D].
  Qed.
  (** This determines the map. *)
  Theorem C148_determined : forall R l m m', reachable m -> reachable m' -> Forall (fun e => valid (fst e)) l ->
    components R l (iter m) -> components R l (iter m') -> same_entries (iter m) (iter m').
  Proof. intros R l m m' Rm Rm' Fv. apply comp_unique; [apply reachable_WF, Rm|apply reachable_WF, Rm'|exact Fv]. Qed.
  (** The intervals one ends up with do not depend on the order in which they
      were inserted, nor on how often. *)
  Theorem C148_any_order_overlapping : forall m l l', reachable m -> Forall (fun e => valid (fst e)) l ->
    (forall k, In k (map fst l) <-> In k (map fst l')) ->
    Forall2 same_points (map fst (iter (merge_all_overlapping m l))) (map fst (iter (merge_all_overlapping m l'))).
  Proof.
    intros m l l' R Fv S. assert (Fv' : Forall (fun e => valid (fst e)) l').
    { apply valids_map in Fv. rewrite Forall_forall in *. intros x Hx. apply Fv, S, in_map, Hx. }
    destruct (C148_insert_merge_overlapping m l R Fv) as [R1 C1]. destruct (C148_insert_merge_overlapping m l' R Fv') as [R2 C2].
    apply (comp_same overlap (iter m ++ l) (iter m ++ l')); [apply reachable_WF, R1|apply reachable_WF, R2| |exact C1|exact C2|].
    - apply Forall_app. split; [|exact Fv]. apply Forall_forall. intros e He. apply (wf_valid m e (reachable_WF m R) He).
    - intros k. rewrite !map_app, !in_app_iff, S. reflexivity.
  Qed.
  Theorem C148_any_order_touching_or_overlapping : forall m l l', reachable m ->
    (forall e e', In e (iter m) -> In e' (iter m) -> ~ touch (fst e) (fst e')) -> Forall (fun e => valid (fst e)) l ->
    (forall k, In k (map fst l) <-> In k (map fst l')) ->
    Forall2 same_points (map fst (iter (merge_all_touching_or_overlapping m l))) (map fst (iter (merge_all_touching_or_overlapping m l'))).
  Proof.
    intros m l l' R Ap Fv S. assert (Fv' : Forall (fun e => valid (fst e)) l').
    { apply valids_map in Fv. rewrite Forall_forall in *. intros x Hx. apply Fv, S, in_map, Hx. }
    destruct (C148_insert_merge_touching_or_overlapping m l R Ap Fv) as [R1 C1]. destruct (C148_insert_merge_touching_or_overlapping m l' R Ap Fv') as [R2 C2].
    apply (comp_same (fun a b => touch a b \/ overlap a b) (iter m ++ l) (iter m ++ l')); [apply reachable_WF, R1|apply reachable_WF, R2| |exact C1|exact C2|].
    - apply Forall_app. split; [|exact Fv]. apply Forall_forall. intros e He. apply (wf_valid m e (reachable_WF m R) He).
    - intros k. rewrite !map_app, !in_app_iff, S. reflexivity.
  Qed.
  (** Which are accepted by [insert_merge_touching] depends on the order, but
      not if no two overlap. *)
  Theorem C148_any_order_touching : forall l l', disjoint_intervals (map fst l) -> Permutation l l' ->
    Forall2 same_points (map fst (iter (merge_all_touching new l))) (map fst (iter (merge_all_touching new l'))).
  Proof.
    intros l l' D P. assert (F : forall l, disjoint_intervals (map fst l) -> Forall (fun e : K * V => valid (fst e)) l).
    { intros l0 [X _]. rewrite Forall_forall in *. intros x Hx. apply X, in_map, Hx. }
    assert (D' : disjoint_intervals (map fst l')).
    { destruct D as [X Y]. split.
      - rewrite Forall_forall in *. intros k Hk. apply X, (Permutation_in k (Permutation_sym (Permutation_map fst P))), Hk.
      - clear X F. induction P as [|x l l' P IH|x y l|l l' l'' P1 IH1 P2 IH2]; cbn in *.
        + constructor.
        + inversion Y as [|? ? A B]; subst. constructor; [|apply IH, B]. rewrite Forall_forall in *. intros k Hk.
          apply A, (Permutation_in k (Permutation_sym (Permutation_map fst P))), Hk.
        + inversion Y as [|? ? A B]; subst. inversion B as [|? ? A' B']; subst. inversion A as [|? ? A1 A2]; subst.
          constructor; [|constructor; assumption]. constructor; [|exact A']. intros (p & X1 & X2). apply A1. exists p. auto.
        + auto. }
    assert (R : reachable (new : NoditMap K V)) by (apply WF_reachable, WF_nil).
    destruct (C148_insert_merge_touching new l R (fun e e' F => match F with end) (F l D)) as (R1 & acc & A1 & C1).
    destruct (C148_insert_merge_touching new l' R (fun e e' F => match F with end) (F l' D')) as (R2 & acc' & A2 & C2). cbn [iter new app] in A1, A2.
    pose proof (proj2 (C148_accepted l acc acc A1) D) as E1. pose proof (proj2 (C148_accepted l' acc' acc' A2) D') as E2. subst acc acc'.
    apply (comp_same touch l l'); [apply reachable_WF, R1|apply reachable_WF, R2|apply F, D|exact C1|exact C2|].
    intros k. split; apply Permutation_in, Permutation_map; [exact P|apply Permutation_sym, P].
  Qed.
End Props.

(** The hypotheses are met, non-trivially. *)
Definition ex_bricks : list (Interval u8 * nat) := [(1 --> 3, 1); (7 --> 9, 2); (4 --> 5, 3); (3 --> 4, 4); (6 --> 7, 5); (20 --> 21, 6)].
Example C148_example :
  merge_all_overlapping new ex_bricks = [(1 --> 5, 4); (6 --> 9, 5); (20 --> 21, 6)] /\
  merge_all_touching_or_overlapping new ex_bricks = [(1 --> 9, 5); (20 --> 21, 6)] /\
  merge_all_touching new ex_bricks = [(1 --> 5, 3); (7 --> 9, 2); (20 --> 21, 6)] /\
  merge_all_overlapping new (rev ex_bricks) = [(1 --> 5, 1); (6 --> 9, 2); (20 --> 21, 6)].
Proof. vm_compute. auto. Qed.
Example C148_example_joined :
  components overlap ex_bricks (iter (merge_all_overlapping new ex_bricks)) /\
  joined overlap (map fst ex_bricks) (1 --> 3) (4 --> 5) /\ ~ joined overlap (map fst ex_bricks) (1 --> 3) (6 --> 7).
Proof.
  assert (C : components overlap ex_bricks (iter (merge_all_overlapping new ex_bricks))).
  { apply (C148_insert_merge_overlapping new ex_bricks); [apply WF_reachable, WF_nil|].
    repeat (apply Forall_cons || apply Forall_nil); cbn [fst]; (apply ex_valid; reflexivity). }
  split; [exact C|]. assert (E : iter (merge_all_overlapping new ex_bricks) = [(1 --> 5, 4); (6 --> 9, 5); (20 --> 21, 6)]) by (vm_compute; reflexivity).
  rewrite E in C. clear E. destruct C as (_ & J & _).
  assert (I1 : In (1 --> 3 : Interval u8) (map fst ex_bricks)) by (left; reflexivity).
  assert (I4 : In (4 --> 5 : Interval u8) (map fst ex_bricks)) by (right; right; left; reflexivity).
  assert (I6 : In (6 --> 7 : Interval u8) (map fst ex_bricks)) by (right; right; right; right; left; reflexivity).
  split.
  - apply (J _ _ I1 I4). exists (1 --> 5, 4). split; [left; reflexivity|]. split; intros p; cbn [fst]; rewrite !ex_covers; cbn; lia.
  - intros X. apply (J _ _ I1 I6) in X. destruct X as (e & He & A & B).
    assert (A1 : covers (fst e) ('1)) by (apply A, ex_covers; vm_compute; split; discriminate). assert (B6 : covers (fst e) ('6)) by (apply B, ex_covers; vm_compute; split; discriminate).
    destruct He as [<-|[<-|[<-|[]]]]; apply ex_covers in A1, B6; vm_compute in A1, B6; intuition.
Qed.
Print Assumptions C148_insert_merge_overlapping.
Print Assumptions C148_insert_merge_touching_or_overlapping.
Print Assumptions C148_insert_merge_touching.
Print Assumptions C148_accepted.
Print Assumptions C148_determined.
Print Assumptions C148_any_order_overlapping.
Print Assumptions C148_any_order_touching_or_overlapping.
Print Assumptions C148_any_order_touching.
