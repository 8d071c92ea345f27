(** * PropsWalk: a ZosditMap describes a walk (C138). *)
From Coq Require Import List ZArith Bool Lia Sorting.Sorted.
From Verif Require Import Base IntervalModel NoditModel ZosditModel ZosditOps WalkOps Spec InstancesModel Instances
  PointFacts IntervalFacts ZosditFacts ZosditMut ZosditProofs WalkFacts PropsZosdit.
Import ListNotations.
Open Scope nat_scope.

Section Props.
  Context {I : Type} `{PL : PointLaws I}.
  Context {K : Type} {IK : InclusiveInterval I K} {IL : IntervalLaws I K}.
  Context {V : Type}.
  Context {Q : Type} {IQ : InclusiveInterval I Q}.
  Implicit Types (z : ZosditMap K V) (k : K) (v : V) (p : I) (q : Q) (w : list (K * V)).

  (** ** C138 *)
  (** Every walk can be recorded, in one go or entry by entry with the same
      result, and every entry is read back. *)
  Theorem C138_recorded : forall w, walk w -> exists z, zreachable z /\
    from_iter_strict_back w = Val (Ok z) /\ z = zrun (map record w) /\
    (forall w1 e w2, w = w1 ++ e :: w2 ->
       insert_strict_back (fst e) (snd e) (zrun (map record w1)) = (zrun (map record (w1 ++ [e])), Val (Ok tt))) /\
    Forall2 same_entry w (zosdit_iter z) /\ zosdit_len z = length w.
  Proof.
    intros w Hw. destruct (walk_bulk w Hw) as (z & E & F & N). destruct (extend_records w z_new z E) as [A B].
    exists z. split; [exists (map record w); symmetry; exact A|]. split; [exact E|]. split; [symmetry; exact A|]. split; [exact B|]. split; assumption.
  Qed.
  (** Nothing but a walk is read back in the order in which it was written. *)
  Theorem C138_only_walks : forall w z, from_iter_strict_back w = Val (Ok z) -> (Forall2 same_entry w (zosdit_iter z) <-> walk w).
  Proof.
    intros w z E. split.
    - intros F. apply (same_entries_walk w (zosdit_iter z) F), iter_walk.
      rewrite <- (proj1 (extend_records w z_new z E)). apply (zrun_ZWF (map record w)).
    - intros Hw. destruct (walk_bulk w Hw) as (z' & E' & F & _). rewrite E in E'. injection E' as <-. exact F.
  Qed.
  (** A walk without a pause: [get_last_value_at_point] says where the walker is,
      at every point; ... *)
  Theorem C138_position : forall z p, zreachable (I := I) z -> gapless (zosdit_iter z) ->
    (forall v, get_last_value_at_point z p = Some v <-> last_value (zosdit_iter z) p v) /\
    (get_last_value_at_point z p = None <-> no_value (zosdit_iter z) p).
  Proof. intros z p R. apply walk_position, zreachable_ZWF, R. Qed.
  (** ... and [cut] cuts whatever it is given (the claim of C37). *)
  Theorem C138_cut : forall z q, zreachable (I := I) z -> valid q -> gapless (zosdit_iter z) ->
    exists z' out, zosdit_cut q z = (z', Val out) /\
      (exists o, sub (fun e => overlap (fst e) q) (zosdit_iter z) o /\ Forall2 (yields q) o out) /\
      (exists ls, Forall2 (leaves q) (zosdit_iter z) ls /\ zosdit_iter z' = concat ls) /\
      (forall e p, In e (zosdit_iter z') -> covers (fst e) p -> ~ covers q p) /\
      zosdit_len z' + length (zosdit_iter z) = zosdit_len z + length (zosdit_iter z').
  Proof. intros z q R. apply walk_cut, zreachable_ZWF, R. Qed.
  (** Only such walks have this: with a pause somewhere a value is missed, and
      the entry after the pause cannot be cut out. *)
  Theorem C138_position_iff_gapless : forall z, zreachable (I := I) z ->
    ((forall p v, last_value (zosdit_iter z) p v -> get_last_value_at_point z p = Some v) <-> gapless (zosdit_iter z)).
  Proof.
    intros z R. pose proof (zreachable_ZWF z R) as Wf. split.
    - intros A w1 a b w2 E. destruct (meet_or_not (fst a) (fst b)) as [O|N]; [exact O|exfalso].
      destruct (pause_missed z w1 a b w2 Wf E N) as ((v & L) & X & _). apply A in L. rewrite (get_last_not_found z _ Wf X) in L. discriminate.
    - intros G p v. apply (walk_position z p Wf G).
  Qed.
  Theorem C138_cut_iff_gapless : forall z, zreachable (I := I) z ->
    ((forall k, valid k -> forall e, In e (zosdit_iter (fst (zosdit_cut k z))) -> ~ overlap (fst e) k) <-> gapless (zosdit_iter z)).
  Proof.
    intros z R. pose proof (zreachable_ZWF z R) as Wf. split.
    - intros A w1 a b w2 E. destruct (meet_or_not (fst a) (fst b)) as [O|N]; [exact O|exfalso].
      destruct (pause_missed z w1 a b w2 Wf E N) as (_ & _ & X).
      assert (Hb : In b (zosdit_iter z)) by (rewrite E, in_app_iff; right; right; left; reflexivity).
      assert (Vb : valid (fst b)) by (apply valid_rk, (iter_okv z b Wf Hb)).
      specialize (A (fst b) Vb b). rewrite (cut_not_done z (fst b) Wf Vb X) in A. apply (A Hb). destruct Vb as [p Hp]. exists p. split; exact Hp.
    - intros G k Vk e. destruct (walk_cut z k Wf Vk G) as (z' & out & -> & _ & _ & C & _). cbn [fst]. intros He (p & H1 & H2). apply (C e p He H1 H2).
  Qed.
  (** The last entry of a walk, paused or not, can be taken back. *)
  Theorem C138_step_back : forall z w k v, zreachable (I := I) z -> zosdit_iter z = w ++ [(k, v)] ->
    get_last_value_at_point z (iend k) = Some v /\
    exists z', remove_last_value_at_point (iend k) z = (z', Val (Some v)) /\ zosdit_iter z' = w.
  Proof.
    intros z w k v R E. pose proof (zreachable_ZWF z R) as Wf. pose proof (last_found z w k v Wf E) as L. split; [exact L|].
    destruct (C39_remove_last_value_at_point z (iend k) R) as (z' & E' & _ & X). exists z'. rewrite E', L. split; [reflexivity|].
    destruct (X v L) as (l1 & k' & l2 & E1 & _ & No & E2). rewrite E2. destruct l2 as [|c l2] using rev_ind.
    - rewrite app_nil_r. rewrite E in E1. apply app_inj_tail in E1. symmetry. apply E1.
    - exfalso. clear IHl2. rewrite E, app_comm_cons, app_assoc in E1. apply app_inj_tail in E1. destruct E1 as [_ <-].
      apply (No (k, v)); [apply in_elt|]. assert (Vk : valid k).
      { apply valid_rk. apply (iter_okv z (k, v) Wf). rewrite E. apply in_elt. }
      apply covers_rk. apply valid_rk in Vk. unfold lo, hi in *. split; [exact Vk|apply Z.le_refl].
  Qed.
End Props.

(** The walk of the documentation: waiting at a node takes no time or some time,
    walking an edge takes some time. *)
Definition C138_walk : list (Interval u8 * nat) :=
  [(2 --> 4, 1); (4 --> 4, 2); (4 --> 4, 3); (4 --> 9, 4); (9 --> 9, 5)].
Lemma ends_up_to (a b : Interval u8) : ple (iend a) (istart b) -> up_to a b.
Proof.
  intros L x y [_ Hx] [Hy _]. apply ple_rk. apply ple_rk in L, Hx, Hy. eapply Z.le_trans; [exact Hx|]. eapply Z.le_trans; [exact L|exact Hy].
Qed.
Example C138_walk_ex : walk C138_walk /\ gapless C138_walk /\
  from_iter_strict_back C138_walk = Val (Ok (zrun (map record C138_walk))) /\ zosdit_iter (zrun (map record C138_walk)) = C138_walk.
Proof.
  split; [|split; [|vm_compute; auto]].
  - unfold walk, C138_walk. cbn [map fst]. split.
    + repeat (apply Forall_cons; [match goal with |- valid ?k => exists (istart k); split; vm_compute; discriminate end|]). apply Forall_nil.
    + do 5 (apply SSorted_cons; [|repeat (apply Forall_cons; [match goal with |- up_to ?a ?b => apply (ends_up_to a b); vm_compute; discriminate end|]); apply Forall_nil]).
      apply SSorted_nil.
  - intros w1 a b w2 E. unfold C138_walk in E.
    do 4 (destruct w1 as [|? w1]; [injection E as <- <- _; match goal with |- overlap ?k (fst (?k', _)) => exists (istart k'); split; split; vm_compute; discriminate end|
      injection E as _ E]).
    destruct w1 as [|? [|? ?]]; discriminate.
Qed.
Example C138_walk_answers : let z := zrun (map record C138_walk) in
  map (get_last_value_at_point z) ['1; '2; '3; '4; '5; '8; '9; '10] = [None; Some 1; Some 1; Some 4; Some 4; Some 4; Some 5; None] /\
  zosdit_cut (3 --> 4 : Interval u8) z =
    (fst (zosdit_cut (3 --> 4 : Interval u8) z), Val [(3 --> 4, 1); (4 --> 4, 2); (4 --> 4, 3); (4 --> 4, 4)]) /\
  zosdit_iter (fst (zosdit_cut (3 --> 4 : Interval u8) z)) = [(2 --> 2, 1); (5 --> 9, 4); (9 --> 9, 5)] /\
  zosdit_iter (fst (remove_last_value_at_point '9 z)) = [(2 --> 4, 1); (4 --> 4, 2); (4 --> 4, 3); (4 --> 9, 4)].
Proof. vm_compute. repeat split. Qed.
(** A pause, and entries written out of order. *)
Definition C138_paused : list (Interval u8 * nat) := [(2 --> 4, 1); (5 --> 9, 4)].
Example C138_paused_ex : get_last_value_at_point (zrun (map record C138_paused)) '4 = None /\
  zosdit_iter (fst (zosdit_cut (5 --> 9 : Interval u8) (zrun (map record C138_paused)))) = C138_paused /\
  from_iter_strict_back (rev C138_paused) = Val (Ok (zrun (map record C138_paused))) /\
  zosdit_iter (zrun (map record (rev C138_paused))) <> rev C138_paused.
Proof. vm_compute. repeat split. discriminate. Qed.

Print Assumptions C138_recorded.
Print Assumptions C138_only_walks.
Print Assumptions C138_position.
Print Assumptions C138_cut.
Print Assumptions C138_position_iff_gapless.
Print Assumptions C138_cut_iff_gapless.
Print Assumptions C138_step_back.
