(** * PropsCost: how often a call changes the B-tree (C120).

    [tree_adds t] and [tree_removes t] (CostOps) count the entries that come and go along the
    states [t] a call passes through. *)
From Coq Require Import List ZArith Bool Lia Arith.
From Verif Require Import Base BTree UtilsModel IntervalModel NoditModel NoditOps ZosditModel ZosditOps GqditModel GqditOps CrashModel TraceModel
  Spec TraceSpec InstancesModel Instances CostOps PointFacts IntervalFacts ListFacts NoditFacts NoditInv NoditSize ZosditFacts ZosditMut ZosditProofs
  GqditFacts GqditProofs TraceFacts TraceGqdit CostFacts CostZosdit CostGqdit PropsNodit PropsGqdit.
Import ListNotations.
Open Scope nat_scope.

Section Nodit.
  Context {I : Type} `{PL : PointLaws I}.
  Context {K : Type} {IK : InclusiveInterval I K} {IL : IntervalLaws I K}.
  Context {V : Type}.
  Implicit Types (m : NoditMap K V) (o : op I K V).

  (** ** C120 *)
  (** Nothing else changes the number of entries, ... *)
  Theorem C120_map_balance : forall m o, reachable m -> by_entries o ->
    length (iter (step m o)) + tree_removes (trace m o) = length (iter m) + tree_adds (trace m o).
  Proof. intros m o R. apply call_balance, reachable_WF, R. Qed.
  (** ... a call adds at most three entries (two for a cut, none for a removal, one for an
      insertion that does not overwrite), whatever the map, ... *)
  Theorem C120_map_adds : forall m o, reachable m -> by_entries o -> tree_adds (trace m o) <= at_most_added o.
  Proof. intros m o R. apply call_added, reachable_WF, R. Qed.
  (** ... and removes at most those it is about. *)
  Theorem C120_map_removes : forall m o r, reachable m -> by_entries o -> sub (about o) (iter m) r ->
    tree_removes (trace m o) <= length r.
  Proof. intros m o r R. apply call_removed, reachable_WF, R. Qed.
  (** So a single call may remove many, but [n] calls change the tree at most [6 n] times. *)
  Theorem C120_map_work : forall os m, reachable m -> Forall by_entries os ->
    work m os + length (iter (fold_left step os m)) <= length (iter m) + 6 * length os.
  Proof. intros os m R. apply work_bound, reachable_WF, R. Qed.
  Theorem C120_map_work_from_new : forall os : list (op I K V), Forall by_entries os -> work new os <= 6 * length os.
  Proof.
    intros os F. assert (R : reachable (new : NoditMap K V)) by (exists []; reflexivity).
    pose proof (C120_map_work os new R F) as B. cbn [iter new length] in B. lia.
  Qed.
End Nodit.

Section Zosdit.
  Context {I : Type} `{PL : PointLaws I}.
  Context {K : Type} {IK : InclusiveInterval I K} {IL : IntervalLaws I K}.
  Context {V : Type}.
  Implicit Types (z : ZosditMap K V) (o : zop I K V).

  Theorem C120_zosdit_adds : forall z o, zreachable z -> by_values o -> tree_adds (ztree (ztrace z o)) <= at_most_added_z o.
  Proof. intros z o R B. apply zcall_cost; [apply zreachable_ZWF, R|exact B]. Qed.
  Theorem C120_zosdit_balance : forall z o, zreachable z -> by_values o ->
    length (z_inner (zstep z o)) + tree_removes (ztree (ztrace z o)) = length (z_inner z) + tree_adds (ztree (ztrace z o)).
  Proof. intros z o R. apply zcall_balance, zreachable_ZWF, R. Qed.
  Theorem C120_zosdit_work : forall os z, zreachable z -> Forall by_values os ->
    zwork z os + length (z_inner (fold_left zstep os z)) <= length (z_inner z) + 4 * length os.
  Proof. intros os z R. apply zwork_bound, zreachable_ZWF, R. Qed.
End Zosdit.

Section Gqdit.
  Context {I : Type} `{PL : PointLaws I}.
  Context {K : Type} {IK : InclusiveInterval I K} {IL : IntervalLaws I K}.
  Context {D : Type} {OD : Ord D} {OL : OrdLaws D}.
  Implicit Types (g : Gqdit K D) (o : gop I K D).

  (** A Gqdit call puts back every part it cuts out, so it is paid for by the entries it
      meets; [n] calls meeting [k] entries change the tree at most [4 n + 2 k + 1] times. *)
  Theorem C120_gqdit_adds : forall g o n, greachable g -> meeting g o n -> tree_adds (gtrace g o) <= 2 + n.
  Proof. intros g o n R M. apply gcall_cost; [apply greachable_GWF, R|exact M]. Qed.
  Theorem C120_gqdit_balance : forall g o, greachable g ->
    length (iter (gstep o g)) + tree_removes (gtrace g o) = length (iter g) + tree_adds (gtrace g o).
  Proof. intros g o R. apply balance, gtrace_path, greachable_GWF, R. Qed.
  Theorem C120_gqdit_work : forall os g w n, greachable g -> gwork g os w n ->
    w + length (iter (gsteps os g)) <= length (iter g) + 4 * length os + 2 * n.
  Proof. intros os g w n R G. apply gwork_bound; [exact G|apply greachable_GWF, R]. Qed.
  (** Every history that merges no other Gqdit has such counts. *)
  Theorem C120_gqdit_counted : forall os g, greachable g -> Forall (fun o => match o with GAppend _ => False | _ => True end) os ->
    exists w n, gwork g os w n.
  Proof.
    intros os. induction os as [|o os IH]; intros g R F; [exists 0, 0; constructor|].
    apply Forall_cons_iff in F. destruct F as [F0 F].
    assert (MT : exists n, meeting g o n).
    { assert (X : forall P : K * BTreeSet D -> Prop, (forall e, In e (iter g) -> P e \/ ~ P e) -> exists l, sub P (iter g) l).
      { intros P. generalize (iter g). intros l. induction l as [|e l IHl]; intros Dc; [exists []; constructor|].
        destruct (IHl (fun e He => Dc e (or_intror He))) as (l' & S'). destruct (Dc e (or_introl eq_refl)) as [Y|Y].
        - exists (e :: l'). constructor; assumption.
        - exists l'. constructor; assumption. }
      assert (W : WF g) by apply greachable_GWF, R.
      assert (DV : forall Q (IQ : InclusiveInterval I Q) (q : Q) (e : K * BTreeSet D), In e (iter g) -> overlap (fst e) q \/ ~ overlap (fst e) q).
      { intros Q IQ q e He. destruct W as [_ V]. rewrite Forall_forall in V. specialize (V e He). unfold okv, elo, ehi in V.
        rewrite overlap_rk. unfold elo, ehi in *. destruct (Z_le_dec (Z.max (lo (fst e)) (lo q)) (Z.min (hi (fst e)) (hi q))); auto. }
      destruct o as [ids k|ids Q IQ q|Q IQ q|os']; [| | |destruct F0].
      - destruct (X (fun e => overlap (fst e) k) (DV K IK k)) as (l & Hl). exists (length l), l. auto.
      - destruct (X (fun e => overlap (fst e) q) (DV Q IQ q)) as (l & Hl). exists (length l), l. auto.
      - destruct (X (fun e => overlap (fst e) q) (DV Q IQ q)) as (l & Hl). exists (length l), l. auto. }
    destruct MT as (n & Mn).
    assert (R' : greachable (gstep o g)).
    { destruct R as (os0 & ->). exists (os0 ++ [o]). unfold grun, gsteps. rewrite fold_left_app. reflexivity. }
    destruct (IH (gstep o g) R' F) as (w & n' & G). do 2 eexists. econstructor; eassumption.
  Qed.
End Gqdit.

(** ** Examples *)
Section Examples.
  Notation M := (NoditMap (Interval u8) nat).
  (** Overwriting the middle of an entry removes it and adds three. *)
  Example cost_overwrite :
    let m : M := [(1 --> 9, 7)] in let o := OpInsertOverwrite (3 --> 4) 8 in
    (tree_adds (trace m o), tree_removes (trace m o), iter (step m o)) =
    (3, 1, [(1 --> 2, 7); (3 --> 4, 8); (5 --> 9, 7)]).
  Proof. vm_compute. reflexivity. Qed.
  (** Nested overwrites, then a removal of everything: five calls, twenty changes. *)
  Example cost_history :
    let os : list (op u8 (Interval u8) nat) :=
      [OpInsertStrict (1 --> 90) 0; OpInsertOverwrite (10 --> 80) 1; OpInsertOverwrite (20 --> 70) 2;
       OpInsertOverwrite (30 --> 60) 3; OpRemoveOverlapping (0 --> 99 : Interval u8)] in
    work new os = 20 /\ iter (fold_left step os new) = [].
  Proof. vm_compute. auto. Qed.
  (** One call removing all entries. *)
  Example cost_one_call :
    let m : M := [(1 --> 2, 0); (3 --> 4, 1); (5 --> 6, 2); (7 --> 8, 3)] in
    let o := OpRemoveOverlapping (0 --> 99 : Interval u8) in
    (tree_adds (trace m o), tree_removes (trace m o)) = (0, 4).
  Proof. vm_compute. reflexivity. Qed.
  (** A cut of a ZosditMap whose entry holds two values: one entry goes, two come. *)
  Example cost_zosdit :
    let z : ZosditMap (Interval u8) nat := mkZosdit 2 [(1 --> 9, [4; 5])] in let o := ZCut (3 --> 4 : Interval u8) in
    (tree_adds (ztree (ztrace z o)), tree_removes (ztree (ztrace z o)), zosdit_iter (zstep z o)) =
    (2, 1, [(1 --> 2, 4); (1 --> 2, 5); (5 --> 9, 4); (5 --> 9, 5)]).
  Proof. vm_compute. reflexivity. Qed.
  (** An insertion into a new Gqdit meets one entry: it goes, three come. *)
  Example cost_gqdit :
    let g : Gqdit (Interval u8) u8 := gnew in let o := GInsert ['5] (3 --> 4) in
    (tree_adds (gtrace g o), tree_removes (gtrace g o), length (iter g), length (iter (gstep o g))) = (3, 1, 1, 3).
  Proof. vm_compute. reflexivity. Qed.
  Example cost_gqdit_counted :
    gwork (gnew : Gqdit (Interval u8) u8) [GInsert ['5] (3 --> 4)] 4 1.
  Proof.
    change 4 with (tree_adds (gtrace (gnew : Gqdit (Interval u8) u8) (GInsert ['5] (3 --> 4))) +
      tree_removes (gtrace (gnew : Gqdit (Interval u8) u8) (GInsert ['5] (3 --> 4))) + 0). change 1 with (1 + 0).
    constructor; [|constructor]. exists [(0 --> 255, [])]. split; [|reflexivity].
    change (iter (gnew : Gqdit (Interval u8) u8)) with [((0 --> 255) : Interval u8, [] : BTreeSet u8)].
    apply sub_keep; [|constructor]. exists ('3 : u8). vm_compute. repeat split; discriminate.
  Qed.
End Examples.
Print Assumptions C120_map_balance.
Print Assumptions C120_map_adds.
Print Assumptions C120_map_removes.
Print Assumptions C120_map_work.
Print Assumptions C120_map_work_from_new.
Print Assumptions C120_zosdit_adds.
Print Assumptions C120_zosdit_balance.
Print Assumptions C120_zosdit_work.
Print Assumptions C120_gqdit_adds.
Print Assumptions C120_gqdit_balance.
Print Assumptions C120_gqdit_work.
Print Assumptions C120_gqdit_counted.
