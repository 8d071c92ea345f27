(** * PropsLocal: calls about one interval are local, and far-apart calls commute (C107). *)
From Coq Require Import List ZArith Bool Lia Arith.
From Verif Require Import Base BTree UtilsModel IntervalModel NoditModel NoditOps LocalOps
  Spec InstancesModel Instances PropsNodit PointFacts IntervalFacts NoditFacts NoditInv Local LocalCommute.
Import ListNotations.
Open Scope nat_scope.

Section Props.
  Context {I : Type} `{PL : PointLaws I}.
  Context {K : Type} {IK : InclusiveInterval I K} {IL : IntervalLaws I K}.
  Context {V : Type}.

  (** ** C107: a call gives the answer it gives on any part of the map that has all
      the entries it is about, and does to the map what it does to that part. *)
  Theorem C107_local : forall (m m0 : NoditMap K V) l1 l2 (c : call I K V), reachable (I := I) m ->
    iter m = l1 ++ iter m0 ++ l2 ->
    (forall e, In e l1 -> before (fst e) (subject c) /\ clear c (fst e)) ->
    (forall e, In e l2 -> before (subject c) (fst e) /\ clear c (fst e)) ->
    iter (fst (perform c m)) = l1 ++ iter (fst (perform c m0)) ++ l2 /\ snd (perform c m) = snd (perform c m0).
  Proof.
    intros m m0 l1 l2 c R E H1 H2. rewrite (local_frame c m m0 l1 l2 (reachable_WF m R) E H1 H2). split; reflexivity.
  Qed.
  (** Such a part always exists: exactly the entries the call is about are enough. *)
  Theorem C107_near_entries_decide : forall (m : NoditMap K V) (c : call I K V), reachable (I := I) m -> valid (subject c) ->
    exists l1 near l2 : NoditMap K V, iter m = l1 ++ near ++ l2 /\ reachable (I := I) near /\
      (forall e, In e (iter m) -> (In e near <-> ~ clear c (fst e))) /\
      iter (fst (perform c m)) = l1 ++ iter (fst (perform c near)) ++ l2 /\ snd (perform c m) = snd (perform c near).
  Proof.
    intros m c R Vs. apply reachable_WF in R. destruct (local_split c m R) as (A & M & B & E & H1 & _ & H2).
    exists A, M, B. split; [exact E|]. split; [apply WF_reachable; rewrite E in R; rewrite !WF_app in R; tauto|].
    split; [exact (H1 Vs)|]. rewrite H2. split; reflexivity.
  Qed.
  (** Two calls that are not about each other's interval, and of which no stored
      interval concerns both, can be made in either order. *)
  Theorem C107_commute : forall (m : NoditMap K V) (c d : call I K V), reachable (I := I) m -> independent c d ->
    (forall e, In e (iter m) -> clear c (fst e) \/ clear d (fst e)) ->
    fst (perform d (fst (perform c m))) = fst (perform c (fst (perform d m))) /\
    snd (perform d (fst (perform c m))) = snd (perform d m) /\
    snd (perform c (fst (perform d m))) = snd (perform c m).
  Proof.
    intros m c d R HI HE. apply pair_commute; [apply reachable_WF, R|intros _ _; exact HI|].
    intros e He. destruct (HE e He) as [X|X]; [left|right]; intros _; exact X.
  Qed.
  (** Two users of one map whose calls do not concern each other cannot tell:
      however their calls are interleaved, each gets the answers of being alone,
      and the map ends as if one had gone first. *)
  Theorem C107_interleavings : forall (m : NoditMap K V) (cs : list (bool * call I K V)), reachable (I := I) m ->
    (forall c d, In c (owned true cs) -> In d (owned false cs) -> independent c d) ->
    (forall e, In e (iter m) -> (forall c, In c (owned true cs) -> clear c (fst e)) \/
                                (forall d, In d (owned false cs) -> clear d (fst e))) ->
    fst (perform_all (map snd cs) m) = fst (perform_all (owned true cs ++ owned false cs) m) /\
    forall b, owned b (combine (map fst cs) (snd (perform_all (map snd cs) m))) = snd (perform_all (owned b cs) m).
  Proof.
    intros m cs R HI HE. apply (interleaved (owned true cs) (owned false cs)); [|auto|auto].
    split; [apply reachable_WF, R|]. split; [|intros c d Hc Hd _ _; apply HI; assumption].
    intros e He. destruct (HE e He) as [X|X]; [left|right]; intros c Hc _; apply X, Hc.
  Qed.
End Props.

Section Examples.
  Notation calls := (call u8 (Interval u8) nat).
  (** On {[2,4]: 1, [6,7]: 2, [8,9]: 2, [20,30]: 3}: merging [10,11] into what it
      touches, against cutting and overwriting around [20,30]. *)
  Definition lc_a : calls := InsertMergeTouching (10 --> 11) 7.
  Definition lc_b : calls := Cut (22 --> 24).
  Definition lc_c : calls := InsertMergeTouchingOrOverlapping (3 --> 5) 8.
  Definition lc_d : calls := InsertOverwrite (18 --> 20) 9.
  Example ex_lc_commute : independent lc_a lc_b /\
    (forall e, In e (iter ex_map) -> clear lc_a (fst e) \/ clear lc_b (fst e)) /\
    perform lc_b (fst (perform lc_a ex_map)) =
      ([(2 --> 4, 1); (6 --> 7, 2); (8 --> 11, 7); (20 --> 21, 3); (25 --> 30, 3)], Entries (Val [(22 --> 24, 3)])) /\
    snd (perform lc_a (fst (perform lc_b ex_map))) = Merged (Val (Ok (8 --> 11))).
  Proof.
    split; [|split; [|split; vm_compute; reflexivity]].
    - split; apply (clear_by_gap _ _ ('15)); [right|left]; split; vm_compute; reflexivity.
    - intros e He. rewrite ex_map_entries in He. cbn in He.
      destruct He as [<-|[<-|[<-|[<-|[]]]]]; [right|right|right|left]; apply (clear_by_gap _ _ ('15));
        [left|left|left|right]; split; vm_compute; reflexivity.
  Qed.
  Definition lc_cs : list (bool * calls) := [(true, lc_a); (false, lc_b); (true, lc_c); (false, lc_d)].
  Example ex_lc_interleaving :
    (forall c d, In c (owned true lc_cs) -> In d (owned false lc_cs) -> independent c d) /\
    (forall e, In e (iter ex_map) -> (forall c, In c (owned true lc_cs) -> clear c (fst e)) \/
                                     (forall d, In d (owned false lc_cs) -> clear d (fst e))) /\
    fst (perform_all (map snd lc_cs) ex_map) =
      [(2 --> 7, 8); (8 --> 11, 7); (18 --> 20, 9); (21 --> 21, 3); (25 --> 30, 3)] /\
    owned true (combine (map fst lc_cs) (snd (perform_all (map snd lc_cs) ex_map))) =
      [Merged (Val (Ok (8 --> 11))); Into (Val (2 --> 7))] /\
    owned false (combine (map fst lc_cs) (snd (perform_all (map snd lc_cs) ex_map))) =
      [Entries (Val [(22 --> 24, 3)]); Entries (Val [(20 --> 20, 3)])].
  Proof.
    split; [|split; [|split; [|split]; vm_compute; reflexivity]].
    - cbn. intros c d [<-|[<-|[]]] [<-|[<-|[]]]; split; apply (clear_by_gap _ _ ('15));
        solve [left; split; vm_compute; reflexivity|right; split; vm_compute; reflexivity].
    - intros e He. rewrite ex_map_entries in He. cbn in He.
      destruct He as [<-|[<-|[<-|[<-|[]]]]]; [right|right|right|left]; cbn; intros c [<-|[<-|[]]]; apply (clear_by_gap _ _ ('15));
        solve [left; split; vm_compute; reflexivity|right; split; vm_compute; reflexivity].
  Qed.
  (** With an entry that concerns both calls the order shows. *)
  Example ex_lc_order_shows :
    perform_all [InsertMergeTouching (5 --> 5) 4; InsertMergeTouching (8 --> 8) 5] [(6 --> 7, 2)] =
      ([(5 --> 8, 5)], [Merged (Val (Ok (5 --> 7))); Merged (Val (Ok (5 --> 8)))] : list (reply (Interval u8) nat)) /\
    perform_all [InsertMergeTouching (8 --> 8) 5; InsertMergeTouching (5 --> 5) 4] [(6 --> 7, 2)] =
      ([(5 --> 8, 4)], [Merged (Val (Ok (6 --> 8))); Merged (Val (Ok (5 --> 8)))] : list (reply (Interval u8) nat)).
  Proof. split; vm_compute; reflexivity. Qed.
  Example ex_lc_near : exists near : NoditMap (Interval u8) nat, near = [(2 --> 4, 1); (6 --> 7, 2)] /\
    perform lc_c near = ([(2 --> 7, 8)], Into (Val (2 --> 7))) /\
    perform lc_c ex_map = ([(2 --> 7, 8); (8 --> 9, 2); (20 --> 30, 3)], Into (Val (2 --> 7))).
  Proof. eexists. split; [reflexivity|]. split; vm_compute; reflexivity. Qed.
End Examples.

Print Assumptions C107_local.
Print Assumptions C107_near_entries_decide.
Print Assumptions C107_commute.
Print Assumptions C107_interleavings.
