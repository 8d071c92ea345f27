(** * PropsNear: the nearest entries, and all of them, by lookups of points alone (C174). *)
From Coq Require Import List Bool Arith ZArith Lia.
From Verif Require Import Base BTree UtilsModel IntervalModel NoditModel NoditOps NearOps Spec InstancesModel Instances
  PointFacts IntervalFacts NoditFacts NoditInv NoditQueries NearFacts.
Import ListNotations.
Open Scope nat_scope.

Section Props.
  Context {I : Type} `{PL : PointLaws I}.
  Context {K : Type} {IK : InclusiveInterval I K} {IL : IntervalLaws I K}.
  Context {V : Type}.
  Implicit Types (m : NoditMap K V) (p : I).

  (** ** C174 *)
  (** The entry at [p], or the first one after it. *)
  Theorem C174_entry_from : forall m p, reachable m -> exists o, entry_from m p = Val o /\
    match o with
    | Some e => In e (iter m) /\ ple p (iend (fst e)) /\
                forall e', In e' (iter m) -> e' = e \/ plt (iend (fst e')) p \/ plt (iend (fst e)) (istart (fst e'))
    | None => forall e', In e' (iter m) -> plt (iend (fst e')) p
    end.
  Proof.
    intros m p R. destruct (entry_from_spec m p (reachable_WF m R)) as (o & E & X). exists o. split; [exact E|]. destruct o as [e|].
    - destruct X as (A & B & C). split; [exact A|]. split; [apply ple_rk, B|]. intros e' He'. rewrite !plt_rk. exact (C e' He').
    - intros e' He'. apply plt_rk. exact (X e' He').
  Qed.
  (** The entry at [p], or the last one before it. *)
  Theorem C174_entry_until : forall m p, reachable m -> exists o, entry_until m p = Val o /\
    match o with
    | Some e => In e (iter m) /\ ple (istart (fst e)) p /\
                forall e', In e' (iter m) -> e' = e \/ plt p (istart (fst e')) \/ plt (iend (fst e')) (istart (fst e))
    | None => forall e', In e' (iter m) -> plt p (istart (fst e'))
    end.
  Proof.
    intros m p R. destruct (entry_until_spec m p (reachable_WF m R)) as (o & E & X). exists o. split; [exact E|]. destruct o as [e|].
    - destruct X as (A & B & C). split; [exact A|]. split; [apply ple_rk, B|]. intros e' He'. rewrite !plt_rk. exact (C e' He').
    - intros e' He'. apply plt_rk. exact (X e' He').
  Qed.
  (** Going on from the end of each entry found gives the entries from [p] on, in order. *)
  Theorem C174_walk_from : forall m p n, reachable m -> len m <= n -> walk_on n m p = Val (filter (fun e => leb p (iend (fst e))) (iter m)).
  Proof.
    intros m p n R L. pose proof (reachable_WF m R) as W.
    assert (S : exists A B, m = A ++ B /\ (forall e, In e A -> (hi (fst e) < rk p)%Z) /\ (forall e, In e B -> (rk p <= hi (fst e))%Z)).
    { clear - W PL IL. induction m as [|e m IH]; [exists [], []; split; [reflexivity|split; intros e []]|]. destruct (Z_lt_le_dec (hi (fst e)) (rk p)) as [X|X].
      - destruct IH as (A & B & -> & HA & HB); [change (WF ([e] ++ m)) in W; apply WF_app in W; apply W|]. exists (e :: A), B. split; [reflexivity|]. split; [|exact HB]. intros e' [<-|He']; auto.
      - exists [], (e :: m). split; [reflexivity|]. split; [intros e' []|]. intros e' [<-|He']; [exact X|]. pose proof (entry_valid _ e' W (or_intror He')) as Ve.
        pose proof (entry_valid _ e W (or_introl eq_refl)). apply WF_cons in W. destruct W as (_ & _ & WR). rewrite Forall_forall in WR. specialize (WR _ He'). unfold ehi, elo in WR. lia. }
    destruct S as (A & B & E & HA & HB). unfold len, iter in *. subst m. rewrite (walk_on_spec B A n p W); [|rewrite app_length in L; lia|exact HA|exact HB]. f_equal. rewrite filter_app.
    rewrite (filter_none _ A), (filter_all _ B); [reflexivity| |].
    - intros e He. rewrite leb_rk. apply Z.leb_le, HB, He.
    - intros e He. rewrite leb_rk. apply Z.leb_gt, HA, He.
  Qed.
  Theorem C174_walk : forall m, reachable m -> walk_on (len m) m MIN = Val (iter m).
  Proof.
    intros m R. rewrite (C174_walk_from m MIN (len m) R (le_n _)). f_equal. apply filter_all. intros e _. rewrite leb_rk. apply Z.leb_le, rk_min.
  Qed.
  (** So a map is known from the answers to lookups of points. *)
  Theorem C174_known_by_points : forall m m', reachable m -> reachable m' ->
    (forall p, get_key_value_at_point m p = get_key_value_at_point m' p) -> iter m = iter m'.
  Proof.
    intros m m' R R' E.
    assert (X : forall n p, walk_on n m p = walk_on n m' p).
    { induction n as [|n IH]; intros p; [reflexivity|]. cbn [walk_on]. assert (Y : entry_from m p = entry_from m' p).
      { unfold entry_from. rewrite E. destruct (get_key_value_at_point m' p) as [[e|g]|]; [reflexivity| |reflexivity]. destruct (up (iend g)); [rewrite E|]; reflexivity. }
      rewrite Y. destruct (entry_from m' p) as [[e|]|]; [|reflexivity..]. destruct (up (iend (fst e))); [rewrite IH|]; reflexivity. }
    assert (All : forall l : list (K * V), filter (fun e => leb MIN (iend (fst e))) l = l).
    { intros l. apply filter_all. intros e _. rewrite leb_rk. apply Z.leb_le, rk_min. }
    pose proof (C174_walk_from m MIN (len m + len m') R ltac:(lia)) as A. pose proof (C174_walk_from m' MIN (len m + len m') R' ltac:(lia)) as B.
    rewrite X, B, !All in A. congruence.
  Qed.
End Props.

Open Scope Z_scope.
(** The hypotheses are met, non-trivially. *)
Example C174_example : let m := [(2 --> 4 : Interval u8, 1%nat); (7 --> 9, 2%nat); (10 --> 12, 3%nat); (250 --> 255, 4%nat)] in
  map (entry_from m) ['0; '3; '5; '10; '13; '255] =
    map (fun e => Val (Some e)) [(2 --> 4, 1%nat); (2 --> 4, 1%nat); (7 --> 9, 2%nat); (10 --> 12, 3%nat); (250 --> 255, 4%nat); (250 --> 255, 4%nat)] /\
  entry_until m ('1) = Val None /\ entry_until m ('6) = Val (Some (2 --> 4, 1%nat)) /\
  walk_on 4 m ('5) = Val [(7 --> 9, 2%nat); (10 --> 12, 3%nat); (250 --> 255, 4%nat)].
Proof. vm_compute. repeat split; reflexivity. Qed.

Print Assumptions C174_entry_from.
Print Assumptions C174_entry_until.
Print Assumptions C174_walk_from.
Print Assumptions C174_walk.
Print Assumptions C174_known_by_points.
