(** * PropsPlaces: how many places of an interval are taken and how many are free (C175). *)
From Coq Require Import List ZArith Bool Lia.
From Verif Require Import Base BTree UtilsModel IntervalModel NoditModel NoditOps InstancesModel Instances Spec FirstFitOps PlacesOps
  PointFacts IntervalFacts NoditFacts NoditInv NoditMutations NoditMore IntervalProofs NoditSetFacts FirstFitFacts PlacesFacts.
Import ListNotations.
Open Scope Z_scope.

Section Props.
  Context {lo hi : Z} `{T : IntType lo hi}.
  Notation int := (int lo hi).
  Context {K : Type} {IK : InclusiveInterval int K} {IL : IntervalLaws int K} {FI : FromInvalid int K}.
  Context {V : Type}.
  Context {Q : Type} {IQ : InclusiveInterval int Q}.
  Implicit Types (m : NoditMap K V) (b : build) (q : Q) (v : V).

  (** ** C175 *)
  (** The sizes of the parts of the entries inside the query add up to the number
      of the query's points that are covered. *)
  Theorem C175_used : forall b m q, lo <= 0 -> reachable m -> valid q -> ival (iend q) - ival (istart q) <= hi ->
    exists n, used b m q = Val n /\ number_of (fun p => covers q p /\ covered (iter m) p) n.
  Proof. intros b m q L0 R. exact (used_spec b m q L0 (reachable_WF m R)). Qed.
  (** The sizes of the trimmed gaps add up to the number of those that are not. *)
  Theorem C175_free : forall b m q, lo <= 0 -> reachable m -> valid q -> ival (iend q) - ival (istart q) <= hi ->
    exists n, free b m q = Val n /\ number_of (fun p => covers q p /\ ~ covered (iter m) p) n.
  Proof. intros b m q L0 R. exact (free_spec b m q L0 (reachable_WF m R)). Qed.
  (** Together they are the whole query. *)
  Theorem C175_total : forall b m q, lo <= 0 -> reachable m -> valid q -> ival (iend q) - ival (istart q) <= hi ->
    exists u f, used b m q = Val u /\ free b m q = Val f /\ size b q = Val (u + f) /\ u + f = ival (iend q) - ival (istart q) + 1.
  Proof.
    intros b m q L0 R Vq Lq. apply reachable_WF in R. destruct (used_spec b m q L0 R Vq Lq) as (u & Eu & Nu). destruct (free_spec b m q L0 R Vq Lq) as (f & Ef & Nf).
    destruct (size_spec b q L0 Vq Lq) as (n & En & N). pose proof (number_split _ _ n u f N Nu Nf (fun p _ => covered_dec m p R)) as X. subst n. exists u, f. repeat split; try assumption.
    exact (number_unique _ _ _ _ (fun p => iff_refl (covers q p)) N (number_interval q Vq)).
  Qed.
  (** A strict insertion inside the query adds the size of the interval inserted. *)
  Theorem C175_insert : forall b m q k v m', lo <= 0 -> reachable m -> valid q -> ival (iend q) - ival (istart q) <= hi -> valid k -> (forall p, covers k p -> covers q p) ->
    insert_strict k v m = (m', Val (Ok tt)) ->
    exists u s, used b m q = Val u /\ size b k = Val s /\ used b m' q = Val (u + s).
  Proof.
    intros b m q k v m' L0 R Vq Lq Vk Sub E. apply reachable_WF in R. destruct (insert_covered m k v m' R Vk E) as (W' & C & D).
    destruct (used_spec b m q L0 R Vq Lq) as (u & Eu & Nu). destruct (used_spec b m' q L0 W' Vq Lq) as (u' & Eu' & Nu'). destruct (size_spec b k L0 Vk (inside_width k q Vk Sub Lq)) as (s & Es & Ns).
    exists u, s. split; [exact Eu|]. split; [exact Es|]. rewrite Eu'. f_equal. refine (number_unique _ _ _ _ _ Nu' (number_or _ _ _ _ _ Nu Ns)).
    - intros p. cbv beta. rewrite C. specialize (Sub p). tauto.
    - intros p [_ X] Y. exact (D p X Y).
  Qed.
  (** An overwriting insertion adds the places that were free in the interval. *)
  Theorem C175_overwrite : forall b m q k v, lo <= 0 -> reachable m -> valid q -> ival (iend q) - ival (istart q) <= hi -> valid k -> (forall p, covers k p -> covers q p) ->
    exists u f, used b m q = Val u /\ free b m k = Val f /\ used b (fst (insert_overwrite k v m)) q = Val (u + f).
  Proof.
    intros b m q k v L0 R Vq Lq Vk Sub. apply reachable_WF in R. destruct (insert_overwrite_spec m k v R Vk) as (m' & out & E & _ & W' & _ & _ & C).
    destruct (used_spec b m q L0 R Vq Lq) as (u & Eu & Nu). destruct (used_spec b m' q L0 W' Vq Lq) as (u' & Eu' & Nu'). destruct (free_spec b m k L0 R Vk (inside_width k q Vk Sub Lq)) as (f & Ef & Nf).
    exists u, f. split; [exact Eu|]. split; [exact Ef|]. rewrite E. cbn [fst]. rewrite Eu'. f_equal. refine (number_unique _ _ _ _ _ Nu' (number_or _ _ _ _ _ Nu Nf)).
    - intros p. cbv beta. pose proof (covered_dec m p R) as D. specialize (Sub p). assert (X : covered m' p <-> covers k p \/ covered m p).
      { rewrite !covered_maps. destruct (covers_dec1 k p) as [H|H].
        - split; [auto|]. intros _. exists v. apply C. auto.
        - split; [intros (w & Hw); apply C in Hw; destruct Hw as [[Hk _]|[_ Hw]]; [left; exact Hk|right; exists w; exact Hw]|]. intros [Hk|(w & Hw)]; [contradiction|]. exists w. apply C. auto. }
      rewrite X. destruct (covers_dec1 k p); tauto.
    - intros p [_ X] [_ Y]. exact (Y X).
  Qed.
  (** A cut takes away the places that were taken in the interval. *)
  Theorem C175_cut : forall b m q k, lo <= 0 -> reachable m -> valid q -> ival (iend q) - ival (istart q) <= hi -> valid (k : K) -> (forall p, covers k p -> covers q p) ->
    exists u n, used b m q = Val u /\ used b m k = Val n /\ used b (fst (cut k m)) q = Val (u - n) /\ used b (fst (cut k m)) k = Val 0.
  Proof.
    intros b m q k L0 R Vq Lq Vk Sub. apply reachable_WF in R. destruct (cut_full m k R Vk) as (m' & out & E & W' & _ & _ & _ & C). pose proof (inside_width k q Vk Sub Lq) as Lk.
    assert (X : forall p, covered m' p <-> covered m p /\ ~ covers k p).
    { intros p. rewrite !covered_maps. split; [intros (w & Hw); apply C in Hw; destruct Hw; eauto|]. intros [(w & Hw) H]. exists w. apply C. auto. }
    destruct (used_spec b m q L0 R Vq Lq) as (u & Eu & Nu). destruct (used_spec b m' q L0 W' Vq Lq) as (u' & Eu' & Nu').
    destruct (used_spec b m k L0 R Vk Lk) as (n & En & Nn). destruct (used_spec b m' k L0 W' Vk Lk) as (z & Ez & Nz).
    exists u, n. split; [exact Eu|]. split; [exact En|]. rewrite E. cbn [fst]. rewrite Eu', Ez. split; f_equal.
    - assert (Y : u = u' + n); [|lia]. refine (number_unique _ _ _ _ _ Nu (number_or _ _ _ _ _ Nu' Nn)).
      + intros p. cbv beta. rewrite X. specialize (Sub p). destruct (covers_dec1 k p); tauto.
      + intros p. cbv beta. rewrite X. tauto.
    - refine (number_unique _ _ _ _ (fun p => iff_refl _) Nz (number_none _ _)). intros p. cbv beta. rewrite X. tauto.
  Qed.
End Props.

(** For an unsigned type there is nothing to ask of the query. *)
Theorem C175_unsigned : forall {hi : Z} {T : IntType 0 hi} {K : Type} {IK : InclusiveInterval (int 0 hi) K} {IL : IntervalLaws (int 0 hi) K}
  {FI : FromInvalid (int 0 hi) K} {V Q : Type} {IQ : InclusiveInterval (int 0 hi) Q} b (m : NoditMap K V) (q : Q), reachable m -> valid q ->
  exists u f, used b m q = Val u /\ free b m q = Val f /\ size b q = Val (u + f) /\
    number_of (fun p => covers q p /\ covered (iter m) p) u /\ number_of (fun p => covers q p /\ ~ covered (iter m) p) f.
Proof.
  intros hi T K IK IL FI V Q IQ b m q R Vq. assert (Lq : ival (iend q) - ival (istart q) <= hi) by (pose proof (int_range (istart q)); pose proof (int_range (iend q)); lia).
  destruct (C175_used b m q (Z.le_refl 0) R Vq Lq) as (u & Eu & Nu). destruct (C175_free b m q (Z.le_refl 0) R Vq Lq) as (f & Ef & Nf).
  destruct (C175_total b m q (Z.le_refl 0) R Vq Lq) as (u' & f' & Eu' & Ef' & S & _). rewrite Eu in Eu'. rewrite Ef in Ef'. injection Eu' as <-. injection Ef' as <-. exists u, f. auto.
Qed.

(** The hypotheses are met, non-trivially. *)
Definition ex_sizes : NoditMap (Interval u8) nat := [(1 --> 9, 7%nat); (10 --> 14, 8%nat); (20 --> 29, 7%nat)].
Example C175_example :
  used Debug ex_sizes (8 --> 22 : Interval u8) = Val 10 /\ free Debug ex_sizes (8 --> 22 : Interval u8) = Val 5 /\ size Debug (8 --> 22 : Interval u8) = Val 15 /\
  used Debug (fst (insert_overwrite (13 --> 17) 5%nat ex_sizes)) (8 --> 22 : Interval u8) = Val 13 /\
  used Debug (fst (cut (9 --> 11 : Interval u8) ex_sizes)) (8 --> 22 : Interval u8) = Val 7.
Proof. vm_compute. repeat split. Qed.
(** The width of a query of a signed type need not fit: a debug build panics, a
    release build gives a wrong number. *)
Example C175_signed_width :
  free Debug ([] : NoditMap (Interval i8) nat) ((-128) --> 127 : Interval i8) = Panic /\
  free Release ([] : NoditMap (Interval i8) nat) ((-128) --> 127 : Interval i8) = Val 0.
Proof. split; vm_compute; reflexivity. Qed.
Print Assumptions C175_used.
Print Assumptions C175_free.
Print Assumptions C175_total.
Print Assumptions C175_insert.
Print Assumptions C175_overwrite.
Print Assumptions C175_cut.
Print Assumptions C175_unsigned.
