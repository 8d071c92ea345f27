(** * PropsShares: counting the places of the users of a Gqdit (C178). *)
From Coq Require Import List ZArith Bool Lia.
From Verif Require Import Base BTree UtilsModel IntervalModel NoditModel InstancesModel Instances Spec FirstFitOps PlacesOps BookingOps SharesOps GqditModel GqditOps
  PointFacts IntervalFacts NoditFacts NoditInv NoditMore IntervalProofs FirstFitFacts NoditSetFacts GqditFacts GqditSets GqditProofs GqditGaps PlacesFacts BookingFacts SharesFacts.
Import ListNotations.
Open Scope Z_scope.

Section Props.
  Context {lo hi : Z} `{T : IntType lo hi}.
  Notation int := (int lo hi).
  Context {K : Type} {IK : InclusiveInterval int K} {IL : IntervalLaws int K} {FI : FromInvalid int K}.
  Context {D : Type} {OD : Ord D} {OL : OrdLaws D}.
  Context {Q : Type} {IQ : InclusiveInterval int Q}.
  Implicit Types (g : Gqdit K D) (b : build) (q : Q) (p : int) (d : D).

  (** ** C178 *)
  (** The parts of [gaps_no_identifier] inside the query are as many places as
      there are points without any identifier. *)
  Theorem C178_nobodys : forall b g q, lo <= 0 -> greachable g -> valid q -> ival (iend q) - ival (istart q) <= hi ->
    exists n, nobodys b g q = Val n /\ number_of (fun p => covers q p /\ forall d, ~ has_id g p d) n.
  Proof. intros b g q L0 R. exact (nobodys_spec b g q L0 (greachable_GWF g R)). Qed.
  (** Those of [gaps_with_identifier] as many as there are points that nobody else has. *)
  Theorem C178_open_to : forall b g d q, lo <= 0 -> greachable g -> valid q -> ival (iend q) - ival (istart q) <= hi ->
    exists n, open_to b g d q = Val n /\ number_of (fun p => covers q p /\ forall d', has_id g p d' -> d' = d) n.
  Proof. intros b g d q L0 R. exact (open_spec b g d q L0 (greachable_GWF g R)). Qed.
  (** The difference is the number of points that have this identifier and no other. *)
  Theorem C178_alone : forall b g d q, lo <= 0 -> greachable g -> valid q -> ival (iend q) - ival (istart q) <= hi ->
    exists o n, open_to b g d q = Val o /\ nobodys b g q = Val n /\ number_of (fun p => covers q p /\ has_id g p d /\ forall d', has_id g p d' -> d' = d) (o - n).
  Proof.
    intros b g d q L0 R Vq Lq. apply greachable_GWF in R. destruct (open_spec b g d q L0 R Vq Lq) as (o & Eo & No). destruct (nobodys_spec b g q L0 R Vq Lq) as (n & En & Nn).
    exists o, n. split; [exact Eo|]. split; [exact En|]. refine (number_ext _ _ _ _ (number_minus _ _ _ _ _ _ No Nn)).
    - intros p. cbv beta. split.
      + intros [[Hq Hf] Hn]. split; [exact Hq|]. split; [|exact Hf]. destruct (free_dec g p R) as [F|F]; [destruct Hn; auto|]. destruct (ids_maps g p R) as (s & E & _). destruct s as [|d' s].
        * destruct F. intros d' (s' & E' & Hi). rewrite E in E'. injection E' as <-. destruct Hi.
        * assert (X : has_id g p d') by (exists (d' :: s); split; [exact E|left; reflexivity]). rewrite <- (Hf d' X). exact X.
      + intros (Hq & Hh & Hf). split; [split; [exact Hq|exact Hf]|]. intros [_ F]. exact (F d Hh).
    - intros p [Hq F]. split; [exact Hq|]. intros d' Hd. destruct (F d' Hd).
    - intros p. destruct (free_dec g p R) as [F|F]; [|right; tauto]. destruct (covers_dec1 q p) as [C|C]; [left; auto|right; tauto].
  Qed.
  (** Inserting identifiers takes the places that were nobody's in the interval. *)
  Theorem C178_insert : forall b g ids (k : K) q, lo <= 0 -> greachable g -> valid q -> ival (iend q) - ival (istart q) <= hi -> valid k -> (forall p, covers k p -> covers q p) -> ids <> [] ->
    exists n f, nobodys b g q = Val n /\ nobodys b g k = Val f /\ nobodys b (fst (gqdit_insert (collect ids) k g)) q = Val (n - f).
  Proof.
    intros b g ids k q L0 R Vq Lq Vk Sub Ne. apply greachable_GWF in R. destruct (insert_has (collect ids) k g R Vk (collect_set ids)) as (g' & E & G' & M).
    destruct (nobodys_spec b g q L0 R Vq Lq) as (n & En & Nn). destruct (nobodys_spec b g k L0 R Vk (inside_width k q Vk Sub Lq)) as (f & Ef & Nf). destruct (nobodys_spec b g' q L0 G' Vq Lq) as (n' & En' & Nn').
    exists n, f. split; [exact En|]. split; [exact Ef|]. rewrite E. cbn [fst]. rewrite En'. f_equal. refine (number_unique _ _ _ _ _ Nn' (number_minus _ _ _ _ _ _ Nn Nf)).
    - intros p. cbv beta. split.
      + intros [Hq F]. assert (Fg : GqditOps.free g p) by (intros d Hd; apply (F d), M; auto). split; [auto|]. intros [Hk _]. destruct ids as [|d ids]; [congruence|]. apply (F d), M. right. split; [exact Hk|apply collect_in; left; reflexivity].
      + intros [[Hq F] Hn]. split; [exact Hq|]. intros d Hd. apply M in Hd. destruct Hd as [Hd|[Hk _]]; [exact (F d Hd)|apply Hn; auto].
    - intros p [Hk F]. auto.
    - intros p. destruct (free_dec g p R) as [F|F]; [|right; tauto]. destruct (covers_dec1 k p) as [C|C]; [left; auto|right; tauto].
  Qed.
  (** After [cut_all_identifiers] the whole interval is nobody's. *)
  Theorem C178_cut_all : forall b g q, lo <= 0 -> greachable g -> valid q -> ival (iend q) - ival (istart q) <= hi ->
    nobodys b (fst (cut_all_identifiers q g)) q = Val (ival (iend q) - ival (istart q) + 1).
  Proof.
    intros b g q L0 R Vq Lq. apply greachable_GWF in R. destruct (cut_all_has q g R Vq) as (g' & E & G' & M). rewrite E. cbn [fst]. destruct (nobodys_spec b g' q L0 G' Vq Lq) as (n & En & Nn).
    rewrite En. f_equal. refine (number_unique _ _ _ _ _ Nn (number_interval q Vq)). intros p. cbv beta. split; [tauto|]. intros Hq. split; [exact Hq|]. intros d Hd. apply M in Hd. tauto.
  Qed.
End Props.

(** The hypotheses are met, non-trivially. *)
Definition ex_shared : Gqdit (Interval u8) u8 := grun [GInsert ['1] (1 --> 9 : Interval u8); GInsert ['2] (8 --> 14 : Interval u8); GInsert ['1] (20 --> 29 : Interval u8)].
Example C178_example :
  nobodys Debug ex_shared (5 --> 22 : Interval u8) = Val 5 /\ open_to Debug ex_shared ('1) (5 --> 22 : Interval u8) = Val 11 /\ open_to Debug ex_shared ('2) (5 --> 22 : Interval u8) = Val 10 /\
  nobodys Debug (fst (gqdit_insert (collect ['2]) (13 --> 17) ex_shared)) (5 --> 22 : Interval u8) = Val 2 /\
  nobodys Debug (fst (cut_all_identifiers (5 --> 22 : Interval u8) ex_shared)) (5 --> 22 : Interval u8) = Val 18.
Proof. vm_compute. repeat split. Qed.
Print Assumptions C178_nobodys.
Print Assumptions C178_open_to.
Print Assumptions C178_alone.
Print Assumptions C178_insert.
Print Assumptions C178_cut_all.
