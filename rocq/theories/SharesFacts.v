(** * SharesFacts: counting the places of the users of a Gqdit (the proofs of C178). *)
From Coq Require Import List ZArith Bool Lia.
From Verif Require Import Base BTree UtilsModel IntervalModel NoditModel InstancesModel Instances Spec FirstFitOps PlacesOps BookingOps SharesOps GqditModel GqditOps
  PointFacts IntervalFacts NoditFacts NoditInv NoditMore IntervalProofs FirstFitFacts GqditFacts GqditSets GqditProofs GqditGaps PlacesFacts BookingFacts.
Import ListNotations.
Open Scope Z_scope.

Section Facts.
  Context {lo hi : Z} `{T : IntType lo hi}.
  Notation int := (int lo hi).
  Context {K : Type} {IK : InclusiveInterval int K} {IL : IntervalLaws int K} {FI : FromInvalid int K}.
  Context {D : Type} {OD : Ord D} {OL : OrdLaws D}.
  Context {Q : Type} {IQ : InclusiveInterval int Q}.
  Implicit Types (g : Gqdit K D) (b : build) (q : Q) (p : int) (d : D).

  Lemma runs_count b (P : int -> Prop) q (l : list K) : lo <= 0 -> valid q -> ival (iend q) - ival (istart q) <= hi -> (forall p, P p \/ ~ P p) ->
    lists_max_runs P (fun j => overlap j q) l -> exists n, sizes b (trimmed q l) = Val n /\ number_of (fun p => covers q p /\ P p) n.
  Proof.
    intros L0 Vq Lq Dec (As & Rn & Al). destruct (sizes_spec b (trimmed q l) L0) as (n & E & N).
    - intros r Hr. apply in_trimmed in Hr. destruct Hr as (r0 & Hi & Er). pose proof (cut_both _ _ _ Er) as C. destruct (Rn r0 Hi) as [_ (x & X1 & X2)].
      assert (Vr : valid r) by (exists x; apply C; split; [exact X1|exact X2]). split; [exact Vr|]. apply (inside_width r q Vr); [|exact Lq]. intros p Hp. apply C, Hp.
    - apply ascending_disjoint, trimmed_ascending, As.
    - exists n. split; [exact E|]. refine (number_ext _ _ n _ N). intros p. split.
      + intros (r & Hr & Hc). apply in_trimmed in Hr. destruct Hr as (r0 & Hi & Er). apply (cut_both _ _ _ Er) in Hc. destruct (Rn r0 Hi) as [(_ & P0 & _) _]. split; [apply Hc|apply P0, Hc].
      + intros [Hq Hp]. destruct (run_through P Dec p Hp) as (j & Mj & Hj). destruct (Al j Mj) as (r0 & Hi & Sr); [exists p; auto|]. apply Sr in Hj.
        destruct (intersection_Some r0 q) as (r & Er & C); [exists p; auto|]. exists r. split; [apply in_trimmed; eauto|apply C; auto].
  Qed.
  Lemma free_dec g p : GWF g -> GqditOps.free g p \/ ~ GqditOps.free g p.
  Proof.
    intros G. destruct (ids_maps g p G) as (s & E & _). destruct s as [|d s].
    - left. intros d (s' & E' & Hi). rewrite E in E'. injection E' as <-. destruct Hi.
    - right. intros X. apply (X d). exists (d :: s). split; [exact E|left; reflexivity].
  Qed.
  Lemma nobodys_spec b g q : lo <= 0 -> GWF g -> valid q -> ival (iend q) - ival (istart q) <= hi ->
    exists n, nobodys b g q = Val n /\ number_of (fun p => covers q p /\ GqditOps.free g p) n.
  Proof.
    intros L0 G Vq Lq. destruct (gaps_no_spec g q G Vq) as (l & E & R). unfold nobodys. rewrite E. cbn [obind]. exact (runs_count b _ q l L0 Vq Lq (fun p => free_dec g p G) R).
  Qed.
  Lemma open_spec b g d q : lo <= 0 -> GWF g -> valid q -> ival (iend q) - ival (istart q) <= hi ->
    exists n, open_to b g d q = Val n /\ number_of (fun p => covers q p /\ free_but d g p) n.
  Proof.
    intros L0 G Vq Lq. destruct (gaps_with_spec g d q G Vq) as (l & E & R). unfold open_to. rewrite E. cbn [obind]. exact (runs_count b _ q l L0 Vq Lq (fun p => free_but_dec d g p G) R).
  Qed.
  Lemma number_minus {A} (P R : A -> Prop) n n' : (forall x, R x -> P x) -> (forall x, R x \/ ~ R x) -> number_of P n -> number_of R n' -> number_of (fun x => P x /\ ~ R x) (n - n').
  Proof.
    intros Sub Dec (l & ND & H & <-) NR. assert (X : forall l : list A, NoDup l -> exists l', NoDup l' /\ forall x, In x l' <-> In x l /\ ~ R x).
    { clear - Dec. induction l as [|x l IH]; intros ND; [exists []; split; [constructor|intros x; cbn; tauto]|]. inversion ND as [|? ? Nx ND']; subst. destruct (IH ND') as (l' & N' & I').
      destruct (Dec x) as [Rx|Rx].
      - exists l'. split; [exact N'|]. intros y. rewrite I'. cbn. split; [tauto|]. intros [[<-|Hy] Hn]; [contradiction|auto].
      - exists (x :: l'). split; [constructor; [rewrite I'; tauto|exact N']|]. intros y. cbn. rewrite I'. split; [intros [<-|Hy]; tauto|]. intros [[<-|Hy] Hn]; auto. }
    destruct (X l ND) as (l' & N' & I'). assert (Nl' : number_of (fun x => P x /\ ~ R x) (Z.of_nat (length l'))) by (exists l'; split; [exact N'|]; split; [intros x; rewrite I', H; reflexivity|reflexivity]).
    replace (Z.of_nat (length l) - n') with (Z.of_nat (length l')); [exact Nl'|]. assert (Y : Z.of_nat (length l) = n' + Z.of_nat (length l')); [|lia].
    refine (number_unique P (fun x => R x \/ (P x /\ ~ R x)) _ _ _ _ (number_or _ _ _ _ _ NR Nl')).
    - intros x. specialize (Sub x). specialize (Dec x). tauto.
    - exists l. auto.
    - tauto.
  Qed.
End Facts.
