(** * PropsBooking: several users booking places in a Gqdit (C170). *)
From Coq Require Import List ZArith Bool Lia.
From Verif Require Import Base BTree UtilsModel IntervalModel NoditModel GqditModel GqditOps InstancesModel Instances Spec FirstFitOps BookingOps
  PointFacts IntervalFacts NoditFacts GqditFacts GqditProofs IntervalProofs FirstFitFacts BookingFacts.
Import ListNotations.
Open Scope Z_scope.

Section Props.
  Context {lo hi : Z} `{T : IntType lo hi}.
  Notation int := (int lo hi).
  Context {K : Type} {IK : InclusiveInterval int K} {IL : IntervalLaws int K} {FI : FromInvalid int K}.
  Context {D : Type} {OD : Ord D} {OL : OrdLaws D}.
  Context {Q : Type} {IQ : InclusiveInterval int Q}.
  Implicit Types (g : Gqdit K D) (b : build) (q : Q) (n s : int) (d : D).

  (** ** C170 *)
  (** The place booked for [d] is the leftmost one nobody else has anything of; none is
      booked only if there is none.  In a build of either kind. *)
  Theorem C170_first_fit : forall b g q d n, lo <= 0 -> greachable g -> valid q -> 0 <= ival n -> ival (iend q) - ival (istart q) <= hi ->
    (exists k g', book b q d n g = (g', Val (Some k)) /\ gqdit_insert (collect [d]) k g = (g', Val tt) /\
       ival (iend k) = ival (istart k) + ival n /\ vacant g q d n (istart k) /\
       forall s, vacant g q d n s -> ival (istart k) <= ival s) \/
    (book b q d n g = (g, Val None) /\ forall s, ~ vacant g q d n s).
  Proof.
    intros b g q d n L0 R Vq Ln Lq. destruct (book_spec b g q d n L0 (greachable_GWF g R) Vq Ln Lq) as [(k & g' & A & B & _ & _ & X)|X]; [left|right; exact X].
    exists k, g'. auto.
  Qed.
  (** What one does leaves what the others have. *)
  Theorem C170_others : forall b g q (a : deed lo hi K D), lo <= 0 -> greachable g -> valid q -> ival (iend q) - ival (istart q) <= hi ->
    (forall d n, a = Book d n -> 0 <= ival n) -> forall p d, d <> doer a -> (has_id (act b q g a) p d <-> has_id g p d).
  Proof.
    intros b g q a L0 R Vq Lq Ha p d N. rewrite (proj2 (act_spec b g q a L0 Vq Lq Ha (greachable_GWF g R)) p d). destruct a; cbn [doer] in N; tauto.
  Qed.
  (** At any time no place has two owners, and it has the owner who booked it and did not
      give it back since. *)
  Theorem C170_history : forall b q (l : list (deed lo hi K D)), lo <= 0 -> valid q -> ival (iend q) - ival (istart q) <= hi ->
    (forall d n, In (Book d n) l -> 0 <= ival n) ->
    greachable (acts b q l) /\
    (forall p d d', has_id (acts b q l) p d -> has_id (acts b q l) p d' -> d' = d) /\
    (forall p d, has_id (acts b q l) p d <-> exists l1 n l2 g' k, l = l1 ++ Book d n :: l2 /\ book b q d n (acts b q l1) = (g', Val (Some k)) /\ covers k p /\
       forall k', In (GiveBack d k') l2 -> ~ covers k' p).
  Proof. intros b q l. apply acts_spec. Qed.
End Props.
(** For an unsigned type nothing is assumed of the sizes. *)
Theorem C170_unsigned : forall {hi : Z} {T : IntType 0 hi} {K : Type} {IK : InclusiveInterval (int 0 hi) K} {IL : IntervalLaws (int 0 hi) K}
  {FI : FromInvalid (int 0 hi) K} {D : Type} {OD : Ord D} {OL : OrdLaws D} {Q : Type} {IQ : InclusiveInterval (int 0 hi) Q} b (q : Q) (l : list (deed 0 hi K D)), valid q ->
  (forall p d d', has_id (acts b q l) p d -> has_id (acts b q l) p d' -> d' = d) /\
  (forall d n, (exists k g', book b q d n (acts b q l) = (g', Val (Some k)) /\ ival (iend k) = ival (istart k) + ival n /\ vacant (acts b q l) q d n (istart k) /\
       forall s, vacant (acts b q l) q d n s -> ival (istart k) <= ival s) \/
    (book b q d n (acts b q l) = (acts b q l, Val None) /\ forall s, ~ vacant (acts b q l) q d n s)).
Proof.
  intros hi T K IK IL FI D OD OL Q IQ b q l Vq. assert (Lq : ival (iend q) - ival (istart q) <= hi) by (pose proof (int_range (istart q)); pose proof (int_range (iend q)); lia).
  destruct (C170_history b q l (Z.le_refl 0) Vq Lq) as (R & One & _); [intros d n _; apply int_range|]. split; [exact One|]. intros d n.
  destruct (C170_first_fit b (acts b q l) q d n (Z.le_refl 0) R Vq (proj1 (int_range n)) Lq) as [(k & g' & A & _ & X)|X]; [left; exists k, g'; auto|right; exact X].
Qed.

(** The hypotheses are met, non-trivially: [1] and [2] book by turns, [1] gives back the
    middle of what it has, where [2] then finds room. *)
Definition ex_deeds : list (deed 0 255 (Interval u8) u8) :=
  [Book '1 '9; Book '2 '4; GiveBack '1 (12 --> 15); Book '2 '5; Book '2 '3; Book '1 '1; Book '2 '200; GiveBack '2 (9 --> 3)].
Example C170_example :
  acts Debug (10 --> 60 : Interval u8) ex_deeds =
    ([(0 --> 9, []); (10 --> 11, ['1]); (12 --> 15, ['2]); (16 --> 19, ['1]); (20 --> 25, ['2]); (26 --> 255, [])] : Gqdit (Interval u8) u8) /\
  snd (book Debug (10 --> 60 : Interval u8) '1 '1 (acts Debug (10 --> 60 : Interval u8) ex_deeds)) = Val (Some (10 --> 11)) /\
  snd (book Debug (10 --> 60 : Interval u8) '3 '1 (acts Debug (10 --> 60 : Interval u8) ex_deeds)) = Val (Some (26 --> 27)).
Proof. vm_compute. repeat split; reflexivity. Qed.

Print Assumptions C170_first_fit.
Print Assumptions C170_others.
Print Assumptions C170_history.
Print Assumptions C170_unsigned.
