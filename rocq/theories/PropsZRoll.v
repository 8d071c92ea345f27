(** * PropsZRoll: moving a whole ZosditMap round the end of the type (C183). *)
From Coq Require Import List ZArith Bool Lia.
From Verif Require Import Base BTree UtilsModel IntervalModel NoditModel ZosditModel ZosditOps InstancesModel Instances Spec FirstFitOps ShiftOps ZShiftOps
  ShiftFacts ZShiftFacts ZRollFacts.
Import ListNotations.
Open Scope Z_scope.

Section Props.
  Context {lo hi : Z} `{T : IntType lo hi}.
  Notation int := (int lo hi).
  Context {K : Type} {IK : InclusiveInterval int K} {IL : IntervalLaws int K} {FI : FromInvalid int K}.
  Context {V : Type}.
  Implicit Types (z : ZosditMap K V) (d p : int).

  (** ** C183 *)
  (** A release build, if no interval is split by the end of the type: the entries are cut in two
      parts that keep their order; the second part comes first, a whole turn lower.  One of the
      two parts is moved by [d]. *)
  Theorem C183_rolls : forall d z, lo <= 0 <= hi -> zreachable z -> (forall e, In e (zosdit_iter z) -> unsplit (ival d) e) ->
    exists z' l1 l2 n1 n2 a, zshift Release d z = Val (Ok z') /\ zreachable z' /\ zosdit_len z' = length (zosdit_iter z) /\
      zosdit_iter z = l1 ++ l2 /\ zosdit_iter z' = n2 ++ n1 /\ Forall2 (moved a) l1 n1 /\ Forall2 (moved (a - (hi - lo + 1))) l2 n2 /\
      a = (if ival d <? 0 then ival d + (hi - lo + 1) else ival d).
  Proof. intros d z L R U. destruct (zroll d z L R U) as (z' & l1 & l2 & n1 & n2 & H). exists z', l1, l2, n1, n2, (first_move d). repeat (split; [apply H|]). reflexivity. Qed.
  (** Lookups before the end of an interval find what they found. *)
  Theorem C183_lookups : forall d z, lo <= 0 <= hi -> zreachable z -> (forall e, In e (zosdit_iter z) -> unsplit (ival d) e) ->
    exists z', zshift Release d z = Val (Ok z') /\
      forall p p', around (lo := lo) (hi := hi) (ival p + ival d) (ival p') -> (exists e, In e (zosdit_iter z) /\ ival (istart (fst e)) <= ival p < ival (iend (fst e))) ->
        get_last_value_at_point z' p' = get_last_value_at_point z p.
  Proof.
    intros d z L R U. destruct (zroll d z L R U) as (z' & l1 & l2 & n1 & n2 & E & R' & _ & H1 & H2 & H3 & H4). exists z'. split; [exact E|]. intros p p' A I. exact (zroll_get d z z' l1 l2 n1 n2 p p' L R R' H1 H2 H3 H4 A I).
  Qed.
  (** It panics exactly if some interval is split. *)
  Theorem C183_panics : forall d z, lo <= 0 <= hi -> zreachable z -> (zshift Release d z = Panic <-> exists e, In e (zosdit_iter z) /\ ~ unsplit (ival d) e).
  Proof.
    intros d z L R. split; [|exact (zroll_panics d z L R)]. intros E. destruct (unsplit_dec_all (ival d) (zosdit_iter z)) as [U|U]; [|exact U]. destruct (zroll d z L R U) as (z' & l1 & l2 & n1 & n2 & E' & _). congruence.
  Qed.
  (** No build returns an error. *)
  Theorem C183_no_error : forall b d z, lo <= 0 <= hi -> zreachable z -> zshift b d z = Panic \/ exists z', zshift b d z = Val (Ok z') /\ zreachable z'.
  Proof.
    intros [|] d z L R.
    - destruct (fits_dec_all (ival d) (zosdit_iter z)) as [U|U]; [right; destruct (zshift_fits Debug d z R U) as (z' & E & R' & _); eauto|left; exact (zshift_panics d z R U)].
    - destruct (unsplit_dec_all (ival d) (zosdit_iter z)) as [U|U]; [right; destruct (zroll d z L R U) as (z' & l1 & l2 & n1 & n2 & E & R' & _); eauto|left; exact (zroll_panics d z L R U)].
  Qed.
End Props.

(** The hypotheses are met, non-trivially. *)
Definition ex_zroll : ZosditMap (Interval u8) nat := zrun [ZInsertStrictBack (1 --> 9) 1%nat; ZInsertStrictBack (9 --> 9) 2%nat; ZInsertStrictBack (9 --> 9) 3%nat; ZInsertStrictBack (9 --> 20) 4%nat; ZInsertStrictBack (240 --> 250) 5%nat].
Example C183_example :
  zreachable ex_zroll /\ (forall e, In e (zosdit_iter ex_zroll) -> unsplit (lo := 0) (hi := 255) 100 e) /\
  zshift Release '100 ex_zroll = Val (Ok (mkZosdit 5 [(84 --> 94, [5%nat]); (101 --> 109, [1%nat]); (109 --> 109, [2%nat; 3%nat]); (109 --> 120, [4%nat])])) /\
  zshift Debug '100 ex_zroll = Panic /\ zshift Release '10 ex_zroll = Panic /\
  get_last_value_at_point ex_zroll '245 = Some 5%nat /\ omap (fun r => match r with Ok z => get_last_value_at_point z '89 | Err _ => None end) (zshift Release '100 ex_zroll) = Val (Some 5%nat).
Proof.
  split; [eexists; reflexivity|]. split; [|vm_compute; repeat split]. intros e He. vm_compute in He. unfold unsplit. decompose [or] He; clear He; subst; cbn; lia || contradiction.
Qed.
(** At the last place of an interval a lookup need not find what it found: it depends on the
    intervals before and after. *)
Theorem C183_last_place_differs : exists (d p p' : u8) (z z' : ZosditMap (Interval u8) nat), zreachable z /\ zshift Release d z = Val (Ok z') /\ around (lo := 0) (hi := 255) (ival p + ival d) (ival p') /\
  get_last_value_at_point z' p' <> get_last_value_at_point z p.
Proof.
  exists '100, '250, '94, ex_zroll, (match zshift Release '100 ex_zroll with Val (Ok z) => z | _ => z_new end). split; [eexists; reflexivity|]. split; [vm_compute; reflexivity|]. split; [exists (-1); reflexivity|]. vm_compute. discriminate.
Qed.
Print Assumptions C183_rolls.
Print Assumptions C183_lookups.
Print Assumptions C183_panics.
Print Assumptions C183_no_error.
Print Assumptions C183_last_place_differs.
