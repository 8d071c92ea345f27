(** * PropsZShift: moving a whole ZosditMap with [translate] (C180). *)
From Coq Require Import List ZArith Bool Lia.
From Verif Require Import Base BTree UtilsModel IntervalModel NoditModel ZosditModel ZosditOps InstancesModel Instances Spec FirstFitOps ShiftOps ZShiftOps
  PointFacts IntervalFacts NoditFacts IntervalProofs FirstFitFacts ZosditFacts ZosditProofs ShiftFacts ZShiftFacts.
Import ListNotations.
Open Scope Z_scope.

Section Props.
  Context {lo hi : Z} `{T : IntType lo hi}.
  Notation int := (int lo hi).
  Context {K : Type} {IK : InclusiveInterval int K} {IL : IntervalLaws int K} {FI : FromInvalid int K}.
  Context {V : Type}.
  Implicit Types (z : ZosditMap K V) (b : build) (d p : int).

  (** ** C180 *)
  (** If every interval stays inside the type, the entries are the same in the same order, moved,
      [len] counts them, and lookups find what they found. *)
  Theorem C180_moves : forall b d z, zreachable z -> (forall e, In e (zosdit_iter z) -> fits (ival d) e) ->
    exists z', zshift b d z = Val (Ok z') /\ zreachable z' /\ Forall2 (moved (ival d)) (zosdit_iter z) (zosdit_iter z') /\ zosdit_len z' = length (zosdit_iter z) /\
      forall p p', ival p' = ival p + ival d -> get_last_value_at_point z' p' = get_last_value_at_point z p.
  Proof.
    intros b d z R H. destruct (zshift_fits b d z R H) as (z' & E & R' & F & N). exists z'. repeat (split; [assumption|]). intros p p'. exact (moved_get (ival d) z z' p p' R R' F).
  Qed.
  (** So do queries about moved intervals. *)
  Theorem C180_queries : forall b d z {Q} {IQ : InclusiveInterval int Q} (q q' : Q), zreachable z -> (forall e, In e (zosdit_iter z) -> fits (ival d) e) ->
    valid q -> ival (istart q') = ival (istart q) + ival d -> ival (iend q') = ival (iend q) + ival d ->
    exists z' l l', zshift b d z = Val (Ok z') /\ zosdit_overlapping z q = Val l /\ zosdit_overlapping z' q' = Val l' /\ Forall2 (moved (ival d)) l l' /\ is_zero_overlap z' q' = is_zero_overlap z q.
  Proof.
    intros b d z Q IQ q q' R H Vq E1 E2. destruct (zshift_fits b d z R H) as (z' & E & R' & F & N). destruct (moved_queries (ival d) z z' q q' R R' F Vq E1 E2) as [(l & l' & A & B & G) O]. exists z', l, l'. auto.
  Qed.
  (** Moving back gives the same entries and lookups again. *)
  Theorem C180_back : forall b d d' z, zreachable z -> (forall e, In e (zosdit_iter z) -> fits (ival d) e) -> ival d' = - ival d ->
    exists z' z'', zshift b d z = Val (Ok z') /\ zshift b d' z' = Val (Ok z'') /\
      Forall2 (fun e e' => istart (fst e') = istart (fst e) /\ iend (fst e') = iend (fst e) /\ snd e' = snd e) (zosdit_iter z) (zosdit_iter z'') /\
      forall p, get_last_value_at_point z'' p = get_last_value_at_point z p.
  Proof.
    intros b d d' z R H E. destruct (zshift_fits b d z R H) as (z' & E1 & R1 & F1 & N1). destruct (zshift_fits b d' z' R1) as (z'' & E2 & R2 & F2 & N2).
    - intros e' He'. destruct (Forall2_in_r _ _ _ _ F1 He') as (e & He & (X1 & X2 & _)). unfold fits. pose proof (int_range (istart (fst e))). pose proof (int_range (iend (fst e))). lia.
    - pose proof (moved_back _ _ _ _ _ E F1 F2) as B. exists z', z''. repeat (split; [assumption|]). intros p. apply (moved_get 0 z z'' p p R R2); [|lia].
      clear - B. induction B as [|e e' l l' (X1 & X2 & X3) B IH]; constructor; [|exact IH]. unfold moved. rewrite X1, X2. repeat split; [lia|lia|exact X3].
  Qed.
  (** In a debug build moving panics exactly if some interval would leave the type. *)
  Theorem C180_debug : forall d z, zreachable z -> (zshift Debug d z = Panic <-> exists e, In e (zosdit_iter z) /\ ~ fits (ival d) e).
  Proof.
    intros d z R. split; [|apply zshift_panics, R]. intros E. destruct (fits_dec_all (ival d) (zosdit_iter z)) as [F|F]; [|exact F]. destruct (zshift_fits Debug d z R F) as (z' & E' & _). congruence.
  Qed.
End Props.

(** The hypotheses are met, non-trivially. *)
Definition ex_zplaces : ZosditMap (Interval u8) nat := zrun [ZInsertStrictBack (1 --> 9) 1%nat; ZInsertStrictBack (9 --> 9) 2%nat; ZInsertStrictBack (9 --> 9) 3%nat; ZInsertStrictBack (9 --> 20) 4%nat; ZRemoveLast '15; ZInsertStrictBack (240 --> 250) 5%nat].
Example C180_example :
  zosdit_iter ex_zplaces = [(1 --> 9, 1%nat); (9 --> 9, 2%nat); (9 --> 9, 3%nat); (240 --> 250, 5%nat)] /\ zosdit_len ex_zplaces = 5%nat /\
  zshift Debug '5 ex_zplaces = Val (Ok (mkZosdit 4 [(6 --> 14, [1%nat]); (14 --> 14, [2%nat; 3%nat]); (245 --> 255, [5%nat])])) /\
  zshift Debug '6 ex_zplaces = Panic.
Proof. vm_compute. repeat split. Qed.
Print Assumptions C180_moves.
Print Assumptions C180_queries.
Print Assumptions C180_back.
Print Assumptions C180_debug.
