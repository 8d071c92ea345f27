(** * PropsSave: a container can be saved and loaded anywhere in a program (C169). *)
From Coq Require Import List ZArith Bool Lia Arith.
From Verif Require Import Base BTree UtilsModel IntervalModel NoditModel NoditOps NoditSetModel NoditSetOps ZosditModel ZosditOps GqditModel GqditOps
  Spec CompleteOps SerdeOps ClientOps ClientSetOps ClientGqditOps ClientZosditOps SaveOps InstancesModel Instances
  PointFacts IntervalFacts ListFacts NoditFacts NoditInv NoditSetFacts NoditSetProofs ZosditFacts ZosditMut ZosditProofs
  GqditFacts GqditProofs SerdeFacts PropsNodit PropsZosdit PropsGqdit PropsSerde PropsClient PropsClientSet PropsClientGqdit PropsAppended PropsClientZosdit SaveFacts.
Import ListNotations.
Open Scope nat_scope.

Section Maps.
  Context {I : Type} `{PL : PointLaws I}.
  Context {K : Type} {IK : InclusiveInterval I K} {IL : IntervalLaws I K} {FI : FromInvalid I K}.
  Context {V B R : Type}.

  (** A program that saves its NoditMap and goes on with what it loads, as often as it likes,
      ends as if it did not. *)
  Theorem C169_map : forall (m : NoditMap K V) (p : saver answer R), reachable m ->
    go perform (from_elements serialize deserialize) m p = Some (go_on perform m p) /\
    (forall (cn : codec B nat) (c : codec B (K * V)) rest, faithful cn -> faithful c ->
      go perform (from_counted serialize deserialize cn c rest) m p = Some (go_on perform m p)).
  Proof.
    intros m p Rm. split; [|intros cn c rest Fn Fc]; apply (go_inv perform _ (reachable (I := I) (K := K) (V := V))); try exact Rm; try (intros c0 s; apply PropsClient.perform_reachable); intros s Rs.
    - unfold from_elements. destruct (C22_round_trip s Rs) as (_ & _ & ->). reflexivity.
    - unfold from_counted. rewrite (C121_map_counted s cn c rest Rs Fn Fc). reflexivity.
  Qed.
  Theorem C169_set : forall (s : NoditSet K) (p : saver sanswer R), set_reachable s ->
    go set_perform (from_elements set_serialize set_deserialize) s p = Some (go_on set_perform s p) /\
    (forall (cn : codec B nat) (c : codec B K) rest, faithful cn -> faithful c ->
      go set_perform (from_counted set_serialize set_deserialize cn c rest) s p = Some (go_on set_perform s p)).
  Proof.
    intros m p Rm. split; [|intros cn c rest Fn Fc]; apply (go_inv set_perform _ (set_reachable (I := I) (K := K))); try exact Rm; try (intros c0 s; apply set_perform_reachable); intros s Rs.
    - unfold from_elements. change (snd (set_serialize s)) with (set_iter s). rewrite (set_round_trip s Rs). reflexivity.
    - unfold from_counted. rewrite (C121_set_counted s cn c rest Rs Fn Fc). reflexivity.
  Qed.
  Theorem C169_gqdit : forall {D} {OD : Ord D} {OL : OrdLaws D} (g : Gqdit K D) (p : saver ganswer R), greachable g ->
    go gperform (from_elements gqdit_serialize gqdit_deserialize) g p = Some (go_on gperform g p) /\
    (forall (cn : codec B nat) (c : codec B (K * BTreeSet D)) rest, faithful cn -> faithful c ->
      go gperform (from_counted gqdit_serialize gqdit_deserialize cn c rest) g p = Some (go_on gperform g p)).
  Proof.
    intros D OD OL m p Rm. split; [|intros cn c rest Fn Fc]; apply (go_inv gperform _ (greachable (I := I) (K := K) (D := D))); try exact Rm; try (intros c0 s; apply PropsAppended.perform_reachable); intros s Rs.
    - unfold from_elements. destruct (C52_round_trip s (or_introl Rs)) as [-> _]. reflexivity.
    - unfold from_counted. rewrite (C121_gqdit_counted s cn c rest (or_introl Rs) Fn Fc). reflexivity.
  Qed.

  (** For a ZosditMap that is false.  It holds when what is saved has no two keys of the same
      points and the program never asks [len] or [is_empty], ... *)
  Theorem C169_zosdit_partial : forall (z : ZosditMap K V) (p : saver zanswer R), zreachable z ->
    asks (fun c => match c with ZCallLen | ZCallIsEmpty => False | _ => True end) p -> saves zperform stored_once z p ->
    go zperform (from_elements zosdit_serialize zosdit_deserialize) z p = Some (go_on zperform z p).
  Proof.
    intros z p Rz Ha Hs. pose proof (zreachable_ZWF z Rz) as Wf.
    apply (go_sim zperform _ (fun z z' => ZWF z /\ ZWF z' /\ z_inner z' = z_inner z) stored_once not_counting); [..|exact Ha|exact Hs].
    - intros c s s' Hc (W & W' & E). destruct (zperform_len c s s' Hc W W' E) as [E1 E2]. repeat split; try exact E2; try exact E1; apply zperform_ZWF; assumption.
    - intros s s' O (W & W' & E). assert (O' : stored_once s') by (unfold stored_once; rewrite E; exact O). exists (mkZosdit (length (zosdit_iter s')) (z_inner s')).
      split; [apply zosdit_loads; assumption|]. split; [exact W|]. split; [|exact E]. destruct W' as (W1 & W2 & _). split; [exact W1|split; [exact W2|apply Nat.le_refl]].
    - repeat split; try reflexivity; apply Wf.
  Qed.
  (** ... or when [len] also counts right in what is saved. *)
  Theorem C169_zosdit_counted_partial : forall (z : ZosditMap K V) (p : saver zanswer R), zreachable z ->
    saves zperform (fun z => stored_once z /\ zosdit_len z = length (zosdit_iter z)) z p ->
    go zperform (from_elements zosdit_serialize zosdit_deserialize) z p = Some (go_on zperform z p) /\
    (forall (cn : codec B nat) (c : codec B (K * V)) rest, faithful cn -> faithful c ->
      go zperform (from_counted zosdit_serialize zosdit_deserialize cn c rest) z p = Some (go_on zperform z p)).
  Proof.
    intros z p Rz Hs. pose proof (zreachable_ZWF z Rz) as Wf. split; [|intros cn c rest Fn Fc];
      (apply (go_sim zperform _ (fun z z' => ZWF z /\ z' = z) (fun z => stored_once z /\ zosdit_len z = length (zosdit_iter z)) (fun _ => True)); [..|apply asks_all|exact Hs];
      [intros c0 s s' _ (W & ->); repeat split; apply zperform_ZWF, W|intros s s' [O N] (W & ->); exists s; split; [|split; [exact W|reflexivity]]|split; [exact Wf|reflexivity]]).
    - rewrite (zosdit_loads s W O), <- N. destruct s. reflexivity.
    - unfold from_counted. pose proof (counted_exact cn c zosdit_deserialize (zosdit_len s) (zosdit_iter s) rest Fn Fc N) as X. fold (zosdit_serialize s) in X. rewrite X. cbv beta iota.
      pose proof (zosdit_loads s W O) as Y. unfold from_elements in Y. cbn [zosdit_serialize snd] in Y. rewrite Y, <- N. destruct s. reflexivity.
  Qed.
  (** In a file of a counted data format nothing can be loaded that was saved with a wrong
      [len]. *)
  Theorem C169_zosdit_file_partial : forall (z : ZosditMap K V) (p : saver zanswer R) (cn : codec B nat) (c : codec B (K * V)), zreachable z ->
    faithful cn -> faithful c -> dec c [] = None -> saves zperform stored_once z p ->
    go zperform (from_counted zosdit_serialize zosdit_deserialize cn c []) z p = None /\
    ~ saves zperform (fun z => zosdit_len z = length (zosdit_iter z)) z p \/
    go zperform (from_counted zosdit_serialize zosdit_deserialize cn c []) z p = Some (go_on zperform z p) /\
    saves zperform (fun z => zosdit_len z = length (zosdit_iter z)) z p.
  Proof.
    intros z p cn c Rz Fn Fc Dc. revert z Rz. induction p as [r|c0 next IH|next IH]; intros z Rz Hs; cbn [go go_on saves] in *.
    - right. split; [reflexivity|exact Logic.I].
    - assert (Rz' : zreachable (fst (zperform c0 z))) by (rewrite zperform_step; destruct (is_op c0); [apply step_reachable, Rz|exact Rz]).
      destruct (zperform c0 z) as [z' a]. exact (IH a z' Rz' Hs).
    - destruct Hs as [O Hs]. pose proof (zreachable_ZWF z Rz) as Wf. destruct (Nat.eq_dec (zosdit_len z) (length (zosdit_iter z))) as [N|N].
      + assert (L : from_counted zosdit_serialize zosdit_deserialize cn c [] z = Some z).
        { unfold from_counted. pose proof (counted_exact cn c zosdit_deserialize (zosdit_len z) (zosdit_iter z) [] Fn Fc N) as X. fold (zosdit_serialize z) in X. rewrite X.
          pose proof (zosdit_loads z Wf O) as Y. unfold from_elements in Y. cbn [zosdit_serialize snd] in Y. rewrite Y, <- N. destruct z. reflexivity. }
        rewrite L. destruct (IH z Rz Hs) as [[E X]|[E X]]; [left; split; [exact E|tauto]|right; split; [exact E|split; assumption]].
      + left. split; [|tauto]. assert (L : from_counted zosdit_serialize zosdit_deserialize cn c [] z = None); [|rewrite L; reflexivity].
        destruct Rz as (os & ->). pose proof (removed_len os) as X. unfold from_counted. rewrite app_nil_r, (C121_zosdit_file os cn c Fn Fc Dc) by lia. reflexivity.
  Qed.
End Maps.
Print Assumptions C169_map.
Print Assumptions C169_set.
Print Assumptions C169_gqdit.
Print Assumptions C169_zosdit_partial.
Print Assumptions C169_zosdit_counted_partial.
Print Assumptions C169_zosdit_file_partial.

(** Two programs that end differently when they save: [cut] leaves two keys of the points
    [[0, 0]], which loading joins; [len] counts what was removed, until it is loaded. *)
Definition C169_twins : saver (zanswer (I := u8) (K := Interval u8) (V := nat)) (list (Interval u8 * nat)) :=
  Ask (ZCallInsertStrictBack (0 --> 0 : Interval u8) 1) (fun _ =>
  Ask (ZCallInsertStrictBack (0 --> 4 : Interval u8) 2) (fun _ =>
  Ask (ZCallCut (1 --> 3 : Interval u8)) (fun _ =>
  SaveLoad (
  Ask (ZCallInsertStrictBack (0 --> 0 : Interval u8) 3) (fun _ =>
  Ask ZCallIter (fun l => Finish l)))))).
Definition C169_removes : saver (zanswer (I := u8) (K := Interval u8) (V := nat)) nat :=
  Ask (ZCallInsertStrictBack (1 --> 9 : Interval u8) 1) (fun _ =>
  Ask (ZCallRemoveLastValueAtPoint '5) (fun _ =>
  SaveLoad (Ask ZCallLen (fun n => Finish n)))).
Theorem C169_zosdit_refuted :
  (exists r r', go zperform (from_elements zosdit_serialize zosdit_deserialize) z_new C169_twins = Some r /\ go_on zperform z_new C169_twins = r' /\ r <> r') /\
  (exists n n', go zperform (from_elements zosdit_serialize zosdit_deserialize) z_new C169_removes = Some n /\ go_on zperform z_new C169_removes = n' /\ n <> n').
Proof. split; do 2 eexists; (split; [vm_compute; reflexivity|split; [vm_compute; reflexivity|discriminate]]). Qed.
Print Assumptions C169_zosdit_refuted.

(** Programs that save and what comes out of them. *)
Definition C169_program : saver (answer (I := u8) (K := Interval u8) (V := nat)) (list (Interval u8 * nat)) :=
  Ask (CallInsertStrict (1 --> 9 : Interval u8) 1) (fun _ =>
  SaveLoad (
  Ask (CallCut (3 --> 4 : Interval u8)) (fun _ =>
  SaveLoad (
  Ask (CallInsertMergeTouching (10 --> 20 : Interval u8) 2) (fun a =>
  SaveLoad (Ask CallIter (fun l => Finish l))))))).
Definition C169_zprogram : saver (zanswer (I := u8) (K := Interval u8) (V := nat)) (list (Interval u8 * nat)) :=
  Ask (ZCallInsertStrictBack (1 --> 4 : Interval u8) 1) (fun _ =>
  Ask (ZCallInsertStrictBack (4 --> 8 : Interval u8) 2) (fun _ =>
  SaveLoad (
  Ask (ZCallRemoveLastValueAtPoint '4) (fun _ =>
  SaveLoad (
  Ask (ZCallInsertStrictBack (4 --> 4 : Interval u8) 3) (fun _ =>
  Ask ZCallIter (fun l => Finish l))))))).
Example C169_example :
  go perform (from_elements serialize deserialize) (new : NoditMap (Interval u8) nat) C169_program = Some [((1 --> 2), 1); ((5 --> 20), 2)] /\
  go zperform (from_elements zosdit_serialize zosdit_deserialize) z_new C169_zprogram = Some [((1 --> 4), 1); ((4 --> 4), 3)] /\
  asks (fun c => match c with ZCallLen | ZCallIsEmpty => False | _ => True end) C169_zprogram /\
  saves zperform stored_once z_new C169_zprogram.
Proof.
  split; [vm_compute; reflexivity|]. split; [vm_compute; reflexivity|]. split; [cbn; tauto|].
  assert (X : forall os : list (zop u8 (Interval u8) nat), Forall not_cut os -> stored_once (zrun os)) by (intros os; apply C64_without_cut_stored_once_partial).
  set (os := [ZInsertStrictBack (1 --> 4 : Interval u8) 1; ZInsertStrictBack (4 --> 8 : Interval u8) 2] : list (zop u8 (Interval u8) nat)).
  change (stored_once (zrun os) /\ stored_once (zrun (os ++ [ZRemoveLast '4])) /\ True).
  split; [apply X; repeat constructor|]. split; [apply X; repeat constructor|exact Logic.I].
Qed.
Definition C169_fileprogram (v : u8) : saver (zanswer (I := u8) (K := Interval u8) (V := u8)) (list (Interval u8 * u8)) :=
  Ask (ZCallInsertStrictBack (1 --> 4 : Interval u8) v) (fun _ =>
  SaveLoad (
  Ask (ZCallRemoveLastValueAtPoint v) (fun _ =>
  SaveLoad (Ask ZCallIter (fun l => Finish l))))).
Example C169_file_example : dec entry_codec [] = None /\
  go zperform (from_counted zosdit_serialize zosdit_deserialize unary_codec entry_codec []) z_new (C169_fileprogram '3) = None /\
  go zperform (from_counted zosdit_serialize zosdit_deserialize unary_codec entry_codec []) z_new (C169_fileprogram '5) = Some [((1 --> 4), '5)].
Proof. vm_compute. repeat split; reflexivity. Qed.
