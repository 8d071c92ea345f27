(** * PropsPutBack: putting back what was cut out of a ZosditMap (C144). *)
From Coq Require Import List ZArith Bool Lia.
From Verif Require Import Base IntervalModel NoditModel ZosditModel ZosditOps Ledger WalkOps PutBackOps Spec InstancesModel Instances
  PointFacts IntervalFacts ListFacts NoditFacts ZosditFacts ZosditMut ZosditProofs AccountFacts WalkFacts PutBackFacts PropsWalk.
Import ListNotations.
Open Scope nat_scope.

Section Props.
  Context {I : Type} `{PL : PointLaws I}.
  Context {K : Type} {IK : InclusiveInterval I K} {IL : IntervalLaws I K}.
  Context {V : Type}.
  Context {Q : Type} {IQ : InclusiveInterval I Q}.
  Implicit Types (z : ZosditMap K V) (p : I) (q : Q) (out A B : list (K * V)).

  (** ** C144 *)
  (** Whatever [cut] returned can be inserted again, in the order in which it was returned;
      nothing is refused, and the pieces come to stand, in that order, behind what the
      map has before [q] and in front of what it has after [q]. *)
  Theorem C144_put_back : forall z q, zreachable (I := I) z -> valid q ->
    exists z1 out z2 A B out', zosdit_cut q z = (z1, Val out) /\ puts_back out z1 z2 /\
      zosdit_iter z1 = A ++ B /\ zosdit_iter z2 = A ++ out' ++ B /\ Forall2 same_entry out out' /\
      (out <> [] -> (forall e, In e A -> before (fst e) q) /\ (forall e, In e B -> before q (fst e))) /\
      zosdit_len z2 = zosdit_len z1 + length out.
  Proof.
    intros z q R Vq. pose proof (zreachable_ZWF z R) as Wf.
    destruct (put_back_cut q z Wf Vq) as (z1 & out & z2 & A & B & out' & E & P & _ & N & E1 & E2 & F & _ & HC & HN).
    exists z1, out, z2, A, B, out'. repeat (split; [assumption|]). split; [|exact N]. intros Ne.
    destruct (cuttable_dec z q) as [C|C]; [|destruct (HN C); contradiction]. destruct (HC C) as [HA HB]. rewrite Forall_forall in HA, HB.
    split; intros e He x y Hx Hy; apply covers_rk in Hx, Hy; apply plt_rk; [specialize (HA e He)|specialize (HB e He)]; unfold elo, ehi in *; lia.
  Qed.

  (** Every point then has the values it had before the cut, in the same order. *)
  Theorem C144_same_values : forall z q z1 out z2, zreachable (I := I) z -> valid q -> zosdit_cut q z = (z1, Val out) -> puts_back out z1 z2 ->
    forall p vs, values_at (zosdit_iter z2) p vs <-> values_at (zosdit_iter z) p vs.
  Proof.
    intros z q z1 out z2 R Vq E P p vs. pose proof (zreachable_ZWF z R) as Wf.
    destruct (put_back_cut q z Wf Vq) as (z1' & out0 & z2' & A & B & out' & E' & P' & _ & _ & E1 & E2 & F & _).
    rewrite E in E'. injection E' as <- <-. pose proof (puts_back_fun _ _ _ _ P P') as <-.
    rewrite !values_at_vals, (back_vals q z z1 z2 A B out out' p Wf Vq E E1 E2 F). reflexivity.
  Qed.

  (** But cutting the same interval a second time finds nothing if anything is stored
      before it (C37); otherwise it undoes the putting back. *)
  Theorem C144_second_cut : forall z q z1 out z2, zreachable (I := I) z -> valid q -> zosdit_cut q z = (z1, Val out) -> puts_back out z1 z2 ->
    ((exists e x, In e (zosdit_iter z) /\ covers (fst e) x /\ forall y, covers q y -> plt x y) -> zosdit_cut q z2 = (z2, Val [])) /\
    (~ (exists e x, In e (zosdit_iter z) /\ covers (fst e) x /\ forall y, covers q y -> plt x y) ->
      exists z3 out3, zosdit_cut q z2 = (z3, Val out3) /\ Forall2 same_entry out out3 /\ zosdit_iter z3 = zosdit_iter z1).
  Proof. intros z q z1 out z2 R. apply second_cut, zreachable_ZWF, R. Qed.

  (** And in a map without a pause, where [get_last_value_at_point] always finds the last
      value (C138), it then finds nothing any more at the last point of [q] and at the last
      point before it, unless nothing is stored after that point (C38); at all other points
      it answers as before. *)
  Theorem C144_position : forall z q z1 out z2, zreachable (I := I) z -> valid q -> gapless (zosdit_iter z) ->
    zosdit_cut q z = (z1, Val out) -> puts_back out z1 z2 -> forall p,
    (border q p /\ (exists e x, In e (zosdit_iter z) /\ covers (fst e) x /\ plt p x) -> get_last_value_at_point z2 p = None) /\
    (~ (border q p /\ exists e x, In e (zosdit_iter z) /\ covers (fst e) x /\ plt p x) ->
       get_last_value_at_point z2 p = get_last_value_at_point z p).
  Proof. intros z q z1 out z2 R Vq G E P p. apply (position_back q z z1 out z2 p (zreachable_ZWF z R) Vq G E P). Qed.
End Props.

(** The walk of C138, cut in two places of an edge and put back. *)
Definition C144_z : ZosditMap (Interval u8) nat := zrun (map record C138_walk).
Definition C144_q : Interval u8 := 3 --> 5.
Definition C144_out : list (Interval u8 * nat) := [(3 --> 4, 1); (4 --> 4, 2); (4 --> 4, 3); (4 --> 5, 4)].
Definition C144_z2 : ZosditMap (Interval u8) nat := fold_left (fun z e => fst (insert_strict_back (fst e) (snd e) z)) C144_out (fst (zosdit_cut C144_q C144_z)).
Example C144_ex : zreachable C144_z /\ valid C144_q /\ gapless (zosdit_iter C144_z) /\
  zosdit_cut C144_q C144_z = (fst (zosdit_cut C144_q C144_z), Val C144_out) /\ puts_back C144_out (fst (zosdit_cut C144_q C144_z)) C144_z2 /\
  zosdit_iter C144_z2 = [(2 --> 2, 1); (3 --> 4, 1); (4 --> 4, 2); (4 --> 4, 3); (4 --> 5, 4); (6 --> 9, 4); (9 --> 9, 5)] /\
  map (get_last_value_at_point C144_z) ['2; '3; '4; '5; '6; '9] = [Some 1; Some 1; Some 4; Some 4; Some 4; Some 5] /\
  map (get_last_value_at_point C144_z2) ['2; '3; '4; '5; '6; '9] = [None; Some 1; Some 4; None; Some 4; Some 5] /\
  zosdit_cut C144_q C144_z2 = (C144_z2, Val []).
Proof.
  split; [exists (map record C138_walk); reflexivity|]. split; [exists (istart C144_q); split; vm_compute; discriminate|].
  split; [unfold C144_z; rewrite (proj2 (proj2 (proj2 C138_walk_ex))); apply C138_walk_ex|].
  split; [vm_compute; reflexivity|]. split; [repeat (eexists; split; [vm_compute; reflexivity|]); vm_compute; reflexivity|].
  vm_compute. repeat split.
Qed.

Print Assumptions C144_put_back.
Print Assumptions C144_same_values.
Print Assumptions C144_second_cut.
Print Assumptions C144_position.
