(** * PropsAlgebra: laws that relate several Gqdit calls (C87). *)
From Coq Require Import List ZArith Bool Lia.
From Verif Require Import Base BTree IntervalModel NoditModel GqditModel GqditOps Spec InstancesModel Instances
  PointFacts IntervalFacts NoditFacts GqditFacts GqditProofs GqditGaps GqditAlgebra PropsGqdit.
Import ListNotations.
Open Scope nat_scope.

Section Gqdit.
  Context {I : Type} `{PL : PointLaws I} {OLI : OrdLaws I}.
  Context {K : Type} {IK : InclusiveInterval I K} {IL : IntervalLaws I K}.
  Context {D : Type} {OD : Ord D} {OL : OrdLaws D}.
  Context {Q : Type} {IQ : InclusiveInterval I Q}.
  Context {R : Type} {IR : InclusiveInterval I R}.
  Implicit Types (g h : Gqdit K D) (k : K) (q : Q) (r : R) (p : I) (d : D) (ids : list D).

  (** The Gqdit after the call, also if it panics (then it is unchanged, C51). *)
  Local Notation insert ids k g := (fst (gqdit_insert (collect ids) k g)).
  Local Notation cut_with ids q g := (fst (cut_with_identifiers (collect ids) q g)).
  Local Notation cut_all q g := (fst (cut_all_identifiers q g)).
  Local Notation appended g h := (fst (fst (append g h))).

  (** Both sides are Gqdits and have the same identifiers at every point. *)
  Ltac law :=
    intros; repeat match goal with X : greachable _ |- _ => apply greachable_GWF in X end;
    repeat match goal with
    | |- context [gqdit_insert (collect ?ids) ?k ?g] =>
        let g' := fresh "g" in let E := fresh "E" in
        lazymatch g with context [gqdit_insert] => fail | context [cut_with_identifiers] => fail
                       | context [cut_all_identifiers] => fail | context [append] => fail | _ => idtac end;
        assert (exists g', g' = insert ids k g /\ GWF g' /\ forall p d, has_id g' p d <-> has_id g p d \/ (covers k p /\ In d ids))
          as (g' & E & ? & ?) by (eexists; split; [reflexivity|apply ins_all; assumption]); rewrite <- E; clear E
    | |- context [cut_with_identifiers (collect ?ids) ?k ?g] =>
        let g' := fresh "g" in let E := fresh "E" in
        lazymatch g with context [gqdit_insert] => fail | context [cut_with_identifiers] => fail
                       | context [cut_all_identifiers] => fail | context [append] => fail | _ => idtac end;
        assert (exists g', g' = cut_with ids k g /\ GWF g' /\ forall p d, has_id g' p d <-> has_id g p d /\ ~ (covers k p /\ In d ids))
          as (g' & E & ? & ?) by (eexists; split; [reflexivity|apply cutw_all; assumption]); rewrite <- E; clear E
    | |- context [cut_all_identifiers ?k ?g] =>
        let g' := fresh "g" in let E := fresh "E" in
        lazymatch g with context [gqdit_insert] => fail | context [cut_with_identifiers] => fail
                       | context [cut_all_identifiers] => fail | context [append] => fail | _ => idtac end;
        assert (exists g', g' = cut_all k g /\ GWF g' /\ forall p d, has_id g' p d <-> has_id g p d /\ ~ covers k p)
          as (g' & E & ? & ?) by (eexists; split; [reflexivity|apply cuta_all; assumption]); rewrite <- E; clear E
    | |- context [append ?g ?h] =>
        let g' := fresh "g" in let E := fresh "E" in
        lazymatch constr:((g, h)) with context [gqdit_insert] => fail | context [cut_with_identifiers] => fail
                       | context [cut_all_identifiers] => fail | context [append] => fail | _ => idtac end;
        assert (exists g', g' = appended g h /\ GWF g' /\ forall p d, has_id g' p d <-> has_id g p d \/ has_id h p d)
          as (g' & E & ? & ?) by (eexists; split; [reflexivity|apply app_all; assumption]); rewrite <- E; clear E
    end;
    apply GWF_ext; [assumption..|]; intros p d;
    repeat match goal with M : forall p d, has_id ?g p d <-> _ |- _ => specialize (M p d) end;
    repeat match goal with X : context [covers ?k p] |- _ =>
      lazymatch goal with Y : covers k p \/ ~ covers k p |- _ => fail | _ => pose proof (covers_dec k p) end end;
    repeat match goal with X : context [In d ?l] |- _ =>
      lazymatch goal with Y : In d l \/ ~ In d l |- _ => fail | _ => pose proof (id_dec d l) end end;
    repeat match goal with X : GWF _ |- _ => clear X end;
    repeat match goal with M : has_id ?g p d <-> _ |- _ => try rewrite M in *; clear M end;
    repeat rewrite in_app_iff in *.

  (** ** C87: laws of the Gqdit calls.  [=] is equality of the whole structure. *)
  Theorem C87_insert_laws : forall g ids ids' k k', greachable g ->
    insert ids k (insert ids k g) = insert ids k g /\
    insert ids' k' (insert ids k g) = insert ids k (insert ids' k' g) /\
    insert (ids ++ ids') k g = insert ids' k (insert ids k g) /\
    insert [] k g = g.
  Proof.
    intros g ids ids' k k' G. split; [|split; [|split]]; law; cbn [In] in *; tauto.
  Qed.
  Theorem C87_insert_on_pieces : forall g ids k k1 k2, greachable g ->
    (forall p, covers k p <-> covers k1 p \/ covers k2 p) ->
    insert ids k g = insert ids k2 (insert ids k1 g).
  Proof. intros g ids k k1 k2 G E. law. specialize (E p). tauto. Qed.
  Theorem C87_cut_laws : forall g ids ids' q r, greachable g ->
    cut_with ids q (cut_with ids q g) = cut_with ids q g /\
    cut_with ids' r (cut_with ids q g) = cut_with ids q (cut_with ids' r g) /\
    cut_with (ids ++ ids') q g = cut_with ids' q (cut_with ids q g) /\
    cut_with [] q g = g /\
    cut_all q (cut_all q g) = cut_all q g /\
    cut_all r (cut_all q g) = cut_all q (cut_all r g) /\
    cut_all r (cut_with ids q g) = cut_with ids q (cut_all r g).
  Proof.
    intros g ids ids' q r G. repeat split; law; cbn [In] in *; tauto.
  Qed.
  (** Cutting everything is cutting all identifiers that are there. *)
  Theorem C87_cut_all_is_cut_with : forall g ids q, greachable g ->
    (forall p d, covers q p -> has_id g p d -> In d ids) -> cut_all q g = cut_with ids q g.
  Proof. intros g ids q G A. law. specialize (A p d). tauto. Qed.
  Theorem C87_insert_and_cut : forall g ids ids' k k', greachable g ->
    insert ids k (cut_with ids k g) = insert ids k g /\
    cut_with ids k (insert ids k g) = cut_with ids k g /\
    cut_all k (insert ids k g) = cut_all k g /\
    ((forall p d, ~ (covers k p /\ covers k' p /\ In d ids /\ In d ids')) ->
     cut_with ids' k' (insert ids k g) = insert ids k (cut_with ids' k' g)) /\
    ((forall p d, covers k p -> In d ids -> ~ has_id g p d) -> cut_with ids k (insert ids k g) = g).
  Proof.
    intros g ids ids' k k' G. split; [|split; [|split; [|split]]].
    - law. tauto.
    - law. tauto.
    - law. tauto.
    - intros A. law. specialize (A p d). tauto.
    - intros A. law. specialize (A p d). tauto.
  Qed.
  (** [append] unites. *)
  Theorem C87_append_laws : forall g h j, greachable g -> greachable h -> greachable j ->
    appended g h = appended h g /\ appended (appended g h) j = appended g (appended h j) /\
    appended g g = g /\ appended g gnew = g /\ appended gnew g = g.
  Proof.
    intros g h j G H1 J. assert (N : greachable (gnew : Gqdit K D)) by (exists []; reflexivity).
    pose proof (gnew_free (K := K) (D := D)) as F.
    split; [|split; [|split; [|split]]]; law; specialize (F p d); tauto.
  Qed.
  Theorem C87_append_and_calls : forall g h ids k q, greachable g -> greachable h ->
    insert ids k g = appended g (insert ids k gnew) /\
    appended (insert ids k g) h = insert ids k (appended g h) /\
    cut_with ids q (appended g h) = appended (cut_with ids q g) (cut_with ids q h) /\
    cut_all q (appended g h) = appended (cut_all q g) (cut_all q h).
  Proof.
    intros g h ids k q G H1. assert (N : greachable (gnew : Gqdit K D)) by (exists []; reflexivity).
    pose proof (gnew_free (K := K) (D := D)) as F.
    split; [|split; [|split]]; law; specialize (F p d); tauto.
  Qed.
  (** The gaps for [d] are the gaps once [d] is cut out everywhere. *)
  Theorem C87_gaps_with_is_gaps_no : forall g d q r, greachable g -> valid q -> (forall p, covers r p) ->
    exists l l', gaps_with_identifier g d q = Val l /\ gaps_no_identifier (cut_with [d] r g) q = Val l' /\
      Forall2 same_points l l'.
  Proof.
    intros g d q r G Vq C. apply greachable_GWF in G. destruct (cutw_all [d] r g G) as [G' M].
    destruct (gaps_with_spec g d q G Vq) as (l & E & L). destruct (gaps_no_spec _ q G' Vq) as (l' & E' & L').
    exists l, l'. split; [exact E|]. split; [exact E'|]. eapply lists_unique; [|exact L|exact L'].
    intros p. unfold free_but, free. split.
    - intros F d' X. apply M in X. destruct X as [X N]. apply N. split; [apply C|left; symmetry; apply F, X].
    - intros F d' X. destruct (id_dec d' [d]) as [[<-|[]]|N]; [reflexivity|]. exfalso. apply (F d'), M. tauto.
  Qed.
End Gqdit.
Theorem C87_gaps_with_is_gaps_no_Interval : forall {I : Type} `{PL : PointLaws I} {OLI : OrdLaws I} {D : Type} {OD : Ord D} {OL : OrdLaws D}
  (g : Gqdit (Interval I) D) (d : D) (q r : Interval I), greachable g -> valid q -> (forall p, covers r p) ->
  gaps_with_identifier g d q = gaps_no_identifier (fst (cut_with_identifiers (collect [d]) r g)) q.
Proof.
  intros I O DF PL OLI D OD OL g d q r G Vq C. apply greachable_GWF in G. destruct (cutw_all [d] r g G) as [G' M].
  destruct (C87_gaps_with_is_gaps_no g d q r (GWF_greachable _ G) Vq C) as (l & l' & E & E' & F). rewrite E, E'. f_equal.
  destruct (gaps_with_spec g d q G Vq) as (x & Ex & _ & X & _). destruct (gaps_no_spec _ q G' Vq) as (y & Ey & _ & Y & _).
  assert (x = l) by congruence. assert (y = l') by congruence. subst x y.
  apply Forall2_same_eq; [apply Forall_forall; intros a Ha; apply (X a Ha)|apply Forall_forall; intros a Ha; apply (Y a Ha)|exact F].
Qed.

(** The hypotheses are met, non-trivially, by [exg]: nothing at 0 and 1, [9] at 2, [1 2 9] at 3 and 4,
    [2] at 5 and 6, [1 2] at 7, nothing from 8 on. *)
Example C87_insert_example :
  fst (gqdit_insert (collect ['5; '2]) (1 --> 5) (fst (gqdit_insert (collect ['7]) (4 --> 9) exg))) =
  fst (gqdit_insert (collect ['7]) (4 --> 9) (fst (gqdit_insert (collect ['5; '2]) (1 --> 5) exg))) /\
  fst (gqdit_insert (collect ['7]) (4 --> 9) exg) <> exg.
Proof. vm_compute. split; [reflexivity|discriminate]. Qed.
Example C87_pieces_example : forall p : u8,
  covers (2 --> 9 : Interval u8) p <-> covers (2 --> 5 : Interval u8) p \/ covers (4 --> 9 : Interval u8) p.
Proof.
  intros p. change ((2 <= ival p /\ ival p <= 9) <-> (2 <= ival p /\ ival p <= 5) \/ (4 <= ival p /\ ival p <= 9))%Z. lia.
Qed.
Example C87_cut_example :
  fst (cut_all_identifiers (4 --> 5) (fst (cut_with_identifiers (collect ['2; '3]) (1 --> 6) exg))) =
  fst (cut_with_identifiers (collect ['2; '3]) (1 --> 6) (fst (cut_all_identifiers (4 --> 5) exg))) /\
  fst (cut_with_identifiers (collect ['2; '3]) (1 --> 6) exg) <> exg /\
  fst (cut_all_identifiers (2 --> 3) exg) = fst (cut_with_identifiers (collect ['9; '2; '1]) (2 --> 3) exg).
Proof. vm_compute. repeat split; discriminate. Qed.
(** Inserting and cutting out again is the identity where the identifier is new, but not where it is not. *)
Example C87_insert_and_cut_example :
  fst (cut_with_identifiers (collect ['5]) (1 --> 6) (fst (gqdit_insert (collect ['5]) (1 --> 6) exg))) = exg /\
  fst (cut_with_identifiers (collect ['2]) (1 --> 6) (fst (gqdit_insert (collect ['2]) (1 --> 6) exg))) <> exg.
Proof. vm_compute. split; [reflexivity|discriminate]. Qed.
Example C87_append_example :
  let h := grun [GInsert ['2; '3] (6 --> 10)] : Gqdit (Interval u8) u8 in
  greachable h /\ fst (fst (append exg h)) = fst (fst (append h exg)) /\ fst (fst (append exg h)) <> exg.
Proof. cbv zeta. split; [exists [GInsert ['2; '3] (6 --> 10)]; reflexivity|vm_compute; split; [reflexivity|discriminate]]. Qed.
Example C87_gaps_example : (forall p : u8, covers (0 --> 255 : Interval u8) p) /\
  gaps_with_identifier exg '9 (1 --> 6) = Val [0 --> 2] /\
  gaps_no_identifier (fst (cut_with_identifiers (collect ['9]) (0 --> 255) exg)) (1 --> 6) = Val [0 --> 2].
Proof.
  split; [|vm_compute; auto]. intros p. destruct (int_range p). split; [change (0 <= ival p)%Z|change (ival p <= 255)%Z]; assumption.
Qed.

Print Assumptions C87_insert_laws.
Print Assumptions C87_insert_on_pieces.
Print Assumptions C87_cut_laws.
Print Assumptions C87_cut_all_is_cut_with.
Print Assumptions C87_insert_and_cut.
Print Assumptions C87_append_laws.
Print Assumptions C87_append_and_calls.
Print Assumptions C87_gaps_with_is_gaps_no.
Print Assumptions C87_gaps_with_is_gaps_no_Interval.
