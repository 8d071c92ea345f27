(** * PropsGqditSets: a Gqdit is one NoditSet per identifier (C100, C101). *)
From Coq Require Import List ZArith Bool Sorting.Sorted.
From Verif Require Import Base BTree IntervalModel NoditModel NoditSetModel NoditOps NoditSetOps GqditModel GqditOps Spec EqualOps GqditSetsOps
  InstancesModel Instances PointFacts IntervalFacts NoditFacts NoditQueries NoditGaps NoditSetFacts NoditSetProofs NoditInv GqditFacts GqditProofs GqditGaps GqditSets PropsGqdit.
Import ListNotations.
Open Scope nat_scope.

Section Props.
  Context {I : Type} {OI : Ord I} {DI : DiscreteFinite I} {PL : PointLaws I}.
  Context {K : Type} {IK : InclusiveInterval I K} {IL : IntervalLaws I K} {FI : FromInvalid I K}.
  Context {D : Type} {OD : Ord D} {OL : OrdLaws D}.
  Context {Q : Type} {IQ : InclusiveInterval I Q}.
  Implicit Types (d : D) (os : list (gop I K D)).

  (** ** C100: each identifier has a set of its own. *)
  Theorem C100_identifier_is_a_set : forall os d p,
    set_contains_point (set_of os d) p = Val true <-> exists s, identifiers_at_point (grun os) p = Val s /\ In d s.
  Proof.
    intros os d p. rewrite (proj1 (set_contains_point_spec (set_of os d) p (set_run_WF _))), in_set_of.
    symmetry. exact (grun_has os p d).
  Qed.
  (** Its intervals are the maximal ones on which the Gqdit has the identifier. *)
  Theorem C100_intervals : forall os d,
    lists_max_runs (fun p => exists s, identifiers_at_point (grun os) p = Val s /\ In d s) (fun _ => True) (set_iter (set_of os d)).
  Proof.
    intros os d. destruct (canonical_runs (flat_map (set_calls d) os) (merging_all d os)) as (A & B & C).
    assert (E : forall p, in_set (set_of os d) p <-> has_id (grun os) p d) by (intros p; rewrite in_set_of; symmetry; apply grun_has).
    split; [exact A|]. split.
    - intros g Hg. destruct (B g Hg) as [X Y]. split; [eapply max_run_ext; [exact E|exact X]|exact Y].
    - intros j X Y. apply C; [|exact Y]. eapply (max_run_ext (K := Interval I)); [|exact X]. intros p. symmetry. apply E.
  Qed.

  (** ** C101: the gap queries are those of the sets put together. *)
  Theorem C101_gaps_no_identifier : forall os (q : Q),
    alike (Forall2 same_points) (gaps_no_identifier (grun os) q) (set_gaps_untrimmed (all_of os) q).
  Proof.
    intros os q. destruct (valid_dec q) as [V|V].
    - destruct (gaps_no_spec (grun os) q (grun_GWF os) V) as (l & -> & T).
      destruct (gaps_match (all_of os) q _ l (union_WF _ _) V (free_all os) T) as (l' & -> & F). exact F.
    - rewrite gaps_no_bad by exact V. unfold set_gaps_untrimmed. rewrite gaps_untrimmed_invalid by exact V. exact Logic.I.
  Qed.
  Theorem C101_gaps_with_identifier : forall os d (q : Q),
    alike (Forall2 same_points) (gaps_with_identifier (grun os) d q) (set_gaps_untrimmed (all_but os d) q).
  Proof.
    intros os d q. destruct (valid_dec q) as [V|V].
    - destruct (gaps_with_spec (grun os) d q (grun_GWF os) V) as (l & -> & T).
      destruct (gaps_match (all_but os d) q _ l (union_WF _ _) V (free_all_but os d) T) as (l' & -> & F). exact F.
    - rewrite gaps_with_bad by exact V. unfold set_gaps_untrimmed. rewrite gaps_untrimmed_invalid by exact V. exact Logic.I.
  Qed.
End Props.

Example C100_example :
  set_iter (set_of exg_ops '1) = [3 --> 4; 7 --> 7] /\ set_iter (set_of exg_ops '2) = [3 --> 7] /\ set_iter (set_of exg_ops '9) = [2 --> 4] /\
  set_contains_point (set_of exg_ops '9) '3 = Val true /\ identifiers_at_point (grun exg_ops) '3 = Val ['1; '2; '9].
Proof. repeat split; vm_compute; reflexivity. Qed.
Example C101_example :
  set_iter (all_of exg_ops) = [2 --> 7] /\ set_iter (all_but exg_ops '2) = [2 --> 4; 7 --> 7] /\
  set_gaps_untrimmed (all_of exg_ops) (0 --> 9 : Interval u8) = Val [0 --> 1; 8 --> 255] /\
  gaps_no_identifier (grun exg_ops) (0 --> 9 : Interval u8) = Val [0 --> 1; 8 --> 255] /\
  set_gaps_untrimmed (all_but exg_ops '2) (1 --> 6 : Interval u8) = Val [0 --> 1; 5 --> 6] /\
  gaps_with_identifier (grun exg_ops) '2 (1 --> 6 : Interval u8) = Val [0 --> 1; 5 --> 6].
Proof. repeat split; vm_compute; reflexivity. Qed.

Print Assumptions C100_identifier_is_a_set.
Print Assumptions C100_intervals.
Print Assumptions C101_gaps_no_identifier.
Print Assumptions C101_gaps_with_identifier.
