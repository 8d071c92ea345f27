(** * PropsUsers: several users of one Gqdit (C125). *)
From Coq Require Import List ZArith Bool Lia.
From Verif Require Import Base BTree UtilsModel IntervalModel NoditModel GqditModel GqditOps LocalOps Spec InstancesModel Instances
  PointFacts IntervalFacts NoditFacts GqditFacts GqditProofs GqditGaps GqditAlgebra PropsGqdit PropsAlgebra LocalCommute.
Import ListNotations.
Open Scope nat_scope.

Section Users.
  Context {I : Type} `{PL : PointLaws I}.
  Context {K : Type} {IK : InclusiveInterval I K} {IL : IntervalLaws I K}.
  Context {D : Type} {OD : Ord D} {OL : OrdLaws D}.
  Implicit Types (g h : Gqdit K D) (p : I) (d : D) (o : gop I K D) (cs : list (bool * gop I K D)).

  (** The call adds or removes [d] at [p]. *)
  Definition concerns o d p : Prop := adds o d p \/ removes o d p.
  (** The calls of the two users never concern the same identifier at the same point:
      each has identifiers of their own, or a part of the points, or any mixture. *)
  Definition separate cs : Prop := forall o o' d p, In o (owned true cs) -> In o' (owned false cs) ->
    ~ (concerns o d p /\ concerns o' d p).

  Lemma has_dec g p d : GWF g -> has_id g p d \/ ~ has_id g p d.
  Proof.
    intros G. destruct (ids_maps g p G) as (s & _ & M & _). rewrite (has_id_in g p s d G M). apply id_dec.
  Qed.
  Lemma concerns_dec o d p : concerns o d p \/ ~ concerns o d p.
  Proof.
    destruct (step_ok o gnew gnew_GWF) as [G M]. specialize (M p d). pose proof (gnew_free (K := K) p d) as N.
    assert (R : removes o d p \/ ~ removes o d p).
    { destruct o as [l k|l Q IQ q|Q IQ q|os]; cbn; [tauto| | |tauto].
      - pose proof (id_dec d l). pose proof (covers_dec q p). tauto.
      - apply covers_dec. }
    unfold concerns. destruct (has_dec _ p d G); tauto.
  Qed.
  Lemma some_concerns (os : list (gop I K D)) d p : (exists o, In o os /\ concerns o d p) \/ (forall o, In o os -> ~ concerns o d p).
  Proof.
    induction os as [|o os IH]; [right; intros o []|]. destruct (concerns_dec o d p) as [C|C]; [left; exists o; cbn; auto|].
    destruct IH as [(o' & Hi & C')|N]; [left; exists o'; cbn; auto|right]. intros o' [<-|Hi]; auto.
  Qed.
  Lemma gsteps_GWF (os : list (gop I K D)) g : GWF g -> GWF (gsteps os g).
  Proof.
    revert g. induction os as [|o os IH]; intros g G; [exact G|]. cbn. apply IH, step_ok, G.
  Qed.
  Lemma unconcerned (os : list (gop I K D)) g d p : GWF g -> (forall o, In o os -> ~ concerns o d p) -> (has_id (gsteps os g) p d <-> has_id g p d).
  Proof.
    revert g. induction os as [|o os IH]; intros g G N; [reflexivity|]. change (gsteps (o :: os) g) with (gsteps os (gstep o g)). destruct (step_ok o g G) as [G' M].
    rewrite IH; [|exact G'|intros o' Hi; apply N; right; exact Hi]. rewrite M. specialize (N o (or_introl eq_refl)). unfold concerns in N. tauto.
  Qed.
  Lemma as_alone cs b d p : forall g h, GWF g -> GWF h -> (has_id g p d <-> has_id h p d) ->
    (forall o, In o (owned (negb b) cs) -> ~ concerns o d p) ->
    (has_id (gsteps (map snd cs) g) p d <-> has_id (gsteps (owned b cs) h) p d).
  Proof.
    induction cs as [|[b' o] cs IH]; intros g h G H1 E N; [exact E|]. cbn [map snd]. change (gsteps (o :: map snd cs) g) with (gsteps (map snd cs) (gstep o g)). rewrite owned_cons.
    destruct (step_ok o g G) as [G' M]. destruct (step_ok o h H1) as [H1' M'].
    destruct (Bool.eqb_spec b' b) as [->|Nb].
    - change (gsteps (o :: owned b cs) h) with (gsteps (owned b cs) (gstep o h)). rewrite owned_cons, eqb_negb2 in N. apply IH; [exact G'|exact H1'| |exact N]. rewrite M, M', E. reflexivity.
    - assert (X : Bool.eqb b' (negb b) = true) by (destruct b, b'; cbn; congruence). rewrite owned_cons, X in N.
      apply IH; [exact G'|exact H1| |intros o' Hi; apply N; right; exact Hi].
      rewrite M, <- E. specialize (N o (or_introl eq_refl)). unfold concerns in N. tauto.
  Qed.
  Lemma separate_dec cs d p : separate cs -> exists b, forall o, In o (owned (negb b) cs) -> ~ concerns o d p.
  Proof.
    intros S. destruct (some_concerns (owned true cs) d p) as [(o & Hi & C)|N]; [exists true|exists false; exact N].
    intros o' Hi' C'. exact (S o o' d p Hi Hi' (conj C C')).
  Qed.

  (** ** C125: what concerns one user is as if the other had made no calls, ... *)
  Theorem C125_as_alone : forall g cs b o d p, greachable g -> separate cs -> In o (owned b cs) -> concerns o d p ->
    (has_id (gsteps (map snd cs) g) p d <-> has_id (gsteps (owned b cs) g) p d).
  Proof.
    intros g cs b o d p G S Ho C. apply greachable_GWF in G. apply as_alone; [exact G|exact G|reflexivity|].
    intros o' Hi C'. destruct b; cbn in Hi; [exact (S o o' d p Ho Hi (conj C C'))|exact (S o' o d p Hi Ho (conj C' C))].
  Qed.
  (** ... the order in which they took turns does not matter, ... *)
  Theorem C125_one_after_the_other : forall {OLI : OrdLaws I} g cs, greachable g -> separate cs ->
    gsteps (map snd cs) g = gsteps (owned true cs ++ owned false cs) g /\
    gsteps (map snd cs) g = gsteps (owned false cs ++ owned true cs) g.
  Proof.
    intros OLI g cs G S. apply greachable_GWF in G.
    assert (A : forall b, gsteps (map snd cs) g = gsteps (owned b cs ++ owned (negb b) cs) g).
    { intros b. apply GWF_ext; [apply gsteps_GWF, G|apply gsteps_GWF, G|]. intros p d.
      destruct (separate_dec cs d p S) as [b' N]. rewrite (as_alone cs b' d p g g G G (iff_refl _) N).
      unfold gsteps at 2. rewrite fold_left_app. destruct (Bool.eqb_spec b b') as [->|Nb].
      - symmetry. apply (unconcerned (owned (negb b') cs) (gsteps (owned b' cs) g)); [apply gsteps_GWF, G|exact N].
      - assert (E : b = negb b') by (destruct b, b'; cbn; congruence). subst b. rewrite negb_involutive.
        assert (X : forall os g' h', GWF g' -> GWF h' -> (has_id g' p d <-> has_id h' p d) -> (has_id (gsteps os g') p d <-> has_id (gsteps os h') p d)).
        { intros os. induction os as [|o os IH]; intros g' h' G1 G2 E; [exact E|].
          change (has_id (gsteps os (gstep o g')) p d <-> has_id (gsteps os (gstep o h')) p d).
          destruct (step_ok o g' G1) as [G1' M1], (step_ok o h' G2) as [G2' M2]. apply IH; [exact G1'|exact G2'|]. rewrite M1, M2, E. reflexivity. }
        apply (X (owned b' cs)); [exact G|apply gsteps_GWF, G|]. symmetry. apply unconcerned; [exact G|exact N]. }
    exact (conj (A true) (A false)).
  Qed.
  (** ... and the result is the append of what each makes alone. *)
  Theorem C125_append_of_both : forall {OLI : OrdLaws I} cs, separate cs ->
    grun (map snd cs) = fst (fst (append (grun (owned true cs)) (grun (owned false cs)))).
  Proof.
    intros OLI cs S. destruct (app_all _ _ (grun_GWF (owned true cs)) (grun_GWF (owned false cs))) as [G M].
    apply GWF_ext; [apply grun_GWF|exact G|]. intros p d. rewrite M.
    destruct (separate_dec cs d p S) as [b N]. unfold grun. rewrite (as_alone cs b d p gnew gnew gnew_GWF gnew_GWF (iff_refl _) N).
    pose proof (unconcerned _ gnew d p gnew_GWF N) as U. pose proof (gnew_free (K := K) p d). destruct b; cbn in U; tauto.
  Qed.
End Users.

(** A user's own reservations do not change where they could go: [gaps_with_identifier(d, q)]
    after calls that only concern [d]. *)
Section Own.
  Context {I : Type} `{PL : PointLaws I} {OLI : OrdLaws I}.
  Context {D : Type} {OD : Ord D} {OL : OrdLaws D}.
  Theorem C125_own_calls_keep_own_gaps : forall (g : Gqdit (Interval I) D) (os : list (gop I (Interval I) D)) (d : D) (q : Interval I),
    greachable g -> (forall o d' p, In o os -> concerns o d' p -> d' = d) ->
    gaps_with_identifier (gsteps os g) d q = gaps_with_identifier g d q.
  Proof.
    intros g os d q G C. destruct (valid_dec q) as [Vq|Nv].
    - pose proof (greachable_GWF g G) as W. pose proof (gsteps_GWF os g W) as W'.
      set (r := mkInterval MIN MAX : Interval I). assert (U : forall p, covers r p) by (intros p; apply covers_rk; unfold IntervalFacts.lo, IntervalFacts.hi; cbn; split; [apply rk_min|apply rk_max]).
      rewrite (C87_gaps_with_is_gaps_no_Interval g d q r G Vq U), (C87_gaps_with_is_gaps_no_Interval (gsteps os g) d q r (GWF_greachable _ W') Vq U).
      f_equal. destruct (cutw_all [d] r g W) as [X M], (cutw_all [d] r (gsteps os g) W') as [X' M'].
      apply GWF_ext; [exact X'|exact X|]. intros p d'. rewrite M, M'. specialize (U p).
      destruct (id_dec d' [d]) as [Hd|Hd]; [tauto|]. rewrite (unconcerned os g d' p W); [tauto|].
      intros o Ho Co. apply Hd. left. symmetry. exact (C o d' p Ho Co).
    - unfold gaps_with_identifier. rewrite iip_invalid by exact Nv. reflexivity.
  Qed.
End Own.

(** ** Instances of the hypotheses: one user inserts 1, the other 2, and only the first
    cuts everything, where the second never goes. *)
Definition turns : list (bool * gop u8 (Interval u8) u8) :=
  [(true, GInsert ['1] (3 --> 9)); (false, GInsert ['2] (5 --> 12)); (true, GCutWith ['1] (5 --> 6 : Interval u8));
   (false, GAppend [GInsert ['2] (20 --> 30)]); (true, GCutAll (0 --> 4 : Interval u8))].
Example C125_separate_example : separate turns.
Proof.
  intros o o' d p Ho Ho' [C C'].
  assert (A : d = '1 \/ covers (0 --> 4 : Interval u8) p).
  { cbn in Ho. destruct Ho as [<-|[<-|[<-|[]]]]; destruct C as [C|C]; try (inversion C; fail); cbn in C.
    - inversion C as [ids k d1 p1 Hd Hp E1 E2 E3|]. destruct Hd as [<-|[]]. left. reflexivity.
    - destruct C as [[<-|[]] _]. left. reflexivity.
    - right. exact C. }
  assert (B : d = '2 /\ (5 <= ival p)%Z).
  { cbn in Ho'. destruct Ho' as [<-|[<-|[]]]; destruct C' as [X|X]; try (destruct X; fail).
    - inversion X as [ids k d1 p1 Hd [Hp _] E1 E2 E3|]. destruct Hd as [<-|[]]. split; [reflexivity|exact Hp].
    - inversion X as [|os d1 p1 Y E1 E2 E3]. inversion Y as [os1 o1 os2 d2 p2 Z F E4 E5 E6].
      destruct os1 as [|? [|? ?]]; [|discriminate E4|discriminate E4]. injection E4 as -> ->.
      inversion Z as [ids k d3 p3 Hd [Hp _] E7 E8 E9|]. destruct Hd as [<-|[]]. split; [reflexivity|].
      assert (20 <= ival p)%Z by exact Hp. lia. }
  destruct B as [-> B]. destruct A as [A|[_ A]]; [discriminate A|]. assert (ival p <= 4)%Z by exact A. lia.
Qed.
Example C125_result : grun (map snd turns) = grun (owned true turns ++ owned false turns) /\
  gaps_with_identifier (gsteps [GInsert ['1] (40 --> 50); GCutWith ['1] (3 --> 4 : Interval u8)] (grun (map snd turns))) '1 (7 --> 41) =
    gaps_with_identifier (grun (map snd turns)) '1 (7 --> 41) /\
  gaps_with_identifier (grun (map snd turns)) '1 (7 --> 41) = Val [13 --> 19; 31 --> 255 : Interval u8].
Proof. vm_compute. repeat split. Qed.

Print Assumptions C125_as_alone.
Print Assumptions C125_one_after_the_other.
Print Assumptions C125_append_of_both.
Print Assumptions C125_own_calls_keep_own_gaps.
