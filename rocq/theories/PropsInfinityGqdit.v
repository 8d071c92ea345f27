(** * PropsInfinityGqdit: the README's wrapper for pretending to have an infinity, as the
      points of a Gqdit (C134). *)
From Coq Require Import List ZArith Bool Lia.
From Verif Require Import Base BTree UtilsModel IntervalModel NoditModel GqditModel GqditOps Spec EqualOps CompleteOps InfinityOps GqditTransportOps InstancesModel Instances
  PointFacts IntervalFacts NoditFacts GqditFacts GqditProofs GqditGaps GqditAlgebra GqditTransport CompleteProofs PropsInfinity PropsGqditOrder.
Import ListNotations.
Open Scope nat_scope.

Section Props.
  Context {T : Type} `{PL : PointLaws T} {OL : OrdLaws T}.
  Context {D : Type} {OD : Ord D} {OLD : OrdLaws D}.
  Notation W := (WithInfinity T).
  (** The calls of [os'] are those of [os] with all points wrapped in [Finite]. *)
  Notation wrapped os os' := (Forall2 (gop_sent (@Finite T) (fun d : D => d)) os os').

  Lemma finite_order : keeps_order (@Finite T).
  Proof. intros x y. reflexivity. Qed.
  Lemma self_order : keeps_order (fun d : D => d).
  Proof. intros x y. reflexivity. Qed.
  Lemma finite_end {Q R} {IQ : InclusiveInterval T Q} {IR : InclusiveInterval W R} (q : Q) (r : R) : ends_sent (@Finite T) q r -> ~ covers r Infinity.
  Proof.
    intros [_ B] [_ A]. destruct (iend r) as [e|]; [destruct (inf_le _ A)|discriminate B].
  Qed.
  Lemma adds_inf : forall (o : gop T (Interval T) D) (o' : gop W (Interval W) D), gop_sent (@Finite T) (fun d => d) o o' -> forall d, ~ adds o' d Infinity.
  Proof.
    fix IH 3. intros o o' S d X. destruct S as [ids k l C|ids Q IQ R IR q r C|Q IQ R IR q r C|os os' F]; inversion X; subst.
    - exact (finite_end k l C ltac:(assumption)).
    - match goal with A : added _ _ _ |- _ => inversion A as [os1 o1 os2 d1 p1 Y _ E]; subst d1 p1 end.
      assert (G : forall o2, In o2 os' -> ~ adds o2 d Infinity).
      { clear - IH F. induction F as [|x y l l' S F IHF]; intros o2 Hi; [destruct Hi|]. destruct Hi as [<-|Hi]; [apply (IH x y S)|apply IHF, Hi]. }
      apply (G o1); [rewrite <- E; apply in_elt|exact Y].
  Qed.

  Context (os : list (gop T (Interval T) D)) (os' : list (gop W (Interval W) D)) (Hos : wrapped os os').
  Lemma nobody_inf d : ~ has_id (grun os') Infinity d.
  Proof.
    intros X. apply grun_has in X. inversion X as [os1 o1 os2 d1 p1 Y _ E]. subst d1 p1.
    assert (G : forall o2, In o2 os' -> ~ adds o2 d Infinity).
    { clear - Hos. induction Hos as [|x y l l' S F IHF]; intros o2 Hi; [destruct Hi|]. destruct Hi as [<-|Hi]; [apply (adds_inf x y S)|apply IHF; [exact F|exact Hi]]. }
    apply (G o1); [rewrite <- E; apply in_elt|exact Y].
  Qed.

  Lemma carried_gaps (P : T -> Prop) (P' : W -> Prop) (q : Interval T) (l : list (Interval T)) : (forall x, P' (Finite x) <-> P x) -> P' Infinity ->
    lists_max_runs P (fun j => overlap j q) l -> lists_max_runs P' (fun j => overlap j (wrap q)) (map wrap_gap l).
  Proof.
    intros PP Pi. apply lists_carried.
    - exact PP.
    - apply gap_covers.
    - intros i. apply runs_up; [exact PP|exact Pi].
    - intros j _ ([x|] & A & B); [exists x; exact A|destruct (wrap_inf _ B)].
    - intros i. apply wrap_overlap_gap.
    - intros s j E _ ([x|] & A & B); [|destruct (wrap_inf _ B)]. exists x. split; [apply (lower_covers s j x E), A|exact B].
  Qed.
  Lemma ids_finite p : identifiers_at_point (grun os') (Finite p) = identifiers_at_point (grun os) p.
  Proof.
    pose proof (C99_identifiers Finite (fun d => d) os os' p finite_order self_order Hos) as A.
    destruct (identifiers_at_point (grun os) p) as [s|], (identifiers_at_point (grun os') (Finite p)) as [s'|]; cbn in A; try contradiction; [|reflexivity].
    rewrite A, map_id. reflexivity.
  Qed.
  Lemma ids_inf : identifiers_at_point (grun os') Infinity = Val [].
  Proof.
    destruct (ids_maps (grun os') Infinity (grun_GWF os')) as (s & -> & M & _). f_equal. destruct s as [|d s]; [reflexivity|].
    exfalso. apply (nobody_inf d). apply (has_id_in (grun os') Infinity (d :: s) d (grun_GWF os') M). left. reflexivity.
  Qed.
  Lemma gqdit_gaps d (q : Interval T) :
    gaps_no_identifier (grun os') (wrap q) = omap (map wrap_gap) (gaps_no_identifier (grun os) q) /\
    gaps_with_identifier (grun os') d (wrap q) = omap (map wrap_gap) (gaps_with_identifier (grun os) d q).
  Proof.
    destruct (valid_dec q) as [Vq|Nq].
    - pose proof (proj2 (wrap_valid q) Vq) as Vq'. split.
      + destruct (gaps_no_spec (grun os) q (grun_GWF os) Vq) as (l & -> & L). destruct (gaps_no_spec (grun os') (wrap q) (grun_GWF os') Vq') as (l' & -> & L').
        cbn. f_equal. apply (lists_same interval_determined _ _ _ _ L'). revert L. apply carried_gaps.
        * intros x. apply (free_sent Finite (fun d => d) finite_order self_order os os' Hos).
        * intros d'. apply nobody_inf.
      + destruct (gaps_with_spec (grun os) d q (grun_GWF os) Vq) as (l & -> & L).
        destruct (gaps_with_spec (grun os') d (wrap q) (grun_GWF os') Vq') as (l' & -> & L').
        cbn. f_equal. apply (lists_same interval_determined _ _ _ _ L'). revert L. apply carried_gaps.
        * intros x. apply (free_but_sent Finite (fun d => d) finite_order self_order os os' Hos d x).
        * intros d' X. destruct (nobody_inf _ X).
    - assert (Nq' : ~ valid (wrap q)) by (intros X; apply Nq, wrap_valid, X).
      rewrite !gaps_no_bad, !gaps_with_bad by assumption. split; reflexivity.
  Qed.
End Props.

Section Theorems.
  Context {T : Type} `{PL : PointLaws T} {OL : OrdLaws T}.
  Context {D : Type} {OD : Ord D} {OLD : OrdLaws D}.
  Notation W := (WithInfinity T).
  Notation wrapped os os' := (Forall2 (gop_sent (@Finite T) (fun d : D => d)) os os').

  (** ** C134 for a Gqdit: every point has the identifiers it has over [T], and [Infinity] none. *)
  Theorem C134_gqdit_identifiers : forall (os : list (gop T (Interval T) D)) (os' : list (gop W (Interval W) D)), wrapped os os' -> forall p,
    identifiers_at_point (grun os') (Finite p) = identifiers_at_point (grun os) p /\
    identifiers_at_point (grun os') Infinity = Val [].
  Proof. intros os os' Hos p. split; [apply ids_finite, Hos|apply (ids_inf os os' Hos)]. Qed.
  (** The gaps are those over [T], going on to [Infinity] where those go up to [T::MAX]. *)
  Theorem C134_gqdit_gaps : forall (os : list (gop T (Interval T) D)) (os' : list (gop W (Interval W) D)), wrapped os os' -> forall d (q : Interval T),
    gaps_no_identifier (grun os') (wrap q) = omap (map wrap_gap) (gaps_no_identifier (grun os) q) /\
    gaps_with_identifier (grun os') d (wrap q) = omap (map wrap_gap) (gaps_with_identifier (grun os) d q).
  Proof. intros os os' Hos d q. exact (gqdit_gaps os os' Hos d q). Qed.
End Theorems.

Example C134_gqdit_ex :
  let ops : list (gop u8 (Interval u8) u8) :=
    [GInsert ['1; '2] (1 --> 9); GCutWith ['2] (3 --> 4 : Interval u8); GAppend [GInsert ['3] (20 --> 30); GCutAll (25 --> 26 : Interval u8)]] in
  let ops' : list (gop (WithInfinity u8) (Interval (WithInfinity u8)) u8) :=
    [GInsert ['1; '2] (wrap (1 --> 9 : Interval u8)); GCutWith ['2] (wrap (3 --> 4 : Interval u8));
     GAppend [GInsert ['3] (wrap (20 --> 30 : Interval u8)); GCutAll (wrap (25 --> 26 : Interval u8))]] in
  Forall2 (gop_sent (@Finite u8) (fun d => d)) ops ops' /\
  identifiers_at_point (grun ops') (Finite '5) = Val ['1; '2] /\
  gaps_no_identifier (grun ops) (8 --> 40 : Interval u8) = Val [(10 --> 19 : Interval u8); (25 --> 26 : Interval u8); (31 --> 255 : Interval u8)] /\
  gaps_no_identifier (grun ops') (wrap (8 --> 40 : Interval u8)) =
    Val [wrap (10 --> 19 : Interval u8); wrap (25 --> 26 : Interval u8); mkInterval (Finite '31) Infinity] /\
  gaps_with_identifier (grun ops') '1 (wrap (4 --> 4 : Interval u8)) = Val [wrap (3 --> 4 : Interval u8)].
Proof.
  intros ops ops'. split; [|vm_compute; auto].
  repeat apply Forall2_cons; [| | |apply Forall2_nil].
  - apply (gs_insert Finite (fun d => d) ['1; '2]). split; reflexivity.
  - apply (gs_cut_with Finite (fun d => d) ['2]). split; reflexivity.
  - apply gs_append. repeat apply Forall2_cons; [| |apply Forall2_nil].
    + apply (gs_insert Finite (fun d => d) ['3]). split; reflexivity.
    + apply gs_cut_all. split; reflexivity.
Qed.

Print Assumptions C134_gqdit_identifiers.
Print Assumptions C134_gqdit_gaps.
