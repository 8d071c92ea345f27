(** * PropsEffectGqdit: [Gqdit] with user code of any kind (C160). *)
From Coq Require Import List ZArith Bool Arith Lia.
From Verif Require Import Base BTree UtilsModel IntervalModel NoditModel NoditOps GqditModel GqditOps InstancesModel Instances Spec TreeShape
  NoditFacts NoditInv GqditFacts GqditProofs EffectModel EffectOps EffectFacts EffectRight EffectGqditModel EffectGqditOps EffectGqditFacts EffectGqditRight PropsEffect LooksMoreFacts.
Import ListNotations.
Open Scope nat_scope.

(** ** C160 *)
(** *** Whatever the user's code does *)
Section Any.
  Context {W I K D : Type} `{DiscreteFinite I} (P : point_code W I) (ik : interval_code W I K) (from : Interval I -> user W K).
  Context (J : id_code W D) (shape : W -> list D -> tree D unit) (overlaps_k : K -> K -> user W bool) (i_overlaps : Interval I -> K -> user W bool).
  Implicit Types (g : Gqdit K D) (w : W).
  Notation trees := (nat -> nat -> BTreeMap K (list D) -> tree K (list D)).

  Theorem C160_any_new : forall (T : trees) w g w', (forall i, faithful (T i)) -> gqdit_new_e P ik from T w = (Val g, w') -> exists k, g = [(k, [])].
  Proof. exact (gqdit_new_any P ik from). Qed.
  (** Every set held after the call was held before it, or is a clone of one held before, or
      one held before with what the method does to it; also if the call panics. *)
  Theorem C160_any_insert : forall (T : trees) identifiers k g w g' o w', faithful_sets shape -> (forall i, faithful (T i)) ->
    gqdit_insert_e P ik from J shape overlaps_k T identifiers k g w = ((g', o), w') ->
    forall k' s, In (k', s) g' -> set_from J g (extended J identifiers) s.
  Proof. intros T ids k g w g' o w' SF. exact (gqdit_insert_any P ik from J shape SF overlaps_k T ids k g w g' o w'). Qed.
  Theorem C160_any_cut_with_identifiers : forall {Q} (iq : interval_code W I Q) k_overlaps (T : trees) identifiers q g w g' o w', (forall i, faithful (T i)) ->
    cut_with_identifiers_e P ik from J shape overlaps_k iq k_overlaps T identifiers q g w = ((g', o), w') ->
    forall k s, In (k, s) g' -> set_from J g (fun old s => within s old) s.
  Proof. intros Q. exact (cut_with_any P ik from J shape overlaps_k (Q := Q)). Qed.
  Theorem C160_any_cut_all_identifiers : forall {Q} (iq : interval_code W I Q) k_overlaps (T : trees) q g w g' o w', (forall i, faithful (T i)) ->
    cut_all_identifiers_e P ik from J overlaps_k iq k_overlaps T q g w = ((g', o), w') ->
    forall k s, In (k, s) g' -> set_from J g (fun _ s => s = []) s.
  Proof. intros Q. exact (cut_all_any P ik from J overlaps_k (Q := Q)). Qed.
  (** A run of entries is taken out of [other]; the identifiers of [self] are its own, those of
      [other], and clones. *)
  Theorem C160_any_append : forall To (T : nat -> trees) g other w g' other' o w', faithful_sets shape -> (forall m, entries (To m) = m) -> (forall j i, faithful (T j i)) ->
    append_e P ik from J shape overlaps_k i_overlaps To T g other w = ((g', other', o), w') ->
    (exists a out b, other = a ++ out ++ b /\ other' = a ++ b) /\
    forall k s d, In (k, s) g' -> In d s -> exists k0 s0 d0, In (k0, s0) (g ++ other) /\ In d0 s0 /\ id_descends J d0 d.
  Proof.
    intros To T g other w g' other' o w' SF TF TF' E. split.
    - apply append_any in E; [|exact TF]. destruct E as [(_ & a & out & b & X & Y)|(a & out & b & w1 & X & Y & _)]; eauto.
    - intros k s d Hi Hd. pose proof (append_ids P ik from J shape SF overlaps_k i_overlaps To T (flat_map snd (g ++ other)) g other w g' other' o w' TF TF') as A.
      assert (Z : forall m : Gqdit K D, incl m (g ++ other) -> from_ids J (flat_map snd (g ++ other)) m).
      { intros m L k0 s0 d0 H0 H1. exists d0. split; [|constructor]. apply in_flat_map. exists (k0, s0). auto. }
      destruct (A (Z g (incl_appl _ (incl_refl g))) (Z other (incl_appr _ (incl_refl other))) E) as [A1 _]. destruct (A1 k s d Hi Hd) as (d0 & H0 & H1).
      apply in_flat_map in H0. destruct H0 as ([k0 s0] & H0 & H2). eauto 6.
  Qed.
  (** No identifier is invented: whatever the calls, each one stored is one given to a call of
      [insert], or was made from one by cloning. *)
  Theorem C160_any_history : forall T cs w g w', faithful_sets shape -> (forall path, faithful (T path)) ->
    ghistory P ik from J shape overlaps_k i_overlaps T cs w = (Val g, w') ->
    forall k s d, In (k, s) g -> In d s -> exists d', In d' (flat_map ids_given cs) /\ id_descends J d' d.
  Proof. intros T cs w g w' SF TF. exact (ghistory_ids P ik from J shape SF overlaps_k i_overlaps T TF cs w g w'). Qed.
  (** No identifiers, or an interval said to be invalid: nothing changes, and nobody is asked anything else. *)
  Theorem C160_any_nothing : forall {Q} (iq : interval_code W I Q) k_overlaps (T : trees) identifiers k q g w,
    (forall w', e_valid ik k w = (Val false, w') -> gqdit_insert_e P ik from J shape overlaps_k T identifiers k g w = ((g, Panic), w')) /\
    (forall w', e_valid ik k w = (Val true, w') -> gqdit_insert_e P ik from J shape overlaps_k T [] k g w = ((g, Val tt), w')) /\
    (forall w', e_valid iq q w = (Val false, w') -> cut_with_identifiers_e P ik from J shape overlaps_k iq k_overlaps T identifiers q g w = ((g, Panic), w')) /\
    (forall w', e_valid iq q w = (Val true, w') -> cut_with_identifiers_e P ik from J shape overlaps_k iq k_overlaps T [] q g w = ((g, Val tt), w')) /\
    (forall w', e_valid iq q w = (Val false, w') -> cut_all_identifiers_e P ik from J overlaps_k iq k_overlaps T q g w = ((g, Panic), w')).
  Proof.
    intros. unfold gqdit_insert_e, cut_with_identifiers_e, cut_all_identifiers_e, mbind, invalid_interval_panic_e, ubind.
    repeat split; intros w' ->; reflexivity.
  Qed.
  Theorem C160_any_identifiers_at_point : forall (t : tree K (list D)) p w s w', identifiers_at_point_e P ik from J t p w = (Val s, w') ->
    s = [] \/ exists k old, In (k, old) (entries t) /\ set_clone_of J old s.
  Proof. exact (at_point_any P ik from J). Qed.
  Theorem C160_any_gaps_no_identifier : forall {Q} (iq : interval_code W I Q) (t : tree K (list D)) q w l w', gaps_no_identifier_e P ik iq t q w = (Val l, w') ->
    within l (map fst (filter (fun kv => match snd kv with [] => true | _ => false end) (entries t))).
  Proof. intros Q. exact (gaps_no_any P ik (Q := Q)). Qed.
End Any.

(** *** User code with side effects and the right answers *)
Section Right.
  Context {W I : Type} `{PL : PointLaws I}.
  Context {K : Type} {IK : InclusiveInterval I K} {IL : IntervalLaws I K}.
  Context {D : Type} {OD : Ord D} {OL : OrdLaws D}.
  Context (P : point_code W I) (ik : interval_code W I K) (from : Interval I -> user W K).
  Context (J : id_code W D) (shape : W -> list D -> tree D unit) (overlaps_k : K -> K -> user W bool) (i_overlaps : Interval I -> K -> user W bool) (kc : K -> I -> user W bool).
  Implicit Types (g : Gqdit K D) (w : W).
  Notation trees := (nat -> nat -> BTreeMap K (list D) -> tree K (list D)).
  Definition right_code : Prop :=
    right_points P /\ right_intervals ik /\ (forall i, answers (from i) (Val (ifrom i))) /\ right_ids J /\ faithful_sets shape /\
    right_overlaps overlaps_k /\ right_overlaps i_overlaps /\ (forall k p, answers (kc k p) (Val (contains_point k p))).

  (** The same outcome as without side effects. *)
  Theorem C160_right_queries : forall {Q} {IQ : InclusiveInterval I Q} (iq : interval_code W I Q) g t d p q w, right_code -> right_intervals iq -> greachable g -> entries t = g ->
    fst (gaps_no_identifier_e P ik iq t q w) = gaps_no_identifier g q /\
    fst (gaps_with_identifier_e P ik from J shape kc iq t d q w) = gaps_with_identifier g d q /\
    fst (identifiers_at_point_e P ik from J t p w) = identifiers_at_point g p.
  Proof.
    intros Q IQ iq g t d p q w (RP & RK & RF & RJ & SF & _ & _ & RKC) RQ R E. apply greachable_GWF in R. split; [|split].
    - apply r_gaps_no; assumption.
    - apply r_gaps_with; assumption.
    - apply r_at_point; assumption.
  Qed.
  Theorem C160_right_insert : forall (T : trees) identifiers k g w, right_code -> (forall i, faithful (T i)) -> greachable g ->
    fst (gqdit_insert_e P ik from J shape overlaps_k T identifiers k g w) = gqdit_insert identifiers k g.
  Proof. intros T ids k g w (RP & RK & RF & RJ & SF & RO & _ & _) TF R. apply greachable_GWF in R. apply r_gqdit_insert; assumption. Qed.
  Theorem C160_right_cut_with_identifiers : forall {Q} {IQ : InclusiveInterval I Q} (iq : interval_code W I Q) k_overlaps (T : trees) identifiers q g w,
    right_code -> right_intervals iq -> right_overlaps k_overlaps -> (forall i, faithful (T i)) -> is_set identifiers -> greachable g ->
    fst (cut_with_identifiers_e P ik from J shape overlaps_k iq k_overlaps T identifiers q g w) = cut_with_identifiers identifiers q g.
  Proof. intros Q IQ iq ko T ids q g w (RP & RK & RF & RJ & SF & RO & _ & _) RQ RKO TF Si R. apply greachable_GWF in R. apply r_cut_with; assumption. Qed.
  Theorem C160_right_cut_all_identifiers : forall {Q} {IQ : InclusiveInterval I Q} (iq : interval_code W I Q) k_overlaps (T : trees) q g w,
    right_code -> right_intervals iq -> right_overlaps k_overlaps -> (forall i, faithful (T i)) -> greachable g ->
    fst (cut_all_identifiers_e P ik from J overlaps_k iq k_overlaps T q g w) = cut_all_identifiers q g.
  Proof. intros Q IQ iq ko T q g w (RP & RK & RF & RJ & SF & RO & _ & _) RQ RKO TF R. apply greachable_GWF in R. apply r_cut_all; assumption. Qed.
  Theorem C160_right_append : forall To (T : nat -> trees) g other w, right_code -> (forall m, entries (To m) = m) -> (forall j i, faithful (T j i)) -> greachable g -> greachable other ->
    fst (append_e P ik from J shape overlaps_k i_overlaps To T g other w) = append g other.
  Proof.
    intros To T g other w (RP & RK & RF & RJ & SF & RO & RIO & _) TF TF' R Ro. apply greachable_GWF in R. apply greachable_GWF in Ro.
    apply r_append; try assumption; [exact (GWF_WF _ Ro)|exact (GWF_sets _ Ro)].
  Qed.
  (** All histories: no panic of [new], and the same [Gqdit]. *)
  Theorem C160_right_history : forall T cs w, right_code -> (forall path, faithful (T path)) -> Forall gives_sets cs ->
    fst (ghistory P ik from J shape overlaps_k i_overlaps T cs w) = Val (grun (map as_gop cs)).
  Proof. intros T cs w (RP & RK & RF & RJ & SF & RO & RIO & _) TF Fc. apply r_ghistory; assumption. Qed.
End Right.

(** *** Examples: [u8], the world counts the questions *)
Definition counting_from : Interval u8 -> user nat (Interval u8) := fun i => tick (Val (ifrom i)).
Definition counting_d : id_code nat u8 := {| i_cmp := fun x y => tick (Val (cmp x y)); i_eq := fun x y => tick (Val (eqb x y)); i_clone := fun x => tick (Val x) |}.
Definition counting_kc : Interval u8 -> u8 -> user nat bool := fun k p => tick (Val (contains_point k p)).
Definition ex_sets (w : nat) (s : list u8) : tree u8 unit := some_shapes w (map (fun d => (d, tt)) s).
Definition ex_trees : list nat -> nat -> BTreeMap (Interval u8) (list u8) -> tree (Interval u8) (list u8) := fun path => some_shapes.
(** Identifiers whose clones are their successors; that say everything is less; that cannot be cloned. *)
Definition odd_d : id_code nat u8 := {| i_cmp := fun x y => tick (Val (cmp x y)); i_eq := fun x y => tick (Val (eqb x y)); i_clone := fun x => tick (unwrap (up x)) |}.
Definition lying_d : id_code nat u8 := {| i_cmp := fun _ _ => tick (Val Lt); i_eq := fun _ _ => tick (Val true); i_clone := fun x => tick (Val x) |}.
Definition dead_d : id_code nat u8 := {| i_cmp := fun x y => tick (Val (cmp x y)); i_eq := fun x y => tick (Val (eqb x y)); i_clone := fun _ => tick Panic |}.
Definition ex_gcalls : list (gcall (Interval u8) u8) :=
  [CallInsert ['1; '2] (10 --> 20); CallCutWith ['1] (15 --> 30); CallAppend [CallInsert ['3] (18 --> 40); CallCutAll (25 --> 30)]; CallCutAll (12 --> 13)].
Definition ex_gqdit : Gqdit (Interval u8) u8 := grun (map as_gop ex_gcalls).
Example C160_example :
  right_code counting counting_i counting_from counting_d ex_sets counting_o counting_o counting_kc /\ (forall path, faithful (ex_trees path)) /\
  Forall gives_sets ex_gcalls /\
  ghistory counting counting_i counting_from counting_d ex_sets counting_o counting_o ex_trees ex_gcalls 0 = (Val ex_gqdit, 1264) /\
  ex_gqdit = [(0 --> 9, []); (10 --> 11, ['1; '2]); (12 --> 13, []); (14 --> 14, ['1; '2]); (15 --> 17, ['2]); (18 --> 20, ['2; '3]); (21 --> 24, ['3]);
              (25 --> 30, []); (31 --> 40, ['3]); (41 --> 255, [])] /\
  gaps_with_identifier_e counting counting_i counting_from counting_d ex_sets counting_kc counting_i (some_shapes 3 ex_gqdit) '2 (13 --> 28 : Interval u8) 0 =
    (Val [12 --> 13; 15 --> 17; 25 --> 30], 167) /\
  (** clones of clones of 1, 2 and 3 *)
  ghistory counting counting_i counting_from odd_d ex_sets counting_o counting_o ex_trees ex_gcalls 0 =
    (Val [(0 --> 9, []); (10 --> 11, ['4; '5]); (12 --> 13, []); (14 --> 14, ['4; '5]); (15 --> 17, ['3; '4]); (18 --> 20, ['2; '3; '6]); (21 --> 24, ['6]);
          (25 --> 30, []); (31 --> 40, ['6]); (41 --> 255, [])], 1268) /\
  identifiers_at_point_e counting counting_i counting_from odd_d (some_shapes 3 ex_gqdit) '19 0 = (Val ['3; '4], 26) /\
  (** sets out of order; 1 is not found by the cut *)
  ghistory counting counting_i counting_from lying_d ex_sets counting_o counting_o ex_trees ex_gcalls 0 =
    (Val [(0 --> 9, []); (10 --> 11, ['2; '1]); (12 --> 13, []); (14 --> 17, ['2; '1]); (18 --> 20, ['3; '2; '1]); (21 --> 24, ['3]);
          (25 --> 30, []); (31 --> 40, ['3]); (41 --> 255, [])], 1154) /\
  (** a clone that panics leaves a hole *)
  ghistory counting counting_i counting_from dead_d ex_sets counting_o counting_o ex_trees ex_gcalls 0 = (Val [(0 --> 9, []); (21 --> 255, [])], 211).
Proof.
  split.
  { split; [split; intros; repeat split; intros w; reflexivity|]. split; [intros x; repeat split; intros w; reflexivity|]. split; [intros i w; reflexivity|].
    split; [intros d d'; repeat split; intros w; reflexivity|]. split; [intros w s; apply some_shapes_good|]. split; [intros a b w; reflexivity|]. split; [intros a b w; reflexivity|].
    intros k p w; reflexivity. }
  split; [intros path i m; apply some_shapes_good|]. split.
  { repeat first [apply Forall_nil | apply Forall_cons | apply sets_insert | apply sets_cut | apply sets_all | apply sets_append
      | apply Sorted.SSorted_nil | apply Sorted.SSorted_cons | reflexivity]. }
  repeat split; vm_compute; reflexivity.
Qed.

Print Assumptions C160_any_new.
Print Assumptions C160_any_insert.
Print Assumptions C160_any_cut_with_identifiers.
Print Assumptions C160_any_cut_all_identifiers.
Print Assumptions C160_any_append.
Print Assumptions C160_any_history.
Print Assumptions C160_any_nothing.
Print Assumptions C160_any_identifiers_at_point.
Print Assumptions C160_any_gaps_no_identifier.
Print Assumptions C160_right_queries.
Print Assumptions C160_right_insert.
Print Assumptions C160_right_cut_with_identifiers.
Print Assumptions C160_right_cut_all_identifiers.
Print Assumptions C160_right_append.
Print Assumptions C160_right_history.
