(** * PropsGqdit: the properties of Gqdit (C43-C52, C66, C67). *)
From Coq Require Import List ZArith Bool Sorting.Sorted Permutation.
From Verif Require Import Base BTree IntervalModel NoditModel GqditModel GqditOps Spec InstancesModel Instances
  PointFacts IntervalFacts NoditFacts GqditFacts GqditProofs GqditGaps.
Import ListNotations.
Open Scope nat_scope.

Section Props.
  Context {I : Type} `{PL : PointLaws I}.
  Context {K : Type} {IK : InclusiveInterval I K} {IL : IntervalLaws I K} {FI : FromInvalid I K}.
  Context {D : Type} {OD : Ord D} {OL : OrdLaws D}.
  Context {Q : Type} {IQ : InclusiveInterval I Q}.
  Implicit Types (g : Gqdit K D) (k : K) (q : Q) (p : I) (d : D) (os : list (gop I K D)) (ids : list D).

  (** ** C43 *)
  Theorem C43_identifiers_follow_history : forall os p, exists s,
    identifiers_at_point (grun os) p = Val s /\ is_set s /\ forall d, In d s <-> added os d p.
  Proof.
    intros os p. destruct (ids_maps (grun os) p (grun_GWF os)) as (s & E & M & Hs). exists s. split; [exact E|]. split; [exact Hs|].
    intros d. rewrite <- (grun_has os p d). symmetry. apply has_id_in; [apply grun_GWF|exact M].
  Qed.
  (** The history decides by its last call that adds or removes [d] at [p]. *)
  Theorem C43_last_call_decides : forall os o d p,
    added (os ++ [o]) d p <-> adds o d p \/ (added os d p /\ ~ removes o d p).
  Proof. exact added_snoc. Qed.

  (** ** C44 *)
  Theorem C44_insert : forall g ids k, greachable g -> valid k -> exists g',
    gqdit_insert (collect ids) k g = (g', Val tt) /\
    forall p, exists s s', identifiers_at_point g p = Val s /\ identifiers_at_point g' p = Val s' /\ is_set s' /\
      (covers k p -> forall d, In d s' <-> In d s \/ In d ids) /\ (~ covers k p -> s' = s).
  Proof.
    intros g ids k R Vk. pose proof (greachable_GWF g R) as G.
    destruct (insert_has (collect ids) k g G Vk (collect_set ids)) as (g' & E & G' & M). exists g'. split; [exact E|]. intros p.
    destruct (ids_maps g p G) as (s & Es & Ms & Ss). destruct (ids_maps g' p G') as (s' & Es' & Ms' & Ss').
    exists s, s'. split; [exact Es|]. split; [exact Es'|]. split; [exact Ss'|].
    assert (X : forall d, In d s' <-> In d s \/ (covers k p /\ In d ids)).
    { intros d. pose proof (M p d) as Y. rewrite (has_id_in g p s d G Ms), (has_id_in g' p s' d G' Ms'), collect_in in Y. exact Y. }
    split; [intros C d; specialize (X d); tauto|]. intros C. apply set_ext; [exact Ss'|exact Ss|]. intros d. specialize (X d). tauto.
  Qed.

  (** ** C45 *)
  Theorem C45_cut_with_identifiers : forall g ids q, greachable g -> valid q -> exists g',
    cut_with_identifiers (collect ids) q g = (g', Val tt) /\
    forall p, exists s s', identifiers_at_point g p = Val s /\ identifiers_at_point g' p = Val s' /\ is_set s' /\
      (covers q p -> forall d, In d s' <-> In d s /\ ~ In d ids) /\ (~ covers q p -> s' = s).
  Proof.
    intros g ids q R Vq. pose proof (greachable_GWF g R) as G.
    destruct (cut_with_has (collect ids) q g G Vq) as (g' & E & G' & M). exists g'. split; [exact E|]. intros p.
    destruct (ids_maps g p G) as (s & Es & Ms & Ss). destruct (ids_maps g' p G') as (s' & Es' & Ms' & Ss').
    exists s, s'. split; [exact Es|]. split; [exact Es'|]. split; [exact Ss'|].
    assert (X : forall d, In d s' <-> In d s /\ ~ (covers q p /\ In d ids)).
    { intros d. pose proof (M p d) as Y. rewrite (has_id_in g p s d G Ms), (has_id_in g' p s' d G' Ms'), collect_in in Y. exact Y. }
    split; [intros C d; specialize (X d); tauto|]. intros C. apply set_ext; [exact Ss'|exact Ss|]. intros d. specialize (X d). tauto.
  Qed.
  Theorem C45_cut_all_identifiers : forall g q, greachable g -> valid q -> exists g',
    cut_all_identifiers q g = (g', Val tt) /\
    forall p, (covers q p -> identifiers_at_point g' p = Val []) /\
              (~ covers q p -> identifiers_at_point g' p = identifiers_at_point g p).
  Proof.
    intros g q R Vq. pose proof (greachable_GWF g R) as G.
    destruct (cut_all_has q g G Vq) as (g' & E & G' & M). exists g'. split; [exact E|]. intros p.
    destruct (ids_maps g p G) as (s & Es & Ms & Ss). destruct (ids_maps g' p G') as (s' & Es' & Ms' & Ss'). rewrite Es, Es'.
    assert (X : forall d, In d s' <-> In d s /\ ~ covers q p).
    { intros d. pose proof (M p d) as Y. rewrite (has_id_in g p s d G Ms), (has_id_in g' p s' d G' Ms') in Y. exact Y. }
    split; intros C; f_equal.
    - destruct s' as [|d s']; [reflexivity|]. destruct (proj1 (X d)) as [_ Y]; [left; reflexivity|]. destruct (Y C).
    - apply set_ext; [exact Ss'|exact Ss|]. intros d. specialize (X d). tauto.
  Qed.

  (** ** C46 *)
  Theorem C46_append_unites : forall g g2, greachable g -> greachable g2 -> exists g' b,
    append g g2 = (g', b, Val tt) /\ greachable g' /\
    forall p, exists s s2 s', identifiers_at_point g p = Val s /\ identifiers_at_point g2 p = Val s2 /\
      identifiers_at_point g' p = Val s' /\ is_set s' /\ forall d, In d s' <-> In d s \/ In d s2.
  Proof.
    intros g g2 R R2. pose proof (greachable_GWF g R) as G. pose proof (greachable_GWF g2 R2) as G2.
    destruct (append_spec g g2 G (or_introl G2)) as (g' & E & G' & M). exists g', []. split; [exact E|].
    split; [destruct R as (os & ->), R2 as (os2 & ->); exists (os ++ [GAppend os2]); unfold grun, gsteps; rewrite fold_left_app; cbn;
            unfold grun, gsteps in E; rewrite E; reflexivity|]. intros p.
    destruct (ids_maps g p G) as (s & Es & Ms & Ss). destruct (ids_maps g2 p G2) as (s2 & Es2 & Ms2 & _).
    destruct (ids_maps g' p G') as (s' & Es' & Ms' & Ss'). exists s, s2, s'. repeat (split; [assumption|]).
    intros d. pose proof (M p d) as Y. rewrite (has_id_in g p s d G Ms), (has_id_in g2 p s2 d G2 Ms2), (has_id_in g' p s' d G' Ms') in Y. exact Y.
  Qed.

  (** ** C47: what is true of the other Gqdit after [append] *)
  Theorem C47_other_has_no_identifiers : forall g p, gdrained g -> identifiers_at_point g p = Val [].
  Proof. intros g p R. rewrite (drained_empty g R). apply empty_ids. Qed.
  (** Passing it to [append] again does nothing to either. *)
  Theorem C47_append_other_again : forall g b, greachable g -> gdrained b -> append g b = (g, b, Val tt).
  Proof.
    intros g b R Rb. rewrite (drained_empty b Rb). pose proof (greachable_GWF g R) as G.
    apply append_empty.
  Qed.

  (** ** C48 *)
  Theorem C48_gaps_no_identifier : forall g q, greachable g -> valid q ->
    exists l, gaps_no_identifier g q = Val l /\ lists_max_runs (free g) (fun j => overlap j q) l.
  Proof. intros g q R. apply gaps_no_spec, greachable_GWF, R. Qed.

  (** ** C49 *)
  Theorem C49_gaps_with_identifier : forall g d q, greachable g -> valid q ->
    exists l, gaps_with_identifier g d q = Val l /\ lists_max_runs (free_but d g) (fun j => overlap j q) l.
  Proof. intros g d q R. apply gaps_with_spec, greachable_GWF, R. Qed.

  (** ** C50 *)
  Theorem C50_equality_is_extensional : forall {OLI : OrdLaws I} (keq : K -> K -> bool) g g',
    (forall k, keq k k = true) -> (forall k k', keq k k' = true -> same_points k k') ->
    greachable g -> greachable g' ->
    (gqdit_eqb keq g g' = true <-> forall p, identifiers_at_point g p = identifiers_at_point g' p).
  Proof. intros OLI keq g g' Hr Hs R R'. apply eqb_spec; [exact Hr|exact Hs|apply greachable_GWF, R|apply greachable_GWF, R']. Qed.
  (** Inserts with the same overall content, in whatever order, number and
      division into intervals, give the same Gqdit. *)
  Theorem C50_order_of_inserts : forall {OLI : OrdLaws I} (l l' : list (list D * K)),
    (forall d p, (exists ids k, In (ids, k) l /\ covers k p /\ In d ids) <->
                 (exists ids k, In (ids, k) l' /\ covers k p /\ In d ids)) ->
    grun (map (fun e => GInsert (fst e) (snd e)) l) = grun (map (fun e => GInsert (fst e) (snd e)) l').
  Proof. intros OLI. exact insert_sets. Qed.
  Theorem C50_permuted_inserts : forall {OLI : OrdLaws I} (l l' : list (list D * K)), Permutation l l' ->
    grun (map (fun e => GInsert (fst e) (snd e)) l) = grun (map (fun e => GInsert (fst e) (snd e)) l').
  Proof.
    intros OLI l l' P. apply insert_sets. intros d p. split; intros (ids & k & Hi & X); exists ids, k; (split; [|exact X]).
    - apply (Permutation_in _ P Hi).
    - apply (Permutation_in _ (Permutation_sym P) Hi).
  Qed.

  (** ** C51 *)
  Theorem C51_new : exists g : Gqdit K D, gqdit_new = Val g /\ forall p, identifiers_at_point g p = Val [].
  Proof.
    exists (gnew : Gqdit K D). split; [rewrite gnew_eq; apply new_val|]. intros p.
    apply (ids_iff _ p []); [apply gnew_GWF|apply gnew_maps].
  Qed.
  Theorem C51_mutations : forall g ids k q, greachable g \/ gdrained g ->
    (snd (gqdit_insert (collect ids) k g) = Panic <-> ~ valid k) /\
    (snd (cut_with_identifiers (collect ids) q g) = Panic <-> ~ valid q) /\
    (snd (cut_all_identifiers q g) = Panic <-> ~ valid q) /\
    (~ valid k -> fst (gqdit_insert (collect ids) k g) = g) /\
    (~ valid q -> fst (cut_with_identifiers (collect ids) q g) = g /\ fst (cut_all_identifiers q g) = g).
  Proof.
    intros g ids k q R.
    assert (X : (valid k -> snd (gqdit_insert (collect ids) k g) = Val tt) /\
                (valid q -> snd (cut_with_identifiers (collect ids) q g) = Val tt /\ snd (cut_all_identifiers q g) = Val tt)).
    { destruct R as [R|R].
      - pose proof (greachable_GWF g R) as G. split; [intros V|intros V; split].
        + destruct (insert_has (collect ids) k g G V (collect_set ids)) as (g' & -> & _). reflexivity.
        + destruct (cut_with_has (collect ids) q g G V) as (g' & -> & _). reflexivity.
        + destruct (cut_all_has q g G V) as (g' & -> & _). reflexivity.
      - rewrite (drained_empty g R). unfold gqdit_insert, cut_with_identifiers, cut_all_identifiers. split; [intros V|intros V; split]; rewrite iip_valid by exact V.
        + destruct (bset_is_empty _); [reflexivity|]. rewrite empty_cut by exact V. reflexivity.
        + destruct (bset_is_empty _); [reflexivity|]. rewrite empty_cut by exact V. reflexivity.
        + rewrite empty_cut by exact V. reflexivity. }
    destruct X as [X1 X2]. split; [|split; [|split; [|split]]].
    - split; [|intros V; rewrite insert_bad by exact V; reflexivity]. intros E V. rewrite (X1 V) in E. discriminate.
    - split; [|intros V; rewrite cut_with_bad by exact V; reflexivity]. intros E V. rewrite (proj1 (X2 V)) in E. discriminate.
    - split; [|intros V; rewrite cut_all_bad by exact V; reflexivity]. intros E V. rewrite (proj2 (X2 V)) in E. discriminate.
    - intros V. rewrite insert_bad by exact V. reflexivity.
    - intros V. rewrite cut_with_bad, cut_all_bad by exact V. split; reflexivity.
  Qed.
  Theorem C51_append : forall g g2, greachable g -> greachable g2 \/ gdrained g2 -> snd (append g g2) = Val tt.
  Proof.
    intros g g2 R R2. pose proof (greachable_GWF g R) as G. destruct (append_spec g g2 G) as (g' & -> & _); [|reflexivity].
    destruct R2 as [R2|R2]; [left; apply greachable_GWF, R2|right; apply drained_empty, R2].
  Qed.
  Theorem C51_queries : forall g d q p, greachable g \/ gdrained g ->
    (gaps_no_identifier g q = Panic <-> ~ valid q) /\ (gaps_with_identifier g d q = Panic <-> ~ valid q) /\
    identifiers_at_point g p <> Panic.
  Proof.
    intros g d q p R.
    assert (X : valid q -> gaps_no_identifier g q <> Panic /\ gaps_with_identifier g d q <> Panic).
    { intros V. destruct R as [R|R].
      - pose proof (greachable_GWF g R) as G. destruct (gaps_no_spec g q G V) as (l & -> & _). destruct (gaps_with_spec g d q G V) as (l' & -> & _). split; discriminate.
      - rewrite (drained_empty g R), empty_gaps_no, empty_gaps_with by exact V. split; discriminate. }
    split; [|split].
    - split; [intros E V; apply (proj1 (X V)), E|apply gaps_no_bad].
    - split; [intros E V; apply (proj2 (X V)), E|apply gaps_with_bad].
    - destruct R as [R|R]; [|rewrite (drained_empty g R), empty_ids; discriminate].
      destruct (ids_maps g p (greachable_GWF g R)) as (s & -> & _). discriminate.
  Qed.

  (** ** C52 *)
  Theorem C52_round_trip : forall g, greachable g \/ gdrained g ->
    gqdit_deserialize (map Some (snd (gqdit_serialize g))) = Val (Ok g) /\
    fst (gqdit_serialize g) = length (snd (gqdit_serialize g)).
  Proof.
    intros g R. split; [|reflexivity]. destruct R as [R|R]; [apply gqdit_round_trip, greachable_GWF, R|]. rewrite (drained_empty g R). reflexivity.
  Qed.
  (** What is written describes a Gqdit. *)
  Theorem C52_serialized_data : forall g, greachable g -> describes_gqdit (snd (gqdit_serialize g)).
  Proof. intros g R. apply GWF_describes, greachable_GWF, R. Qed.

  (** ** C66: full claim: every Gqdit obtained by deserialization is one built
      by calls; false, see below.  It is one exactly if the data describes one. *)
  Theorem C66_deserialized_partial : forall {OLI : OrdLaws I} (l : list (K * BTreeSet D)) g,
    gqdit_deserialize (map Some l) = Val (Ok g) -> (greachable g <-> describes_gqdit l).
  Proof. intros OLI. exact accepted_iff. Qed.
  Theorem C66_described_data_accepted_partial : forall {OLI : OrdLaws I} (l : list (K * BTreeSet D)), describes_gqdit l ->
    exists g, gqdit_deserialize (map Some l) = Val (Ok g) /\ greachable g /\ Permutation l g.
  Proof.
    intros OLI l X. destruct (describes_GWF l X) as (g & E & G & P). exists g. split; [exact E|]. split; [apply GWF_greachable, G|exact P].
  Qed.

  (** ** C67: full claim: the other Gqdit after [append] behaves like
      [Gqdit::new()]; false, see below.  Only the queries at points do; no later
      call changes them and the lists of gaps stay empty. *)
  Theorem C67_other_never_recovers_partial : forall g os, gdrained g ->
    (forall p, identifiers_at_point (gsteps os g) p = Val []) /\
    (forall q, valid q -> gaps_no_identifier (gsteps os g) q = Val []) /\
    (forall d q, valid q -> gaps_with_identifier (gsteps os g) d q = Val []).
  Proof.
    intros g os (os1 & os2 & os3 & E). assert (R : gdrained (gsteps os g)).
    { exists os1, os2, (os3 ++ os). unfold gsteps in *. rewrite fold_left_app, <- E. reflexivity. }
    rewrite (drained_empty _ R). split; [apply empty_ids|]. split; [apply empty_gaps_no|apply empty_gaps_with].
  Qed.
End Props.

(** ** The claims that do not hold *)
(** The empty sequence is accepted; an insert into the result is lost. *)
Theorem C66_deserialized_refuted : exists (l : list (Interval u8 * BTreeSet u8)) g,
  gqdit_deserialize (map Some l) = Val (Ok g) /\ ~ greachable g /\
  snd (gqdit_insert ['7] (2 --> 4) g) = Val tt /\
  identifiers_at_point (fst (gqdit_insert ['7] (2 --> 4) g)) '3 = Val [].
Proof.
  exists [], []. split; [reflexivity|]. split; [|split; vm_compute; reflexivity].
  intros R. apply greachable_GWF in R. destruct R as [_ C]. destruct (C '0) as (k & v & [] & _).
Qed.
(** So is a sequence whose neighbours carry the same identifiers; the gap
    listed is then not maximal. *)
Theorem C66_gaps_refuted : exists (l : list (Interval u8 * BTreeSet u8)) g,
  gqdit_deserialize (map Some l) = Val (Ok g) /\ gaps_no_identifier g (2 --> 3) = Val [0 --> 4] /\
  identifiers_at_point g '4 = Val [] /\ identifiers_at_point g '5 = Val [].
Proof. exists [(0 --> 4, []); (5 --> 255, [])]. eexists. vm_compute. repeat split; reflexivity. Qed.
(** After [a.append(&mut b)], [b] lists no gap and an insert into it is lost. *)
Theorem C67_other_like_new_refuted : exists (os1 os2 : list (gop u8 (Interval u8) u8)) b,
  b = snd (fst (append (grun os1) (grun os2))) /\ gqdit_new <> Val b /\
  gaps_no_identifier b (2 --> 3) = Val [] /\ gaps_no_identifier (gnew : Gqdit (Interval u8) u8) (2 --> 3) = Val [0 --> 255] /\
  snd (gqdit_insert ['7] (2 --> 4) b) = Val tt /\
  identifiers_at_point (fst (gqdit_insert ['7] (2 --> 4) b)) '3 = Val [] /\
  identifiers_at_point (fst (gqdit_insert ['7] (2 --> 4) (gnew : Gqdit (Interval u8) u8))) '3 = Val ['7].
Proof. exists [], []. eexists. split; [reflexivity|]. vm_compute. split; [discriminate|]. repeat split; reflexivity. Qed.

(** ** Examples *)
Definition exg_ops : list (gop u8 (Interval u8) u8) :=
  [GInsert ['2; '1] (3 --> 8); GCutWith ['1] (5 --> 6);
   GAppend [GInsert ['9] (0 --> 4); GCutAll (0 --> 1)]; GCutAll (8 --> 8)].
Definition exg : Gqdit (Interval u8) u8 := grun exg_ops.
Example C67_example : let b := snd (fst (append (grun exg_ops) (grun exg_ops))) in
  gdrained b /\ gdrained (gsteps exg_ops b) /\ gsteps exg_ops b = [] /\
  identifiers_at_point (gsteps exg_ops b) '3 = Val [] /\ identifiers_at_point (grun exg_ops) '3 = Val ['1; '2; '9].
Proof.
  cbv zeta. split; [exists exg_ops, exg_ops, []; reflexivity|]. split; [exists exg_ops, exg_ops, exg_ops; reflexivity|].
  vm_compute. repeat split; reflexivity.
Qed.
Example exg_entries : exg =
  [(0 --> 1, []); (2 --> 2, ['9]); (3 --> 4, ['1; '2; '9]); (5 --> 6, ['2]); (7 --> 7, ['1; '2]); (8 --> 255, [])].
Proof. vm_compute. reflexivity. Qed.
Lemma exg_reachable : greachable exg.
Proof. exists exg_ops. reflexivity. Qed.
Example exg_C43 : identifiers_at_point exg '4 = Val ['1; '2; '9] /\ added exg_ops '9 '4 /\ ~ added exg_ops '1 '5.
Proof.
  split; [vm_compute; reflexivity|]. split.
  - apply (added_by [GInsert ['2; '1] (3 --> 8); GCutWith ['1] (5 --> 6)] (GAppend [GInsert ['9] (0 --> 4); GCutAll (0 --> 1)]) [GCutAll (8 --> 8)]).
    + constructor. apply (added_by [] (GInsert ['9] (0 --> 4)) [GCutAll (0 --> 1)]).
      * constructor; [left; reflexivity|vm_compute; split; discriminate].
      * constructor; [|constructor]. intros C. vm_compute in C. destruct C as [_ C]. apply C. reflexivity.
    + constructor; [|constructor]. intros C. vm_compute in C. destruct C as [C _]. apply C. reflexivity.
  - destruct (C43_identifiers_follow_history exg_ops '5) as (s & E & _ & M). intros A. apply M in A.
    assert (E' : identifiers_at_point exg '5 = Val ['2]) by (vm_compute; reflexivity).
    unfold exg in E'. rewrite E in E'. injection E' as ->. destruct A as [A|[]]. discriminate A.
Qed.
Example exg_C44 : valid (1 --> 5 : Interval u8) /\ gqdit_insert (collect ['5; '2]) (1 --> 5) exg =
  ([(0 --> 0, []); (1 --> 1, ['2; '5]); (2 --> 2, ['2; '5; '9]); (3 --> 4, ['1; '2; '5; '9]); (5 --> 5, ['2; '5]);
    (6 --> 6, ['2]); (7 --> 7, ['1; '2]); (8 --> 255, [])], Val tt).
Proof. split; [exists '1; vm_compute; split; discriminate|vm_compute; reflexivity]. Qed.
Example exg_C45 : cut_with_identifiers (collect ['9; '2]) (4 --> 7) exg =
  ([(0 --> 1, []); (2 --> 2, ['9]); (3 --> 3, ['1; '2; '9]); (4 --> 4, ['1]); (5 --> 6, []); (7 --> 7, ['1]); (8 --> 255, [])], Val tt) /\
  cut_all_identifiers (4 --> 7) exg = ([(0 --> 1, []); (2 --> 2, ['9]); (3 --> 3, ['1; '2; '9]); (4 --> 255, [])], Val tt).
Proof. vm_compute. split; reflexivity. Qed.
Example exg_C46 : append exg (grun [GInsert ['2; '3] (6 --> 10)]) =
  ([(0 --> 1, []); (2 --> 2, ['9]); (3 --> 4, ['1; '2; '9]); (5 --> 5, ['2]); (6 --> 6, ['2; '3]); (7 --> 7, ['1; '2; '3]);
    (8 --> 10, ['2; '3]); (11 --> 255, [])], [], Val tt).
Proof. vm_compute. reflexivity. Qed.
Example exg_C47 : gdrained (snd (fst (append (grun []) exg))).
Proof. exists [], exg_ops, []. reflexivity. Qed.
Example exg_C48 : gaps_no_identifier exg (1 --> 9) = Val [0 --> 1; 8 --> 255] /\ gaps_no_identifier exg (2 --> 7) = Val [].
Proof. vm_compute. split; reflexivity. Qed.
Example exg_C49 : gaps_with_identifier exg '9 (1 --> 6) = Val [0 --> 2] /\ gaps_with_identifier exg '2 (1 --> 6) = Val [0 --> 1; 5 --> 6] /\
  gaps_with_identifier (grun (exg_ops ++ [GCutAll (3 --> 7); GInsert ['1] (12 --> 20)])) '9 (5 --> 30) = Val [0 --> 11; 21 --> 255].
Proof. vm_compute. repeat split; reflexivity. Qed.
Example exg_C50 : grun [GInsert ['1] (0 --> 4); GInsert ['1] (5 --> 9); GInsert ['2] (3 --> 6)] =
  grun [GInsert ['2] (3 --> 6); GInsert ['1] (2 --> 9); GInsert ['1] (0 --> 1)] :> Gqdit (Interval u8) u8.
Proof. vm_compute. reflexivity. Qed.
Example exg_C51 : gqdit_insert (collect ['5]) (6 --> 2) exg = (exg, Panic) /\ gaps_with_identifier exg '2 (6 --> 2) = Panic.
Proof. vm_compute. split; reflexivity. Qed.
Example exg_C52 : gqdit_deserialize (map Some (snd (gqdit_serialize exg))) = Val (Ok exg).
Proof. vm_compute. reflexivity. Qed.
Example exg_C66 : describes_gqdit ([(5 --> 255, ['2]); (0 --> 4, [])] : list (Interval u8 * BTreeSet u8)).
Proof.
  apply (accepted_iff _ [(0 --> 4, []); (5 --> 255, ['2])]); [vm_compute; reflexivity|].
  exists [GInsert ['2] (5 --> 255)]. vm_compute. reflexivity.
Qed.

Print Assumptions C43_identifiers_follow_history.
Print Assumptions C43_last_call_decides.
Print Assumptions C44_insert.
Print Assumptions C45_cut_with_identifiers.
Print Assumptions C45_cut_all_identifiers.
Print Assumptions C46_append_unites.
Print Assumptions C47_other_has_no_identifiers.
Print Assumptions C47_append_other_again.
Print Assumptions C48_gaps_no_identifier.
Print Assumptions C49_gaps_with_identifier.
Print Assumptions C50_equality_is_extensional.
Print Assumptions C50_order_of_inserts.
Print Assumptions C50_permuted_inserts.
Print Assumptions C51_new.
Print Assumptions C51_mutations.
Print Assumptions C51_append.
Print Assumptions C51_queries.
Print Assumptions C52_round_trip.
Print Assumptions C52_serialized_data.
Print Assumptions C66_deserialized_partial.
Print Assumptions C66_described_data_accepted_partial.
Print Assumptions C67_other_never_recovers_partial.
Print Assumptions C66_deserialized_refuted.
Print Assumptions C66_gaps_refuted.
Print Assumptions C67_other_like_new_refuted.
