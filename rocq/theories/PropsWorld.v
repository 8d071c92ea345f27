(** * PropsWorld: programs with any number of NoditMaps and NoditSets (C140). *)
From Coq Require Import List ZArith Bool Lia Permutation.
From Verif Require Import Base BTree UtilsModel IntervalModel NoditModel NoditOps NoditSetModel NoditSetOps EqModel Spec CompleteOps ClientOps ClientSetOps WorldOps
  InstancesModel Instances PointFacts IntervalFacts ListFacts NoditFacts NoditSetFacts NoditSetProofs CompleteProofs EqFacts PropsNodit PropsEq PropsClient PropsClientSet.
Import ListNotations.
Open Scope nat_scope.

Section Props.
  Context {I : Type} `{PL : PointLaws I}.
  Context {K : Type} {IK : InclusiveInterval I K} {IL : IntervalLaws I K} {FI : FromInvalid I K}.
  Context {V : Type}.
  Context (keq : K -> K -> bool) (veq : V -> V -> bool).
  Context (Hk : forall a b, keq a b = true <-> a = b) (Hv : forall a b, veq a b = true <-> a = b).
  Implicit Types (ms : maps (I := I) (K := K) (V := V)) (ss : sets (I := I) (K := K)).

  Lemma perm_units (l s : list K) : Permutation (units l) (units s) <-> Permutation l s.
  Proof.
    split; intros P; [|apply (Permutation_map (fun k => (k, tt)) P)].
    apply (Permutation_map fst) in P. rewrite !fst_units in P. exact P.
  Qed.
  Lemma units_split (l : list K) l1 k v l2 : units l = l1 ++ (k, v) :: l2 <-> exists a b, l = a ++ k :: b /\ l1 = units a /\ l2 = units b /\ v = tt.
  Proof.
    split.
    - intros E. exists (map fst l1), (map fst l2). rewrite !units_fst. apply (f_equal (map fst)) in E. rewrite fst_units, map_app in E.
      destruct v. auto.
    - intros (a & b & -> & -> & -> & ->). unfold units. rewrite map_app. reflexivity.
  Qed.
  Lemma doc_build_units (l : list K) o : doc_set_from_iter_strict l o <-> doc_from_iter_strict (units l) (read units o).
  Proof.
    destruct o as [[s|[]]|]; cbn [read doc_set_from_iter_strict doc_from_iter_strict].
    - rewrite !fst_units, perm_units. reflexivity.
    - split.
      + intros (l1 & k & l2 & -> & Dj & Vk & C). exists (units l1), k, (units l2). split; [apply units_split; exists l1, l2; auto|].
        rewrite fst_units. split; [exact Dj|]. split; [exact Vk|]. apply clash_units, C.
      + intros (l1 & k & l2 & E & Dj & Vk & C). apply units_split in E. destruct E as (a & b & -> & -> & -> & _). exists a, k, b. split; [reflexivity|].
        rewrite fst_units in Dj. split; [exact Dj|]. split; [exact Vk|]. apply clash_units, C.
    - split.
      + intros (l1 & k & l2 & -> & Dj & Vk). exists (units l1), k, tt, (units l2). split; [apply units_split; exists l1, l2; auto|].
        rewrite fst_units. split; assumption.
      + intros (l1 & k & v & l2 & E & Dj & Vk). apply units_split in E. destruct E as (a & b & -> & -> & -> & _). exists a, k, b. split; [reflexivity|].
        rewrite fst_units in Dj. split; assumption.
  Qed.
  Lemma set_build_same (l : list K) : set_from_iter_strict l = from_iter_strict (units l).
  Proof. unfold set_from_iter_strict. rewrite set_extend_map. reflexivity. Qed.
  Lemma set_build_iff (l : list K) o : doc_set_from_iter_strict l o <-> o = read set_iter (set_from_iter_strict l).
  Proof.
    rewrite doc_build_units, from_iter_strict_iff, set_build_same. destruct (from_iter_strict (units l)) as [[m|[]]|]; destruct o as [[s|[]]|]; cbn [read];
      try (split; discriminate); try (split; reflexivity).
    split; intros E; injection E as E; do 2 f_equal.
    - rewrite <- E. symmetry. unfold set_iter, iter. apply fst_units.
    - rewrite E. apply units_iter.
  Qed.
  Lemma read_id {A E} (o : outcome (result A E)) : read (fun x => x) o = o.
  Proof. destruct o as [[]|]; reflexivity. Qed.

  Lemma built_reachable (l : list (K * V)) m : from_iter_strict l = Val (Ok m) -> reachable m.
  Proof. intros E. exists [OpFromIterStrict l]. unfold run. cbn. rewrite E. reflexivity. Qed.
  Lemma set_built_reachable (l : list K) s : set_from_iter_strict l = Val (Ok s) -> set_reachable (I := I) s.
  Proof. intros E. exists [SFromIterStrict l]. unfold set_run. cbn. rewrite E. reflexivity. Qed.

  Lemma set_same_iff (a b : NoditSet K) : set_eqb keq a b = true <-> set_iter a = set_iter b.
  Proof.
    unfold set_eqb, nodit_eqb. rewrite (bt_eqb_eq keq (fun _ _ => true) a b Hk); [|intros [] []; split; reflexivity].
    split; [intros ->; reflexivity|]. intros E. rewrite <- (units_iter a), <- (units_iter b), E. reflexivity.
  Qed.

  Section Same.
    Context (D : determined_by_points I K).
    Context (ms : maps (I := I) (K := K) (V := V)) (ents : state (m_methods ms) -> list (K * V)) (Dm : maps_as_documented ms ents).
    Context (ss : sets (I := I) (K := K)) (ivs : set_state (s_methods ss) -> list K) (Ds : sets_as_documented ss ivs).

    Definition like_map (s : state (m_methods ms)) (m : NoditMap K V) : Prop := m_occurs ms s /\ reachable m /\ ents s = m.
    Definition like_set (s : set_state (s_methods ss)) (m : NoditSet K) : Prop := s_occurs ss s /\ set_reachable (I := I) m /\ ivs s = set_iter m.

    Lemma assign_like {A B} (R : A -> B -> Prop) (f : nat -> A) (f' : nat -> B) x a b : (forall y, R (f y) (f' y)) -> R a b ->
      forall y, R (assign f x a y) (assign f' x b y).
    Proof. intros HR Hab y. unfold assign. destruct (Nat.eqb x y); auto. Qed.

    Lemma run_same : forall R (p : program R) f g f' g', (forall x, like_map (f x) (f' x)) -> (forall x, like_set (g x) (g' x)) ->
      run_program ms ss f g p = run_program (nodit_maps keq veq) (nodit_sets keq) f' g' p.
    Proof.
      destruct Dm as (Sm & Mm & Bm & Cm & Em). destruct Ds as (Sst & Ms & Bs & Cs & Es).
      intros R p. induction p as [r|x c next IH|x c next IH|x next IH|x next IH|x l next IH|x l next IH|x y next IH|x y next IH|x y next IH|x y next IH];
        intros f g f' g' Hf Hg; cbn [run_program]; [reflexivity|..].
      - destruct (Hf x) as (Os & Rm & E). pose proof (Mm (f x) c Os) as Doc. pose proof (m_occurs_after ms (f x) c Os) as Os'.
        pose proof (perform_reachable (f' x) c Rm) as Rm'.
        change (does (m_methods (nodit_maps keq veq)) c (f' x)) with (perform c (f' x)).
        destruct (does (m_methods ms) c (f x)) as [s' a]. cbn [fst snd] in *.
        rewrite E in Doc. apply (perform_iff D (f' x) c Rm) in Doc. rewrite <- Doc in Rm' |- *. apply IH; [|exact Hg].
        apply (assign_like like_map); [exact Hf|]. split; [exact Os'|]. split; [exact Rm'|reflexivity].
      - destruct (Hg x) as (Os & Rm & E). pose proof (Ms (g x) c Os) as Doc. pose proof (s_occurs_after ss (g x) c Os) as Os'.
        pose proof (set_perform_reachable (g' x) c Rm) as Rm'.
        change (set_does (s_methods (nodit_sets keq)) c (g' x)) with (set_perform c (g' x)).
        destruct (set_does (s_methods ss) c (g x)) as [s' a]. cbn [fst snd] in *.
        rewrite E in Doc. apply (C133_effects_determine_the_methods D (g' x) c Rm) in Doc. destruct Doc as [E1 E2].
        destruct (set_perform c (g' x)) as [s2 a2]. cbn [fst snd] in *. subst a2. apply IH; [exact Hf|].
        apply (assign_like like_set); [exact Hg|]. split; [exact Os'|]. split; assumption.
      - apply IH; [|exact Hg]. apply (assign_like like_map); [exact Hf|]. split; [apply m_occurs_start|]. split; [exists []; reflexivity|exact Sm].
      - apply IH; [exact Hf|]. apply (assign_like like_set); [exact Hg|]. split; [apply s_occurs_start|]. split; [exists []; reflexivity|exact Sst].
      - pose proof (Bm l) as Doc. apply (from_iter_strict_iff l) in Doc.
        change (m_build (nodit_maps keq veq) l) with (from_iter_strict l). rewrite <- Doc.
        destruct (m_build ms l) as [[s|e]|] eqn:E; cbn [read success assign_built].
        + apply IH; [|exact Hg]. apply (assign_like like_map); [exact Hf|]. split; [apply (m_occurs_built ms l s E)|].
          split; [apply (built_reachable l); symmetry; exact Doc|reflexivity].
        + apply IH; assumption.
        + apply IH; assumption.
      - pose proof (Bs l) as Doc. apply set_build_iff in Doc.
        change (s_build (nodit_sets keq) l) with (set_from_iter_strict l).
        destruct (s_build ss l) as [[s|e]|] eqn:E; destruct (set_from_iter_strict l) as [[s'|e']|] eqn:E'; cbn [read] in Doc; try discriminate; cbn [success assign_built].
        + apply IH; [exact Hf|]. apply (assign_like like_set); [exact Hg|]. split; [apply (s_occurs_built ss l s E)|].
          split; [apply (set_built_reachable l s' E')|]. injection Doc as Doc. exact Doc.
        + injection Doc as ->. apply IH; assumption.
        + apply IH; assumption.
      - destruct (Hf y) as (Os & Rm & E). apply IH; [|exact Hg]. apply (assign_like like_map); [exact Hf|].
        split; [apply m_occurs_copy, Os|]. split; [exact Rm|]. rewrite (Cm _ Os). exact E.
      - destruct (Hg y) as (Os & Rm & E). apply IH; [exact Hf|]. apply (assign_like like_set); [exact Hg|].
        split; [apply s_occurs_copy, Os|]. split; [exact Rm|]. rewrite (Cs _ Os). exact E.
      - destruct (Hf x) as (Ox & _ & Ex). destruct (Hf y) as (Oy & _ & Ey).
        replace (m_same ms (f x) (f y)) with (m_same (nodit_maps keq veq) (f' x) (f' y)); [apply IH; assumption|].
        apply eq_true_iff_eq. rewrite (Em _ _ Ox Oy), Ex, Ey. apply (bt_eqb_eq keq veq (f' x) (f' y) Hk Hv).
      - destruct (Hg x) as (Ox & _ & Ex). destruct (Hg y) as (Oy & _ & Ey).
        replace (s_same ss (g x) (g y)) with (s_same (nodit_sets keq) (g' x) (g' y)); [apply IH; assumption|].
        apply eq_true_iff_eq. rewrite (Es _ _ Ox Oy), Ex, Ey. apply set_same_iff.
    Qed.
  End Same.
End Props.

Section Theorems.
  Context {I : Type} `{PL : PointLaws I}.
  Context {K : Type} {IK : InclusiveInterval I K} {IL : IntervalLaws I K} {FI : FromInvalid I K}.
  Context {V : Type}.

  (** ** C140 *)
  (** No program with any number of maps and sets can tell implementations apart that do what
      is documented.  ([keq] and [veq] are the [==] of the interval and value types.) *)
  Theorem C140_indistinguishable : determined_by_points I K ->
    forall (keq : K -> K -> bool) (veq : V -> V -> bool), (forall a b, keq a b = true <-> a = b) -> (forall a b, veq a b = true <-> a = b) ->
    forall (ms ms' : maps (I := I) (K := K) (V := V)) (ss ss' : sets (I := I) (K := K)) em em' es es',
    maps_as_documented ms em -> maps_as_documented ms' em' -> sets_as_documented ss es -> sets_as_documented ss' es' ->
    forall R (p : program R), result_of ms ss p = result_of ms' ss' p.
  Proof.
    intros D keq veq Hk Hv ms ms' ss ss' em em' es es' A A' B B' R p. unfold result_of.
    rewrite (run_same keq veq Hk Hv D ms em A ss es B R p _ _ (fun _ => new) (fun _ => set_new)).
    - symmetry. apply (run_same keq veq Hk Hv D ms' em' A' ss' es' B' R p).
      + intros x. split; [apply m_occurs_start|]. split; [exists []; reflexivity|apply A'].
      + intros x. split; [apply s_occurs_start|]. split; [exists []; reflexivity|apply B'].
    - intros x. split; [apply m_occurs_start|]. split; [exists []; reflexivity|apply A].
    - intros x. split; [apply s_occurs_start|]. split; [exists []; reflexivity|apply B].
  Qed.
  Lemma m_occurs_reachable keq veq m : m_occurs (nodit_maps keq veq : maps (I := I) (K := K) (V := V)) m -> reachable m.
  Proof.
    induction 1 as [|s c _ IH|l s E|s _ IH]; [exists []; reflexivity|apply perform_reachable, IH|apply (built_reachable l s E)|exact IH].
  Qed.
  Lemma s_occurs_reachable keq s : s_occurs (nodit_sets keq : sets (I := I) (K := K)) s -> set_reachable (I := I) s.
  Proof.
    induction 1 as [|s c _ IH|l s E|s _ IH]; [exists []; reflexivity|apply set_perform_reachable, IH|apply (set_built_reachable l s E)|exact IH].
  Qed.
  (** The modelled NoditMap and NoditSet do. *)
  Theorem C140_nodit_as_documented : determined_by_points I K ->
    forall (keq : K -> K -> bool) (veq : V -> V -> bool), (forall a b, keq a b = true <-> a = b) -> (forall a b, veq a b = true <-> a = b) ->
    maps_as_documented (nodit_maps keq veq : maps (I := I) (K := K) (V := V)) iter /\
    sets_as_documented (nodit_sets keq : sets (I := I) (K := K)) set_iter.
  Proof.
    intros D keq veq Hk Hv. split.
    - split; [reflexivity|]. split; [|split; [|split; [reflexivity|]]].
      + intros s c O. apply (perform_iff D s c (m_occurs_reachable keq veq s O)).
        change (does (m_methods (nodit_maps keq veq)) c s) with (perform c s). unfold iter. destruct (perform c s). reflexivity.
      + intros l. apply (from_iter_strict_iff l). apply (read_id (from_iter_strict l)).
      + intros s s' _ _. apply (bt_eqb_eq keq veq s s' Hk Hv).
    - split; [reflexivity|]. split; [|split; [|split; [reflexivity|]]].
      + intros s c O. apply (C133_effects_determine_the_methods D s c (s_occurs_reachable keq s O)). auto.
      + intros l. apply set_build_iff. reflexivity.
      + intros s s' _ _. apply (set_same_iff keq Hk).
  Qed.
End Theorems.

(** A program: it builds a map, copies it, cuts the copy, builds the set of the returned
    intervals, and compares. *)
Definition C140_program : program (I := u8) (K := Interval u8) (V := nat) (bool * bool * list (Interval u8) * outcome (result unit nat)) :=
  PBuildMap _ 0 [(8 --> 9, 2); (1 --> 5, 1)] (fun _ =>
  PCopyMap _ 1 0 (
  PMap _ 1 (CallCut (4 --> 8 : Interval u8)) (fun o =>
  PBuildSet _ 0 (match o with Val l => map fst l | Panic => [] end) (fun _ =>
  PSet _ 0 SCallIter (fun l =>
  PSameMap _ 0 1 (fun b =>
  PMap _ 1 (CallInsertStrict (8 --> 8) 2) (fun _ =>
  PMap _ 1 (CallInsertMergeTouching (4 --> 5) 1) (fun _ =>
  PSameMap _ 0 1 (fun b' =>
  PBuildMap _ 2 [(1 --> 2, 1); (2 --> 3, 7)] (fun e => PStop _ (b, b', l, e))))))))))).
Lemma u8_interval_eq : forall a b : Interval u8, interval_eqb eqb a b = true <-> a = b.
Proof.
  intros [a1 a2] [b1 b2]. unfold interval_eqb. cbn [ivl_start ivl_end]. rewrite andb_true_iff, !u8_eqb.
  split; [intros [-> ->]; reflexivity|intros E; injection E; auto].
Qed.
Example C140_example : determined_by_points u8 (Interval u8) /\ (forall a b : Interval u8, interval_eqb eqb a b = true <-> a = b) /\
  (forall a b, Nat.eqb a b = true <-> a = b) /\
  result_of (nodit_maps (interval_eqb eqb) Nat.eqb) (nodit_sets (interval_eqb eqb)) C140_program =
  (false, false, [(4 --> 5); (8 --> 8)], Val (Err 7)).
Proof. split; [exact interval_determined|]. split; [exact u8_interval_eq|]. split; [exact Nat.eqb_eq|]. vm_compute. reflexivity. Qed.

Print Assumptions C140_indistinguishable.
Print Assumptions C140_nodit_as_documented.
