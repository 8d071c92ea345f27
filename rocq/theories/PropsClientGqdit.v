(** * PropsClientGqdit: all implementations of Gqdit that do what is documented are
      indistinguishable (C131). *)
From Coq Require Import List ZArith Bool Lia.
From Verif Require Import Base BTree UtilsModel IntervalModel NoditModel GqditModel GqditOps Spec CompleteOps ClientGqditOps
  InstancesModel Instances PointFacts IntervalFacts GqditFacts GqditProofs GqditAlgebra GqditIds CompleteProofs PropsGqdit.
Import ListNotations.
Open Scope nat_scope.

Section Props.
  Context {I : Type} `{PL : PointLaws I} {OLI : OrdLaws I}.
  Context {K : Type} {IK : InclusiveInterval I K} {IL : IntervalLaws I K} {FI : FromInvalid I K}.
  Context {D : Type} {OD : Ord D} {OL : OrdLaws D}.
  Context (DP : determined_by_points I K).
  Implicit Types (g : Gqdit K D) (c : gcall I K D) (B A : I -> D -> Prop).

  (** A documented effect determines the answer and who is where afterwards. *)
  Lemma answers_same {Q} {IQ : InclusiveInterval I Q} (q : Q) (P P' : I -> Prop) sel (a a' : outcome (list K)) : (forall p, P p <-> P' p) ->
    answers q a (lists_max_runs P sel) -> answers q a' (lists_max_runs P' sel) -> a = a'.
  Proof.
    intros E [Y N] [Y' N']. destruct (valid_dec q) as [V|V]; [|rewrite (N V), (N' V); reflexivity].
    destruct (Y V) as (l & -> & L), (Y' V) as (l' & -> & L'). f_equal. apply (lists_same DP P' sel); [|exact L'].
    apply (lists_ext P); assumption.
  Qed.
  Lemma rearranges_same {Q} {IQ : InclusiveInterval I Q} (q : Q) B B' A A' (T T' : I -> D -> Prop) a a' :
    unchanged B B' -> (unchanged B B' -> unchanged T T') -> rearranges q B A a T -> rearranges q B' A' a' T' -> a' = a /\ unchanged A A'.
  Proof.
    intros E E' [Y N] [Y' N']. destruct (valid_dec q) as [V|V].
    - destruct (Y V) as [-> H1], (Y' V) as [-> H2]. split; [reflexivity|]. intros p d. rewrite H1, H2. apply E', E.
    - destruct (N V) as [-> H1], (N' V) as [-> H2]. split; [reflexivity|]. intros p d. rewrite H1, H2. apply E.
  Qed.
  Lemma gdocumented_same c B B' A A' a a' : unchanged B B' -> gdocumented c B A a -> gdocumented c B' A' a' -> a' = a /\ unchanged A A'.
  Proof.
    intros E. assert (U : forall A A' (X : Prop), unchanged B A -> unchanged B' A' -> X -> X /\ unchanged A A').
    { intros A0 A0' X U1 U2 HX. split; [exact HX|]. intros p d. rewrite (U1 p d), (U2 p d). apply E. }
    destruct c as [p|Q IQ q|d Q IQ q|ids k|ids Q IQ q|Q IQ q]; cbn [gdocumented ganswer] in *.
    - intros [U1 (s & -> & S1 & H1)] [U2 (s' & -> & S2 & H2)]. apply U; [exact U1|exact U2|]. f_equal. apply set_ext; [exact S2|exact S1|].
      intros d. rewrite H1, H2. apply E.
    - intros [U1 H1] [U2 H2]. apply U; [exact U1|exact U2|]. eapply answers_same; [|exact H2|exact H1]. intros p. split; intros X d Y; apply (X d), E, Y.
    - intros [U1 H1] [U2 H2]. apply U; [exact U1|exact U2|]. eapply answers_same; [|exact H2|exact H1]. intros p. split; intros X d' Y; apply (X d'), E, Y.
    - apply rearranges_same; [exact E|]. intros _ p d. rewrite (E p d). reflexivity.
    - apply rearranges_same; [exact E|]. intros _ p d. rewrite (E p d). reflexivity.
    - apply rearranges_same; [exact E|]. intros _ p d. rewrite (E p d). reflexivity.
  Qed.
  Lemma gexecute_same (i j : gimplementation (I := I) (K := K) (D := D)) hi hj : gqdit_as_documented i hi -> gqdit_as_documented j hj ->
    forall R (p : gclient R) f f', (forall x, goccurs i (f x)) -> (forall x, goccurs j (f' x)) -> (forall x, unchanged (hi (f x)) (hj (f' x))) ->
    gexecute i f p = gexecute j f' p.
  Proof.
    intros (Si & Di & Ji) (Sj & Dj & Jj) R p.
    assert (Z : unchanged (hi (gstart i)) (hj (gstart j))).
    { intros q d. split; intros X; exfalso; [exact (Sj q d X)|exact (Si q d X)]. }
    induction p as [r|x next IH|x c next IH|x y next IH]; intros f f' Of Of' E; cbn [gexecute].
    - reflexivity.
    - apply IH; intros y; unfold assign; destruct (Nat.eqb x y); auto using goccurs_start.
    - pose proof (Di (f x) c (Of x)) as X. pose proof (Dj (f' x) c (Of' x)) as X'.
      pose proof (goccurs_after i (f x) c (Of x)) as O. pose proof (goccurs_after j (f' x) c (Of' x)) as O'.
      destruct (gdoes i c (f x)) as [s a], (gdoes j c (f' x)) as [s' a']. cbn [fst snd] in *.
      destruct (gdocumented_same c _ _ _ _ a a' (E x) X X') as [-> U].
      apply IH; intros y; unfold assign; destruct (Nat.eqb x y); auto.
    - pose proof (Ji (f x) (f y) (Of x) (Of y)) as X. pose proof (Jj (f' x) (f' y) (Of' x) (Of' y)) as X'.
      pose proof (goccurs_joined i (f x) (f y) (Of x) (Of y)) as O. pose proof (goccurs_joined j (f' x) (f' y) (Of' x) (Of' y)) as O'.
      destruct (gjoins i (f x) (f y)) as [s a], (gjoins j (f' x) (f' y)) as [s' a']. cbn [fst snd] in *.
      destruct X as [-> X], X' as [-> X'].
      apply IH; intros w; unfold assign; destruct (Nat.eqb x w), (Nat.eqb y w); auto using goccurs_start.
      all: intros q d; rewrite (X q d), (X' q d), (E x q d), (E y q d); reflexivity.
  Qed.

  (** The model does what is documented. *)
  Lemma gperform_spec g c : GWF g -> gdocumented c (sits g) (sits (fst (gperform c g))) (snd (gperform c g)) /\ GWF (fst (gperform c g)).
  Proof.
    assert (C : forall Q (IQ : InclusiveInterval I Q) (q : Q) (T : I -> D -> Prop) (o : Gqdit K D * outcome unit), GWF g -> changes_ids q g tt o T ->
      rearranges q (sits g) (sits (fst o)) (snd o) T /\ GWF (fst o)).
    { intros Q IQ q T o G [Y N]. destruct (valid_dec q) as [V|V].
      - destruct (Y V) as (g' & -> & P & M). cbn [fst snd]. split; [|apply proper_GWF, P]. split; [auto|contradiction].
      - rewrite (N V). cbn [fst snd]. split; [|exact G]. split; [contradiction|]. intros _. split; [reflexivity|]. intros p d. reflexivity. }
    assert (U : forall X : Prop, X -> unchanged (sits g) (sits g) /\ X) by (intros X HX; split; [intros p d; reflexivity|exact HX]).
    intros G. destruct c as [p|Q IQ q|d Q IQ q|ids k|ids Q IQ q|Q IQ q]; cbn [gdocumented ganswer gperform fst snd] in *.
    - split; [|exact G]. apply U. exact (proj2 (identifiers_iff g p G _) eq_refl).
    - split; [|exact G]. apply U. exact (proj2 (gaps_no_iff DP q g G _) eq_refl).
    - split; [|exact G]. apply U. exact (proj2 (gaps_with_iff DP d q g G _) eq_refl).
    - apply C; [exact G|]. exact (proj2 (gqdit_insert_iff ids k g G _) eq_refl).
    - apply C; [exact G|]. exact (proj2 (cut_with_iff ids q g G _) eq_refl).
    - apply C; [exact G|]. exact (proj2 (cut_all_iff q g G _) eq_refl).
  Qed.
  Lemma append_joins g g2 : GWF g -> GWF g2 -> snd (append g g2) = Val tt /\ GWF (fst (fst (append g g2))) /\
    forall p d, sits (fst (fst (append g g2))) p d <-> sits g p d \/ sits g2 p d.
  Proof.
    intros G G2. destruct (proj2 (append_iff g g2 G G2 _) eq_refl) as (g' & -> & P & M). cbn [fst snd].
    split; [reflexivity|]. split; [apply proper_GWF, P|exact M].
  Qed.
  Lemma goccurs_GWF g : goccurs (gqdit : gimplementation (I := I) (K := K) (D := D)) g -> GWF g.
  Proof.
    induction 1 as [|s c _ IH|s t _ IH _ IH2]; [apply gnew_GWF|apply gperform_spec, IH|]. exact (proj1 (proj2 (append_joins s t IH IH2))).
  Qed.
  Lemma gqdit_documented : gqdit_as_documented (gqdit : gimplementation (I := I) (K := K) (D := D)) sits.
  Proof.
    split; [|split].
    - intros p d X. apply (gnew_free (K := K) p d). apply (has_id_iff _ p d gnew_GWF). exact X.
    - intros s c Os. exact (proj1 (gperform_spec s c (goccurs_GWF s Os))).
    - intros s t Os Ot. destruct (append_joins s t (goccurs_GWF s Os) (goccurs_GWF t Ot)) as (A & _ & B). split; [exact A|exact B].
  Qed.
  (** Any occurring state can be put into a variable by a program, which puts a corresponding
      state of the model there. *)
  Definition stores {R} (i : gimplementation (I := I) (K := K) (D := D)) (T : gclient R -> gclient R) (x : nat) (s : gstate i) : Prop :=
    forall f p, exists f', f' x = s /\ (forall y, y < x -> f' y = f y) /\ gexecute i f (T p) = gexecute i f' p.
  Lemma assign_same {X} (f : nat -> X) x a : assign f x a x = a.
  Proof. unfold assign. rewrite Nat.eqb_refl. reflexivity. Qed.
  Lemma assign_other {X} (f : nat -> X) x y a : x <> y -> assign f x a y = f y.
  Proof. intros N. unfold assign. destruct (Nat.eqb_spec x y); [contradiction|reflexivity]. Qed.
  Lemma stores_joined {R} (i : gimplementation (I := I) (K := K) (D := D)) (T T2 : gclient R -> gclient R) x s t :
    stores i T x s -> stores i T2 (Datatypes.S x) t ->
    stores i (fun p => T (T2 (GJoin R x (Datatypes.S x) (fun _ => p)))) x (fst (gjoins i s t)).
  Proof.
    intros H1 H2 f p. destruct (H1 f (T2 (GJoin R x (Datatypes.S x) (fun _ => p)))) as (f1 & E1 & L1 & ->).
    destruct (H2 f1 (GJoin R x (Datatypes.S x) (fun _ => p))) as (f2 & E2 & L2 & ->). cbn [gexecute].
    rewrite E2, (L2 x) by lia. rewrite E1. destruct (gjoins i s t) as [u a]. cbn [fst].
    eexists. split; [|split; [|reflexivity]]; [apply assign_same|].
    intros y Hy. rewrite !assign_other by lia. rewrite L2, L1 by lia. reflexivity.
  Qed.
  Lemma stores_after {R} (i : gimplementation (I := I) (K := K) (D := D)) (T : gclient R -> gclient R) x s c :
    stores i T x s -> stores i (fun p => T (GMake R x c (fun _ => p))) x (fst (gdoes i c s)).
  Proof.
    intros H1 f p. destruct (H1 f (GMake R x c (fun _ => p))) as (f1 & E1 & L1 & ->). cbn [gexecute]. rewrite E1.
    destruct (gdoes i c s) as [u a]. cbn [fst]. eexists. split; [|split; [|reflexivity]]; [apply assign_same|].
    intros y Hy. rewrite assign_other by lia. apply L1, Hy.
  Qed.
  Lemma stores_fresh {R} (i : gimplementation (I := I) (K := K) (D := D)) x : stores i (fun p => GFresh R x p) x (gstart i).
  Proof.
    intros f p. cbn [gexecute]. eexists. split; [|split; [|reflexivity]]; [apply assign_same|]. intros y Hy. apply assign_other. lia.
  Qed.
  Lemma can_store (i : gimplementation (I := I) (K := K) (D := D)) s : goccurs i s ->
    exists g, goccurs (gqdit : gimplementation (I := I) (K := K) (D := D)) g /\
      forall R x, exists T : gclient R -> gclient R, stores i T x s /\ stores gqdit T x g.
  Proof.
    induction 1 as [|s c Os (g & Og & IH)|s t Os (g & Og & IH) Ot (h & Oh & IH2)].
    - exists gnew. split; [apply (goccurs_start gqdit)|]. intros R x. exists (fun p => GFresh R x p). split; apply stores_fresh.
    - exists (fst (gperform c g)). split; [apply (goccurs_after gqdit g c Og)|]. intros R x. destruct (IH R x) as (T & H1 & H2).
      exists (fun p => T (GMake R x c (fun _ => p))). split; [apply stores_after, H1|apply (stores_after gqdit), H2].
    - exists (fst (fst (append g h))). split; [apply (goccurs_joined gqdit g h Og Oh)|]. intros R x.
      destruct (IH R x) as (T & H1 & H2), (IH2 R (Datatypes.S x)) as (T2 & H3 & H4).
      exists (fun p => T (T2 (GJoin R x (Datatypes.S x) (fun _ => p)))). split; [apply stores_joined; assumption|].
      exact (stores_joined gqdit T T2 x g h H2 H4).
  Qed.
End Props.

Section Theorems.
  Context {I : Type} `{PL : PointLaws I} {OLI : OrdLaws I}.
  Context {K : Type} {IK : InclusiveInterval I K} {IL : IntervalLaws I K} {FI : FromInvalid I K}.
  Context {D : Type} {OD : Ord D} {OL : OrdLaws D}.

  (** ** C131 *)
  (** No program can tell two implementations apart that both do what is documented, ... *)
  Theorem C131_indistinguishable : determined_by_points I K ->
    forall (i j : gimplementation (I := I) (K := K) (D := D)) hi hj, gqdit_as_documented i hi -> gqdit_as_documented j hj ->
    forall R (p : gclient R), grun_client i p = grun_client j p.
  Proof.
    intros DP i j hi hj Hi Hj R p. apply (gexecute_same DP i j hi hj Hi Hj); intros x; try constructor.
    - intros X. exfalso. exact (proj1 Hj _ _ X).
    - intros X. exfalso. exact (proj1 Hi _ _ X).
  Qed.
  (** ... the modelled Gqdit being one of them. *)
  Theorem C131_gqdit_as_documented : determined_by_points I K ->
    gqdit_as_documented (gqdit : gimplementation (I := I) (K := K) (D := D)) sits.
  Proof. apply gqdit_documented. Qed.
  (** Conversely an implementation that programs cannot tell from the modelled Gqdit does
      what is documented, [d] being at [p] when [identifiers_at_point] says so. *)
  Theorem C131_indistinguishable_only_if_documented : determined_by_points I K ->
    forall (i : gimplementation (I := I) (K := K) (D := D)),
    (forall R (p : gclient R), grun_client i p = grun_client gqdit p) ->
    gqdit_as_documented i (fun s p d => exists l, snd (gdoes i (AskIdentifiers p) s) = Val l /\ In d l).
  Proof.
    intros DP i X.
    set (has := fun (s : gstate i) (p : I) (d : D) => exists l, snd (gdoes i (AskIdentifiers p) s) = Val l /\ In d l).
    (* what a state answers is what the model's state answers *)
    assert (A : forall s, goccurs i s -> exists g, goccurs gqdit g /\ unchanged (has s) (sits g) /\
      forall c, snd (gdoes i c s) = snd (gperform c g) /\ unchanged (has (fst (gdoes i c s))) (sits (fst (gperform c g)))).
    { intros s Os. destruct (can_store i s Os) as (g & Og & St). exists g. split; [exact Og|].
      assert (Y : forall R (p : nat -> gclient R), exists f f', f 0 = s /\ f' 0 = g /\ gexecute i f (p 0) = gexecute gqdit f' (p 0)).
      { intros R p. destruct (St R 0) as (T & H1 & H2). destruct (H1 (fun _ => gstart i) (p 0)) as (f & E1 & _ & E2).
        destruct (H2 (fun _ => gstart gqdit) (p 0)) as (f' & E1' & _ & E2'). exists f, f'. split; [exact E1|]. split; [exact E1'|].
        rewrite <- E2, <- E2'. apply X. }
      assert (Ask : forall c, snd (gdoes i c s) = snd (gperform c g)).
      { intros c. destruct (Y _ (fun x => GMake _ x c (fun a => GStop _ a))) as (f & f' & E & E' & Z). cbn [gexecute] in Z. rewrite E, E' in Z.
        change (gdoes gqdit c g) with (gperform c g) in Z. destruct (gdoes i c s), (gperform c g). exact Z. }
      assert (Ask2 : forall c c2, snd (gdoes i c2 (fst (gdoes i c s))) = snd (gperform c2 (fst (gperform c g)))).
      { intros c c2. destruct (Y _ (fun x => GMake _ x c (fun _ => GMake _ x c2 (fun a => GStop _ a)))) as (f & f' & E & E' & Z). cbn [gexecute] in Z. rewrite E, E' in Z.
        change (gdoes gqdit c g) with (gperform c g) in Z. destruct (gdoes i c s) as [s1 a1], (gperform c g) as [g1 b1]. cbn [fst].
        change (gdoes gqdit c2) with (gperform c2) in Z. rewrite !assign_same in Z. destruct (gdoes i c2 s1), (gperform c2 g1). exact Z. }
      pose proof (goccurs_GWF DP g Og) as G.
      assert (S0 : forall s' g', GWF g' -> (forall p, snd (gdoes i (AskIdentifiers p) s') = snd (gperform (AskIdentifiers p) g')) -> unchanged (has s') (sits g')).
      { intros s' g' G' E p d. unfold has. rewrite E. cbn [gperform snd]. symmetry. exact (has_id_iff g' p d G'). }
      split; [apply S0; [exact G|intros p; apply Ask]|]. intros c. split; [apply Ask|]. apply S0; [apply (gperform_spec DP), G|]. intros p. apply Ask2. }
    assert (J : forall s t, goccurs i s -> goccurs i t -> exists g h, goccurs gqdit g /\ goccurs gqdit h /\ unchanged (has s) (sits g) /\ unchanged (has t) (sits h) /\
      snd (gjoins i s t) = snd (append g h) /\ unchanged (has (fst (gjoins i s t))) (sits (fst (fst (append g h))))).
    { intros s t Os Ot. destruct (can_store i s Os) as (g & Og & Sg), (can_store i t Ot) as (h & Oh & Sh). exists g, h. split; [exact Og|]. split; [exact Oh|].
      assert (Y : forall R (p : gclient R), exists f f', f 0 = s /\ f' 0 = g /\ f 1 = t /\ f' 1 = h /\ gexecute i f p = gexecute gqdit f' p).
      { intros R p. destruct (Sg R 0) as (T & H1 & H2), (Sh R 1) as (T2 & H3 & H4).
        destruct (H1 (fun _ => gstart i) (T2 p)) as (f & E1 & _ & E2). destruct (H3 f p) as (f2 & F1 & L1 & F2).
        destruct (H2 (fun _ => gstart gqdit) (T2 p)) as (f' & E1' & _ & E2'). destruct (H4 f' p) as (f2' & F1' & L1' & F2').
        exists f2, f2'. rewrite (L1 0), (L1' 0) by lia. repeat (split; [assumption|]). rewrite <- F2, <- F2', <- E2, <- E2'. apply X. }
      pose proof (goccurs_GWF DP g Og) as G. pose proof (goccurs_GWF DP h Oh) as Gh.
      assert (S0 : forall s' g', GWF g' -> (forall p, snd (gdoes i (AskIdentifiers p) s') = snd (gperform (AskIdentifiers p) g')) -> unchanged (has s') (sits g')).
      { intros s' g' G' E p d. unfold has. rewrite E. cbn [gperform snd]. symmetry. exact (has_id_iff g' p d G'). }
      split; [|split; [|split]].
      - apply S0; [exact G|]. intros p. destruct (Y _ (GMake _ 0 (AskIdentifiers p) (fun a => GStop _ a))) as (f & f' & E & E' & _ & _ & Z). cbn [gexecute] in Z. rewrite E, E' in Z.
        change (gdoes gqdit (AskIdentifiers p) g) with (gperform (AskIdentifiers p) g) in Z. destruct (gdoes i (AskIdentifiers p) s), (gperform (AskIdentifiers p) g). exact Z.
      - apply S0; [exact Gh|]. intros p. destruct (Y _ (GMake _ 1 (AskIdentifiers p) (fun a => GStop _ a))) as (f & f' & _ & _ & E & E' & Z). cbn [gexecute] in Z. rewrite E, E' in Z.
        change (gdoes gqdit (AskIdentifiers p) h) with (gperform (AskIdentifiers p) h) in Z. destruct (gdoes i (AskIdentifiers p) t), (gperform (AskIdentifiers p) h). exact Z.
      - destruct (Y _ (GJoin _ 0 1 (fun a => GStop _ a))) as (f & f' & E0 & E0' & E & E' & Z). cbn [gexecute] in Z. rewrite E, E', E0, E0' in Z. cbn [gjoins gqdit] in Z.
        destruct (gjoins i s t). exact Z.
      - apply S0; [apply (append_joins g h G Gh)|]. intros p.
        destruct (Y _ (GJoin _ 0 1 (fun _ => GMake _ 0 (AskIdentifiers p) (fun a => GStop _ a)))) as (f & f' & E0 & E0' & E & E' & Z). cbn [gexecute] in Z. rewrite E, E', E0, E0' in Z. cbn [gjoins gqdit] in Z.
        destruct (gjoins i s t) as [u a]. rewrite !assign_same in Z. cbn [fst]. destruct (gdoes i (AskIdentifiers p) u). exact Z. }
    assert (Tr : forall (c : gcall I K D) B B' A0 A0' a, unchanged B B' -> unchanged A0 A0' -> gdocumented c B' A0' a -> gdocumented c B A0 a).
    { intros c B B' A0 A0' a EB EA. assert (EB' : forall p d, B' p d <-> B p d) by (intros p d; apply EB). assert (EA' : forall p d, A0' p d <-> A0 p d) by (intros p d; apply EA).
      assert (U : unchanged B' A0' -> unchanged B A0) by (intros U p d; rewrite <- EA', <- EB'; apply U).
      assert (Re : forall Q (IQ : InclusiveInterval I Q) (q : Q) (T' T : I -> D -> Prop) b, unchanged T T' -> rearranges q B' A0' b T' -> rearranges q B A0 b T).
      { intros Q IQ q T' T b ET [Y N]. split; intros V; [destruct (Y V) as [-> M]|destruct (N V) as [-> M]]; (split; [reflexivity|]); intros p d; rewrite <- EA', M; [apply ET|apply EB']. }
      destruct c as [p|Q IQ q|d Q IQ q|ids k|ids Q IQ q|Q IQ q]; cbn [gdocumented ganswer] in *.
      - intros [U1 (l & -> & Sl & M)]. split; [apply U, U1|]. exists l. split; [reflexivity|]. split; [exact Sl|]. intros d. rewrite M. apply EB'.
      - intros [U1 [Y N]]. split; [apply U, U1|]. split; [|exact N]. intros V. destruct (Y V) as (l & -> & L). exists l. split; [reflexivity|].
        eapply lists_ext; [|exact L]. intros p. split; intros Z d W; apply (Z d), EB', W.
      - intros [U1 [Y N]]. split; [apply U, U1|]. split; [|exact N]. intros V. destruct (Y V) as (l & -> & L). exists l. split; [reflexivity|].
        eapply lists_ext; [|exact L]. intros p. split; intros Z d' W; apply (Z d'), EB', W.
      - apply Re. intros p d. rewrite (EB' p d). reflexivity.
      - apply Re. intros p d. rewrite (EB' p d). reflexivity.
      - apply Re. intros p d. rewrite (EB' p d). reflexivity. }
    split; [|split].
    - intros p d (l & E & Hd). specialize (X _ (GMake _ 0 (AskIdentifiers p) (fun a => GStop _ a))). unfold grun_client in X. cbn [gexecute] in X.
      cbn [gdoes gqdit gperform] in X. assert (Y : has_id (gnew : Gqdit K D) p d); [|exact (gnew_free (K := K) p d Y)].
      exists l. split; [|exact Hd]. change (gstart gqdit) with (gnew : Gqdit K D) in X. rewrite <- X. destruct (gdoes i (AskIdentifiers p) (gstart i)). exact E.
    - intros s c Os. destruct (A s Os) as (g & Og & E & F). destruct (F c) as [F1 F2].
      apply (Tr c _ (sits g) _ (sits (fst (gperform c g)))); [exact E|exact F2|]. rewrite F1. exact (proj1 (gperform_spec DP g c (goccurs_GWF DP g Og))).
    - intros s t Os Ot. destruct (J s t Os Ot) as (g & h & Og & Oh & E1 & E2 & E3 & E4).
      destruct (append_joins g h (goccurs_GWF DP g Og) (goccurs_GWF DP h Oh)) as (A1 & _ & A2). split; [rewrite E3; exact A1|].
      intros p d. change (has (fst (gjoins i s t)) p d <-> has s p d \/ has t p d). rewrite <- (E4 p d), (A2 p d), (E1 p d), (E2 p d). reflexivity.
  Qed.
End Theorems.

(** The hypotheses are met, non-trivially: an implementation of its own that keeps the calls
    made so far and answers by replaying them does what is documented; *)
Definition replaying : gimplementation (I := u8) (K := Interval u8) (D := u8) :=
  {| gstate := list (gop u8 (Interval u8) u8); gstart := [];
     gdoes := fun c s =>
       (match c with
        | TellInsert ids k => s ++ [GInsert ids k]
        | TellCutWithIdentifiers ids q => s ++ [GCutWith ids q]
        | TellCutAllIdentifiers q => s ++ [GCutAll q]
        | _ => s
        end, snd (gperform c (grun s)));
     gjoins := fun s t => (s ++ [GAppend t], Val tt) |}.
Lemma replaying_documented : gqdit_as_documented replaying (fun s => sits (grun s)).
Proof.
  assert (St : forall (s : list (gop u8 (Interval u8) u8)) o, grun (s ++ [o]) = gstep o (grun s)).
  { intros s o. unfold grun, gsteps. rewrite fold_left_app. reflexivity. }
  split; [|split].
  - intros p d X. apply (gnew_free (K := Interval u8) p d). apply (has_id_iff _ p d gnew_GWF). exact X.
  - intros s c _. assert (G : GWF (grun s)) by (apply greachable_GWF; exists s; reflexivity).
    assert (X := proj1 (gperform_spec interval_determined (grun s) c G)). cbn [gdoes replaying fst snd].
    destruct c as [p|Q IQ q|d Q IQ q|ids k|ids Q IQ q|Q IQ q]; try exact X; rewrite St; exact X.
  - intros s t _ _. split; [reflexivity|]. cbn [gjoins replaying fst]. rewrite St.
    assert (G : GWF (grun s)) by (apply greachable_GWF; exists s; reflexivity).
    assert (G2 : GWF (grun t)) by (apply greachable_GWF; exists t; reflexivity).
    exact (proj2 (proj2 (append_joins (grun s) (grun t) G G2))).
Qed.
(** a program with two Gqdits whose calls depend on earlier answers. *)
Definition ex_gclient : gclient (I := u8) (K := Interval u8) (D := u8) (list (Interval u8) * list u8) :=
  GMake _ 0 (TellInsert ['5] (10 --> 20 : Interval u8)) (fun _ =>
  GMake _ 1 (TellInsert ['6] (15 --> 30 : Interval u8)) (fun _ =>
  GMake _ 1 (AskGapsNoIdentifier (0 --> 40 : Interval u8)) (fun o =>
    match o with
    | Val (k :: _) =>
        GMake _ 0 (TellInsert ['7] k) (fun _ =>
        GJoin _ 0 1 (fun _ =>
        GMake _ 0 (TellCutWithIdentifiers ['7] (12 --> 13 : Interval u8)) (fun _ =>
        GMake _ 0 (AskIdentifiers '18) (fun a =>
        GMake _ 0 (AskGapsWithIdentifier '7 (0 --> 40 : Interval u8)) (fun b =>
          match a, b with Val a, Val b => GStop _ (b, a) | _, _ => GStop _ ([], []) end)))))
    | _ => GStop _ ([], [])
    end))).
Example C131_example : determined_by_points u8 (Interval u8) /\
  gqdit_as_documented replaying (fun s => sits (grun s)) /\
  grun_client replaying ex_gclient = grun_client gqdit ex_gclient /\
  grun_client gqdit ex_gclient = ([0 --> 9 : Interval u8; 31 --> 255 : Interval u8], ['5; '6]).
Proof.
  split; [exact interval_determined|]. split; [exact replaying_documented|]. split.
  - exact (C131_indistinguishable interval_determined replaying gqdit _ _ replaying_documented (C131_gqdit_as_documented interval_determined) _ ex_gclient).
  - vm_compute. reflexivity.
Qed.

Print Assumptions C131_indistinguishable.
Print Assumptions C131_gqdit_as_documented.
Print Assumptions C131_indistinguishable_only_if_documented.
