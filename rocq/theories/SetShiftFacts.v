(** * SetShiftFacts: proofs about moving whole sets (C182). *)
From Coq Require Import List ZArith Bool Lia.
From Verif Require Import Base BTree UtilsModel IntervalModel NoditModel NoditSetModel NoditOps NoditSetOps SetAlgebraOps InstancesModel Instances Spec FirstFitOps PlacesOps MeasureOps ShiftOps SetShiftOps
  PointFacts IntervalFacts NoditFacts NoditInv NoditQueries NoditSetFacts SetAlgebra FirstFitFacts PlacesFacts ShiftFacts PropsShift MeasureFacts.
Import ListNotations.
Open Scope Z_scope.

(** Things in one-to-one correspondence are as many. *)
Lemma number_one_to_one {A B} (P : A -> Prop) (S : B -> Prop) (R : A -> B -> Prop) n :
  (forall x, P x -> exists y, R x y /\ S y) -> (forall y, S y -> exists x, R x y /\ P x) ->
  (forall x y y', R x y -> R x y' -> y = y') -> (forall x x' y, R x y -> R x' y -> x = x') ->
  number_of P n -> number_of S n.
Proof.
  intros F G U V (l & ND & H & <-).
  assert (X : forall l : list A, NoDup l -> (forall x, In x l -> P x) -> exists l', NoDup l' /\ (forall y, In y l' <-> exists x, In x l /\ R x y) /\ length l' = length l).
  { clear l ND H. induction l as [|x l IH]; intros ND H; [exists []; repeat split; [constructor|intros []|intros (x & [] & _)]|]. inversion ND as [|? ? Nx ND']; subst.
    destruct (IH ND' (fun y Hy => H y (or_intror Hy))) as (l' & N' & I' & L'). destruct (F x (H x (or_introl eq_refl))) as (y & Ry & _). exists (y :: l'). split; [|split].
    - constructor; [|exact N']. intros Hy. apply I' in Hy. destruct Hy as (x' & Hx' & R'). rewrite (V _ _ _ Ry R') in Nx. contradiction.
    - intros z. cbn. rewrite I'. split.
      + intros [<-|(x' & Hx' & R')]; [exists x|exists x']; auto.
      + intros (x' & [<-|Hx'] & R'); [left; exact (U _ _ _ Ry R')|right; exists x'; auto].
    - cbn. rewrite L'. reflexivity. }
  destruct (X l ND (fun x => proj1 (H x))) as (l' & N' & I' & L'). exists l'. split; [exact N'|]. split; [|rewrite L'; reflexivity].
  intros y. rewrite I'. split.
  - intros (x & Hx & Rx). apply H in Hx. destruct (F x Hx) as (y' & R' & Sy). rewrite (U _ _ _ Rx R'). exact Sy.
  - intros Sy. destruct (G y Sy) as (x & Rx & Px). exists x. rewrite H. auto.
Qed.

Section Facts.
  Context {lo hi : Z} `{T : IntType lo hi}.
  Notation int := (int lo hi).
  Context {K : Type} {IK : InclusiveInterval int K} {IL : IntervalLaws int K} {FI : FromInvalid int K}.
  Implicit Types (s : NoditSet K) (env : nat -> NoditSet K) (b : build) (d p : int) (e : program).

  Lemma set_translate_map b d s : set_translate_all b d (set_into_iter s) = omap (map fst) (translate_all b d (into_iter s)).
  Proof.
    unfold set_into_iter, into_iter. induction s as [|[k []] s IH]; [reflexivity|]. cbn [map first set_translate_all translate_all]. rewrite IH.
    destruct (translate (sum b) k d); [|reflexivity]. cbn [obind]. destruct (translate_all b d s); reflexivity.
  Qed.
  Lemma set_shift_map b d s : set_shift b d s = shift b d s.
  Proof.
    unfold set_shift, shift. rewrite set_translate_map. destruct (translate_all b d (into_iter s)) as [l|]; [|reflexivity]. cbn [omap obind]. unfold set_from_iter_strict, from_iter_strict. rewrite set_extend_map.
    assert (X : map unit_entry (map fst l) = l) by (clear; induction l as [|[k []] l IH]; [reflexivity|]; cbn; rewrite IH; reflexivity). rewrite X. reflexivity.
  Qed.
  Lemma set_shift_reachable b d s s' : set_shift b d s = Val (Ok s') -> set_reachable s'.
  Proof.
    unfold set_shift. destruct (set_translate_all b d (set_into_iter s)) as [l|]; [|discriminate]. cbn [obind]. intros E. exists [SFromIterStrict l]. unfold set_run. cbn [fold_left set_step]. rewrite E. reflexivity.
  Qed.
  Lemma set_maps_same s s' p p' : WF s -> WF s' -> (maps_to s' p' tt <-> maps_to s p tt) -> set_contains_point s' p' = set_contains_point s p.
  Proof.
    intros W W' E. rewrite <- !in_set_maps in E. destruct (set_contains_point_spec s p W) as [A B]. destruct (set_contains_point_spec s' p' W') as [A' B'].
    unfold set_contains_point in *. destruct (map_contains_point_spec s p W) as ([|] & X & _); rewrite X in *.
    - apply A', E, A. reflexivity.
    - apply B'. rewrite E. apply B. reflexivity.
  Qed.
  Lemma around_unique p p' (z : Z) : around (lo := lo) (hi := hi) z (ival p) -> around (lo := lo) (hi := hi) z (ival p') -> p = p'.
  Proof.
    intros [n E] [n' E']. apply int_eq. pose proof (int_range p). pose proof (int_range p'). assert (n = n') by nia. subst. lia.
  Qed.
  Lemma around_back p p' p0 d : around (lo := lo) (hi := hi) (ival p + ival d) (ival p0) -> around (lo := lo) (hi := hi) (ival p' + ival d) (ival p0) -> p = p'.
  Proof.
    intros [n E] [n' E']. apply int_eq. pose proof (int_range p). pose proof (int_range p'). assert (n = n') by nia. subst. lia.
  Qed.
  Lemma set_shift_points b d s s' p p' : lo <= 0 <= hi -> set_reachable s -> set_shift b d s = Val (Ok s') -> around (lo := lo) (hi := hi) (ival p + ival d) (ival p') ->
    set_contains_point s' p' = set_contains_point s p.
  Proof.
    intros L R E A. pose proof (set_shift_reachable _ _ _ _ E) as R'. apply set_reachable_WF in R, R'. rewrite set_shift_map in E. apply set_maps_same; [assumption..|]. destruct b.
    - destruct (fits_dec_all (ival d) s) as [H|H]; [|rewrite (shift_panics d s R H) in E; discriminate].
      destruct (shift_fits Debug d s R H) as (m' & E' & W' & F). rewrite E in E'. injection E' as <-. split.
      + intros (k' & Hi & Hc). destruct (Forall2_in_r _ _ _ _ F Hi) as ([k []] & Hk & X1 & X2 & _). cbn in X1, X2. exists k. split; [exact Hk|]. rewrite covers_int in Hc |- *.
        assert (ival p' = ival p + ival d); [|lia]. destruct A as [n An]. pose proof (int_range p). pose proof (int_range (istart k)). pose proof (int_range (iend k)). assert (n = 0) by nia. subst. lia.
      + intros Hm. pose proof Hm as (k & Hi & Hc). pose proof (H _ Hi) as [F1 F2]. cbn in F1, F2. rewrite covers_int in Hc.
        assert (Ep : ival p' = ival p + ival d). { destruct A as [n An]. pose proof (int_range p'). assert (n = 0) by nia. subst. lia. }
        apply (moved_points _ _ _ p p' tt F Ep). exact Hm.
    - destruct (unsplit_dec_all (ival d) s) as [H|H]; [|rewrite (shift_release_panics d s L R H) in E; discriminate].
      destruct (shift_release d s L R H) as (m' & E' & W' & _ & P). rewrite E in E'. injection E' as <-. exact (P p p' tt A).
  Qed.
  Lemma around_exists (z : Z) : lo <= hi -> exists p : int, around (lo := lo) (hi := hi) z (ival p).
  Proof.
    intros L. destruct (at_int (lo := lo) (hi := hi) (lo + (z - lo) mod (hi - lo + 1))) as [p Ep].
    - pose proof (Z.mod_pos_bound (z - lo) (hi - lo + 1)). lia.
    - exists p, (- ((z - lo) / (hi - lo + 1))). rewrite Ep. pose proof (Z.div_mod (z - lo) (hi - lo + 1)). lia.
  Qed.
  Lemma programs_shift b d env env' e p p' : lo <= 0 <= hi -> (forall n, set_reachable (I := int) (env n)) -> (forall n, set_shift b d (env n) = Val (Ok (env' n))) ->
    around (lo := lo) (hi := hi) (ival p + ival d) (ival p') -> truth (member env' p') e = truth (member env p) e.
  Proof.
    intros L R E A. assert (X : forall n, member env' p' n = member env p n) by (intros n; unfold member; rewrite (set_shift_points b d (env n) (env' n) p p' L (R n) (E n) A); reflexivity).
    induction e; cbn; congruence.
  Qed.
End Facts.
