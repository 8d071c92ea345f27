(** * GqditAlgebra: Gqdit calls as operations on the identifiers at each point;
      lists of maximal runs are determined by the points (for C87, C88). *)
From Coq Require Import List ZArith Bool Lia Sorting.Sorted.
From Verif Require Import Base BTree IntervalModel NoditModel GqditModel GqditOps Spec
  PointFacts IntervalFacts NoditFacts GqditFacts GqditProofs GqditGaps.
Import ListNotations.
Open Scope Z_scope.

Section Facts.
  Context {I : Type} `{PL : PointLaws I}.
  Context {K : Type} {IK : InclusiveInterval I K} {IL : IntervalLaws I K}.
  Context {D : Type} {OD : Ord D} {OL : OrdLaws D}.
  Implicit Types (g : Gqdit K D) (k : K) (p : I) (d : D) (ids : list D).

  Lemma covers_dec {A} {IA : InclusiveInterval I A} (a : A) p : covers a p \/ ~ covers a p.
  Proof. rewrite covers_rk. lia. Qed.
  Lemma id_dec d ids : In d ids \/ ~ In d ids.
  Proof.
    destruct (bset_contains (ids : BTreeSet D) d) eqn:E; [left; apply contains_in, E|right].
    intros X. apply contains_in in X. congruence.
  Qed.
  Lemma has_dec g p d : GWF g -> has_id g p d \/ ~ has_id g p d.
  Proof. intros G. destruct (ids_maps g p G) as (s & _ & M & _). rewrite (has_id_in g p s d G M). apply id_dec. Qed.

  Lemma not_valid_covers {A} {IA : InclusiveInterval I A} (a : A) p : ~ valid a -> ~ covers a p.
  Proof. intros V C. apply V. exists p. exact C. Qed.
  Lemma valid_dec {A} {IA : InclusiveInterval I A} (a : A) : valid a \/ ~ valid a.
  Proof. rewrite valid_rk. lia. Qed.

  (** Each call, whether or not it panics. *)
  Lemma ins_all ids k g : GWF g -> GWF (fst (gqdit_insert (collect ids) k g)) /\
    forall p d, has_id (fst (gqdit_insert (collect ids) k g)) p d <-> has_id g p d \/ (covers k p /\ In d ids).
  Proof.
    intros G. destruct (valid_dec k) as [V|V].
    - destruct (insert_has (collect ids) k g G V (collect_set ids)) as (g' & E & G' & M). rewrite E. split; [exact G'|].
      intros p d. cbn [fst]. rewrite M, collect_in. reflexivity.
    - rewrite insert_bad by exact V. split; [exact G|]. intros p d. cbn [fst]. pose proof (not_valid_covers k p V). tauto.
  Qed.
  Lemma cutw_all {Q} {IQ : InclusiveInterval I Q} ids (q : Q) g : GWF g -> GWF (fst (cut_with_identifiers (collect ids) q g)) /\
    forall p d, has_id (fst (cut_with_identifiers (collect ids) q g)) p d <-> has_id g p d /\ ~ (covers q p /\ In d ids).
  Proof.
    intros G. destruct (valid_dec q) as [V|V].
    - destruct (cut_with_has (collect ids) q g G V) as (g' & E & G' & M). rewrite E. split; [exact G'|].
      intros p d. cbn [fst]. rewrite M, collect_in. reflexivity.
    - rewrite cut_with_bad by exact V. split; [exact G|]. intros p d. cbn [fst]. pose proof (not_valid_covers q p V). tauto.
  Qed.
  Lemma cuta_all {Q} {IQ : InclusiveInterval I Q} (q : Q) g : GWF g -> GWF (fst (cut_all_identifiers q g)) /\
    forall p d, has_id (fst (cut_all_identifiers q g)) p d <-> has_id g p d /\ ~ covers q p.
  Proof.
    intros G. destruct (valid_dec q) as [V|V].
    - destruct (cut_all_has q g G V) as (g' & E & G' & M). rewrite E. split; [exact G'|]. exact M.
    - rewrite cut_all_bad by exact V. split; [exact G|]. intros p d. cbn [fst]. pose proof (not_valid_covers q p V). tauto.
  Qed.
  Lemma app_all g g2 : GWF g -> GWF g2 -> GWF (fst (fst (append g g2))) /\
    forall p d, has_id (fst (fst (append g g2))) p d <-> has_id g p d \/ has_id g2 p d.
  Proof. intros G G2. destruct (append_spec g g2 G (or_introl G2)) as (g' & E & X). rewrite E. exact X. Qed.

  (** Ascending lists with the same intervals. *)
  Lemma asc_same {A B} {IA : InclusiveInterval I A} {IB : InclusiveInterval I B} : forall (l : list A) (l' : list B),
    ascending l -> ascending l' -> Forall valid l -> Forall valid l' ->
    (forall a, In a l -> exists b, In b l' /\ same_points a b) -> (forall b, In b l' -> exists a, In a l /\ same_points a b) ->
    Forall2 same_points l l'.
  Proof.
    induction l as [|a l IH]; intros l' S S' V V' F G.
    - destruct l' as [|b l']; [constructor|]. destruct (G b (or_introl eq_refl)) as (x & [] & _).
    - destruct l' as [|b l']; [destruct (F a (or_introl eq_refl)) as (x & [] & _)|].
      inversion S as [|? ? S1 F1]; subst. inversion S' as [|? ? S1' F1']; subst.
      apply Forall_cons_iff in V, V'. destruct V as [Va V], V' as [Vb V'].
      rewrite Forall_forall in F1, F1', V, V'.
      assert (R : forall x, In x l -> hi a < lo x).
      { intros x Hx. specialize (F1 x Hx). apply before_rk in F1; [exact F1|apply valid_rk, Va|apply valid_rk, V, Hx]. }
      assert (R' : forall x, In x l' -> hi b < lo x).
      { intros x Hx. specialize (F1' x Hx). apply before_rk in F1'; [exact F1'|apply valid_rk, Vb|apply valid_rk, V', Hx]. }
      pose proof (proj1 (valid_rk a) Va) as La. pose proof (proj1 (valid_rk b) Vb) as Lb.
      assert (E : forall x y, In x (a :: l) -> In y (b :: l') -> same_points x y -> lo x = lo y /\ hi x = hi y).
      { intros x y Hx Hy Hs. apply same_points_rk; [..|exact Hs].
        - destruct Hx as [<-|Hx]; [exact La|apply valid_rk, V, Hx].
        - destruct Hy as [<-|Hy]; [exact Lb|apply valid_rk, V', Hy]. }
      assert (Sab : same_points a b).
      { destruct (F a (or_introl eq_refl)) as (y & Hy & Sy). destruct Hy as [<-|Hy]; [exact Sy|].
        destruct (G b (or_introl eq_refl)) as (x & Hx & Sx). destruct Hx as [<-|Hx]; [exact Sx|].
        destruct (E _ _ (or_introl eq_refl) (or_intror Hy) Sy), (E _ _ (or_intror Hx) (or_introl eq_refl) Sx).
        specialize (R x Hx). specialize (R' y Hy). lia. }
      destruct (E _ _ (or_introl eq_refl) (or_introl eq_refl) Sab) as [E1 E2].
      constructor; [exact Sab|]. apply IH; try assumption; try (apply Forall_forall; assumption).
      + intros x Hx. destruct (F x (or_intror Hx)) as (y & Hy & Sy). destruct Hy as [<-|Hy]; [|exists y; auto].
        destruct (E _ _ (or_intror Hx) (or_introl eq_refl) Sy). specialize (R x Hx). lia.
      + intros y Hy. destruct (G y (or_intror Hy)) as (x & Hx & Sx). destruct Hx as [<-|Hx]; [|exists x; auto].
        destruct (E _ _ (or_introl eq_refl) (or_intror Hy) Sx). specialize (R' y Hy). lia.
  Qed.
  Lemma lists_unique {A B} {IA : InclusiveInterval I A} {IB : InclusiveInterval I B} (P P' : I -> Prop) sel (l : list A) (l' : list B) :
    (forall p, P p <-> P' p) -> lists_max_runs P sel l -> lists_max_runs P' sel l' -> Forall2 same_points l l'.
  Proof.
    intros E (S & F & C) (S' & F' & C'). apply asc_same; [exact S|exact S'|..].
    - apply Forall_forall. intros a Ha. apply (F a Ha).
    - apply Forall_forall. intros a Ha. apply (F' a Ha).
    - intros a Ha. destruct (F a Ha) as [R Hs].
      destruct (C' (mkInterval (istart a) (iend a))) as (b & Hb & Sb); [apply (max_run_iff P P'); [exact E|exact R]|exact Hs|].
      exists b. split; [exact Hb|]. intros p. symmetry. exact (Sb p).
    - intros b Hb. destruct (F' b Hb) as [R Hs].
      destruct (C (mkInterval (istart b) (iend b))) as (a & Ha & Sa); [apply (max_run_iff P' P); [intros p; symmetry; apply E|exact R]|exact Hs|].
      exists a. split; [exact Ha|]. intros p. exact (Sa p).
  Qed.
  Lemma Forall2_same_eq {OLI : OrdLaws I} (l l' : list (Interval I)) : Forall valid l -> Forall valid l' -> Forall2 same_points l l' -> l = l'.
  Proof.
    intros V V' F. induction F as [|[a1 a2] [b1 b2] l l' S F IH]; [reflexivity|].
    apply Forall_cons_iff in V, V'. destruct V as [Va V], V' as [Vb V']. f_equal; [|apply IH; assumption].
    apply same_points_rk in S; [|apply valid_rk; assumption..]. unfold lo, hi in S. cbn in S.
    destruct S as [S1 S2]. f_equal; apply rk_inj; assumption.
  Qed.
End Facts.
