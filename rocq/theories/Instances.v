(** * Instances: the provided point and interval types obey the laws. *)
From Coq Require Import List ZArith Bool Lia ZifyBool Eqdep_dec.
From Verif Require Import Base IntervalModel InstancesModel PointFacts.
Import ListNotations.
Open Scope Z_scope.

Section IntFacts.
  Context {lo hi : Z}.
  Lemma int_eq (x y : int lo hi) : ival x = ival y -> x = y.
  Proof.
    destruct x as [x Hx], y as [y Hy]. cbn. intros <-. f_equal.
    apply UIP_dec. apply bool_dec.
  Qed.
  Lemma int_range (x : int lo hi) : lo <= ival x <= hi.
  Proof. destruct x as [x Hx]. unfold fits in Hx. cbn. lia. Qed.
  Lemma of_Z_some z (x : int lo hi) : of_Z z = Some x <-> ival x = z.
  Proof.
    unfold of_Z. destruct (Sumbool.sumbool_of_bool (fits lo hi z)) as [e|e].
    - split; [intros E; injection E as <-; reflexivity|]. intros E. f_equal. apply int_eq. cbn. auto.
    - split; [discriminate|]. intros <-. destruct x as [x Hx]. cbn in e. congruence.
  Qed.
  Lemma of_Z_none z : (of_Z z : option (int lo hi)) = None <-> ~ (lo <= z <= hi).
  Proof.
    unfold of_Z. destruct (Sumbool.sumbool_of_bool (fits lo hi z)) as [e|e]; unfold fits in e.
    - split; [discriminate|]. lia.
    - split; [lia|reflexivity].
  Qed.
  Lemma of_Z_fits z : lo <= z <= hi -> exists x : int lo hi, of_Z z = Some x /\ ival x = z.
  Proof.
    intros Hz. destruct (of_Z z : option (int lo hi)) as [x|] eqn:E.
    - exists x. split; [reflexivity|]. apply of_Z_some, E.
    - apply of_Z_none in E. lia.
  Qed.
End IntFacts.

Lemma cmp_int {lo hi} (x y : int lo hi) : cmp x y = (ival x ?= ival y).
Proof. reflexivity. Qed.

#[export] Instance OrdLaws_int lo hi : OrdLaws (int lo hi).
Proof.
  split.
  - intros x y. rewrite cmp_int, Z.compare_eq_iff. split; [apply int_eq|intros ->; reflexivity].
  - intros x y. rewrite !cmp_int. apply Z.compare_antisym.
  - intros x y z. rewrite !cmp_int, !Z.compare_lt_iff. lia.
Qed.

Definition all_ints lo hi : list (int lo hi) :=
  flat_map (fun n => match of_Z (lo + Z.of_nat n) with Some x => [x] | None => [] end)
           (seq 0 (Z.to_nat (hi - lo + 1))).

#[export] Instance PointLaws_int lo hi `{IntType lo hi} : PointLaws (int lo hi).
Proof.
  assert (L : forall x y : int lo hi, ltb x y = (ival x <? ival y)).
  { intros x y. unfold ltb. rewrite cmp_int. unfold Z.ltb. destruct (ival x ?= ival y); reflexivity. }
  assert (L' : forall x y : int lo hi, leb x y = (ival x <=? ival y)).
  { intros x y. unfold leb. rewrite cmp_int. unfold Z.leb. destruct (ival x ?= ival y); reflexivity. }
  refine {| point_ord := TotalPreorder_OrdLaws _ _ _; points := all_ints lo hi |}.
  - intros x. rewrite L'. cbn. pose proof (int_range x). lia.
  - intros x. rewrite L'. cbn. pose proof (int_range x). lia.
  - cbn. intros x y E. apply of_Z_some in E. rewrite L. split; [lia|]. intros z. rewrite L, L'. lia.
  - cbn. intros x E z. apply of_Z_none in E. rewrite L. pose proof (int_range z). pose proof (int_range x). lia.
  - cbn. intros x y E. apply of_Z_some in E. rewrite L. split; [lia|]. intros z. rewrite L, L'. lia.
  - cbn. intros x E z. apply of_Z_none in E. rewrite L. pose proof (int_range z). pose proof (int_range x). lia.
  - intros x. exists x. split; [|apply cmp_eq; reflexivity]. unfold all_ints. apply in_flat_map. pose proof (int_range x) as R.
    exists (Z.to_nat (ival x - lo)). split.
    + apply in_seq. lia.
    + replace (lo + Z.of_nat (Z.to_nat (ival x - lo))) with (ival x) by lia.
      rewrite (proj2 (of_Z_some (ival x) x)) by reflexivity. left. reflexivity.
Qed.

#[export] Instance OrdLaws_WithInfinity T `{OrdLaws T} : OrdLaws (WithInfinity T).
Proof.
  split.
  - intros [x|] [y|]; cbn; try (split; congruence). rewrite cmp_eq. split; congruence.
  - intros [x|] [y|]; cbn; try reflexivity. apply cmp_opp.
  - intros [x|] [y|] [z|]; cbn; try congruence. apply cmp_trans.
Qed.

#[export] Instance TotalPreorder_WithInfinity T `{TotalPreorder T} : TotalPreorder (WithInfinity T).
Proof.
  split.
  - intros [x|]; cbn; [apply cmp_same|reflexivity].
  - intros [x|] [y|]; cbn; try reflexivity. apply cmp_flip.
  - intros [x|] [y|] [z|]; cbn; try congruence. apply cmp_le_trans.
Qed.

#[export] Instance PointLaws_WithInfinity T `{PT : PointLaws T} : PointLaws (WithInfinity T).
Proof.
  refine {| point_ord := TotalPreorder_WithInfinity T; points := Infinity :: map Finite points |}.
  - intros [x|]; [apply (min_least x)|reflexivity].
  - intros [x|]; reflexivity.
  - intros [x|] y; cbn; [|discriminate]. destruct (up x) as [u|] eqn:E; intros Ey; injection Ey as <-.
    + destruct (up_some _ _ E) as [E1 E2]. split; [exact E1|]. intros [z|] Hz; [apply E2, Hz|reflexivity].
    + split; [reflexivity|]. intros [z|] Hz; [|reflexivity].
      pose proof (up_none _ E z) as N. unfold ltb in N, Hz. cbn in Hz. destruct (cmp x z); discriminate.
  - intros [x|]; cbn; [destruct (up x); discriminate|]. intros _ [z|]; reflexivity.
  - intros [x|] y; cbn.
    + destruct (down x) as [d|] eqn:E; intros Ey; [injection Ey as <-|discriminate].
      destruct (down_some _ _ E) as [E1 E2]. split; [exact E1|]. intros [z|] Hz; [apply E2, Hz|discriminate].
    + intros Ey. injection Ey as <-. split; [reflexivity|]. intros [z|] Hz; [apply (max_greatest z)|discriminate].
  - intros [x|]; cbn; [|discriminate]. destruct (down x) as [d|] eqn:E; [discriminate|]. intros _ [z|].
    + apply (down_none _ E z).
    + reflexivity.
  - intros [x|]; [|exists Infinity; split; [left|]; reflexivity].
    destruct (points_all x) as (y & A & B). exists (Finite y). split; [right; apply in_map, A|exact B].
Qed.

#[export] Instance IntervalLaws_Interval I `{TotalPreorder I} : IntervalLaws I (Interval I).
Proof. split. intros i _. split; apply cmp_same. Qed.
#[export] Instance FromInvalid_Interval I `{Ord I} : FromInvalid I (Interval I).
Proof. split; cbn; auto. Qed.

#[export] Instance IntervalLaws_Reservation2 : IntervalLaws i8 Reservation2.
Proof.
  assert (E : forall i : Interval i8, eqb (ivl_end i) MAX = true -> MAX = ivl_end i).
  { intros i. unfold eqb. destruct (cmp (ivl_end i) MAX) eqn:C; try discriminate. apply cmp_eq in C. auto. }
  split; intros i Hi; rewrite !cmp_eq; unfold istart, iend, ifrom, InclusiveInterval_Reservation2;
    destruct (eqb (ivl_end i) MAX) eqn:C; auto.
Qed.
#[export] Instance FromInvalid_Reservation2 : FromInvalid i8 Reservation2.
Proof.
  assert (E : forall i : Interval i8, eqb (ivl_end i) MAX = true -> MAX = ivl_end i).
  { intros i. unfold eqb. destruct (cmp (ivl_end i) MAX) eqn:C; try discriminate. apply cmp_eq in C. auto. }
  split; intros i Hi; unfold istart, iend, ifrom, InclusiveInterval_Reservation2;
    destruct (eqb (ivl_end i) MAX) eqn:C; auto.
  apply E in C. rewrite C. exact Hi.
Qed.
