(** * PointFacts: points as integers.

    The rank of a point is the number of smaller points.  It turns the order,
    [up] and [down] of a lawful point type into integer arithmetic, so that
    [lia] decides statements about points. *)
From Coq Require Import List ZArith Bool Lia ZifyBool.
From Verif Require Import Base Spec.
Import ListNotations.
Open Scope Z_scope.

Section OrdFacts.
  Context {A : Type} `{OrdLaws A}.
  Lemma cmp_refl (x : A) : cmp x x = Eq.
  Proof. apply cmp_eq. reflexivity. Qed.
  Lemma ord_eq_dec (x y : A) : {x = y} + {x <> y}.
  Proof.
    destruct (cmp x y) eqn:E.
    - left. apply cmp_eq. exact E.
    - right. intros ->. rewrite cmp_refl in E. discriminate.
    - right. intros ->. rewrite cmp_refl in E. discriminate.
  Qed.
  Lemma eqb_true (x y : A) : eqb x y = true <-> x = y.
  Proof.
    unfold eqb. rewrite <- cmp_eq. destruct (cmp x y); split; congruence.
  Qed.
End OrdFacts.

#[export] Instance TotalPreorder_OrdLaws (A : Type) (O : Ord A) (OL : OrdLaws A) : TotalPreorder A.
Proof.
  constructor.
  - intros x. apply cmp_eq. reflexivity.
  - apply cmp_opp.
  - intros x y z A1 A2 C. destruct (cmp x y) eqn:E1; [apply cmp_eq in E1; subst y; contradiction| |contradiction].
    destruct (cmp y z) eqn:E2; [apply cmp_eq in E2; subst z; rewrite E1 in C; discriminate| |contradiction].
    rewrite (cmp_trans x y z E1 E2) in C. discriminate.
Qed.

Section Rank.
  Context {I : Type} `{PL : PointLaws I}.

  (** One point of each class of points that compare [Equal]. *)
  Fixpoint dedup (l : list I) : list I :=
    match l with
    | [] => []
    | x :: r => if existsb (eqb x) r then dedup r else x :: dedup r
    end.
  Definition all_points : list I := dedup points.
  Definition below (x : I) : list I := filter (fun p => ltb p x) all_points.
  Definition rk (x : I) : Z := Z.of_nat (length (below x)).

  Lemma cmp_sym (x y : I) : cmp x y = Eq -> cmp y x = Eq.
  Proof. intros E. rewrite (cmp_flip x y), E. reflexivity. Qed.
  Lemma cmp_eq_r (x y z : I) : cmp x y = Eq -> cmp z x = cmp z y.
  Proof.
    intros E. pose proof (cmp_sym _ _ E) as E'.
    assert (A : forall u w, cmp u w = Eq -> cmp z u <> Gt -> cmp z w <> Gt).
    { intros u w C L. apply (cmp_le_trans z u w L). rewrite C. discriminate. }
    assert (B : forall u w, cmp u w = Eq -> cmp u z <> Gt -> cmp w z <> Gt).
    { intros u w C L. apply (cmp_le_trans w u z); [|exact L]. rewrite (cmp_sym _ _ C). discriminate. }
    pose proof (A _ _ E) as A1. pose proof (A _ _ E') as A2. pose proof (B _ _ E) as B1. pose proof (B _ _ E') as B2.
    rewrite (cmp_flip z x), (cmp_flip z y) in B1, B2.
    destruct (cmp z x), (cmp z y); cbn in *; try reflexivity; exfalso;
      first [now apply A1|now apply A2|now apply B1|now apply B2].
  Qed.
  Lemma cmp_eq_l (x y z : I) : cmp x y = Eq -> cmp x z = cmp y z.
  Proof. intros E. rewrite (cmp_flip z x), (cmp_flip z y), (cmp_eq_r x y z E). reflexivity. Qed.
  Lemma cmp_lt_trans (x y z : I) : cmp x y = Lt -> cmp y z = Lt -> cmp x z = Lt.
  Proof.
    intros A B. destruct (cmp x z) eqn:C; [|reflexivity|]; exfalso.
    - rewrite (cmp_eq_l x z y C), (cmp_flip y z), B in A. discriminate.
    - assert (L : cmp z y <> Gt).
      { apply (cmp_le_trans z x y); [rewrite (cmp_flip x z), C; discriminate|rewrite A; discriminate]. }
      rewrite (cmp_flip y z), B in L. apply L. reflexivity.
  Qed.
  Lemma dedup_all l x b : In b l -> cmp x b = Eq -> exists y, In y (dedup l) /\ cmp x y = Eq.
  Proof.
    revert x b. induction l as [|a r IH]; [intros ? ? []|]. intros x b B C. cbn. destruct (existsb (eqb a) r) eqn:E.
    - destruct B as [->|B]; [|exact (IH x b B C)]. apply existsb_exists in E. destruct E as (d & D1 & D2).
      apply (IH x d D1). assert (D : cmp b d = Eq) by (unfold eqb in D2; destruct (cmp b d); congruence).
      rewrite <- (cmp_eq_r b d x D). exact C.
    - destruct B as [->|B]; [exists b; split; [left; reflexivity|exact C]|].
      destruct (IH x b B C) as (y & Y1 & Y2). exists y. split; [right; exact Y1|exact Y2].
  Qed.
  Lemma dedup_incl l x : In x (dedup l) -> In x l.
  Proof.
    induction l as [|a r IH]; [intros []|]. cbn. destruct (existsb (eqb a) r); [intros A; right; apply IH, A|].
    intros [->|A]; [left; reflexivity|right; apply IH, A].
  Qed.
  Lemma dedup_once l x : (length (filter (fun p => eqb x p) (dedup l)) <= 1)%nat.
  Proof.
    induction l as [|a r IH]; [cbn; lia|]. cbn. destruct (existsb (eqb a) r) eqn:E; [exact IH|]. cbn.
    destruct (eqb x a) eqn:X; [|exact IH]. cbn.
    replace (filter (fun p => eqb x p) (dedup r)) with (@nil I); [cbn; lia|]. symmetry.
    destruct (filter (fun p => eqb x p) (dedup r)) as [|b l] eqn:F; [reflexivity|exfalso].
    assert (B : In b (filter (fun p => eqb x p) (dedup r))) by (rewrite F; left; reflexivity).
    apply filter_In in B. destruct B as [B1 B2]. apply dedup_incl in B1.
    assert (C : existsb (eqb a) r = true); [|congruence]. apply existsb_exists. exists b. split; [exact B1|].
    unfold eqb in *. destruct (cmp x a) eqn:X1; try discriminate. rewrite <- (cmp_eq_l x a b X1). exact B2.
  Qed.
  Lemma point_listed x : exists y, In y all_points /\ cmp x y = Eq.
  Proof.
    destruct (points_all x) as (y & A & B). exact (dedup_all points x y A B).
  Qed.

  Lemma ltb_cmp (x y : I) : ltb x y = true <-> cmp x y = Lt.
  Proof. unfold ltb. destruct (cmp x y); split; congruence. Qed.
  Lemma rk_lt x y : cmp x y = Lt -> rk x < rk y.
  Proof.
    intros E. unfold rk, below.
    assert (T : forall a, ltb a x = true -> ltb a y = true)
      by (intros a; rewrite !ltb_cmp; intros A; exact (cmp_lt_trans _ _ _ A E)).
    assert (M : forall l, (length (filter (fun z => ltb z x) l) <= length (filter (fun z => ltb z y) l))%nat).
    { intros l. induction l as [|b l IH]; cbn; [lia|]. destruct (ltb b x) eqn:C; [rewrite (T b C); cbn; lia|].
      destruct (ltb b y); cbn; lia. }
    destruct (point_listed x) as (r & R1 & R2). revert R1. induction all_points as [|a l IH]; intros R1; [destruct R1|].
    cbn. destruct R1 as [->|R1].
    - assert (X : ltb r x = false) by (unfold ltb; rewrite (cmp_sym _ _ R2); reflexivity).
      assert (Y : ltb r y = true) by (apply ltb_cmp; rewrite <- (cmp_eq_l x r y R2); exact E).
      rewrite X, Y. cbn. specialize (M l). lia.
    - specialize (IH R1). destruct (ltb a x) eqn:C; [rewrite (T a C); cbn; lia|]. destruct (ltb a y); cbn; lia.
  Qed.
  Lemma rk_same x y : cmp x y = Eq -> rk x = rk y.
  Proof.
    intros E. unfold rk, below. f_equal. f_equal. apply filter_ext. intros a. unfold ltb. rewrite (cmp_eq_r x y a E). reflexivity.
  Qed.

  Lemma cmp_rk x y : cmp x y = Z.compare (rk x) (rk y).
  Proof.
    symmetry. destruct (cmp x y) eqn:E.
    - apply Z.compare_eq_iff, rk_same, E.
    - apply Z.compare_lt_iff, rk_lt, E.
    - apply Z.compare_gt_iff, rk_lt. rewrite (cmp_flip x y), E. reflexivity.
  Qed.

  Lemma rk_eq x y : cmp x y = Eq <-> rk x = rk y.
  Proof. rewrite cmp_rk. apply Z.compare_eq_iff. Qed.
  (** Only if no two different points compare [Equal]. *)
  Lemma rk_inj {OL : OrdLaws I} x y : rk x = rk y -> x = y.
  Proof. intros E. apply cmp_eq, rk_eq, E. Qed.

  Lemma ltb_rk x y : ltb x y = (rk x <? rk y).
  Proof. unfold ltb. rewrite cmp_rk. reflexivity. Qed.
  Lemma leb_rk x y : leb x y = (rk x <=? rk y).
  Proof. unfold leb. rewrite cmp_rk. reflexivity. Qed.
  Lemma gtb_rk x y : gtb x y = (rk y <? rk x).
  Proof. unfold gtb. rewrite cmp_rk, Z.compare_antisym. unfold Z.ltb. destruct (rk y ?= rk x); reflexivity. Qed.
  Lemma geb_rk x y : geb x y = (rk y <=? rk x).
  Proof. unfold geb. rewrite cmp_rk, Z.compare_antisym. unfold Z.leb. destruct (rk y ?= rk x); reflexivity. Qed.
  Lemma eqb_rk x y : eqb x y = (rk x =? rk y).
  Proof. unfold eqb. rewrite cmp_rk, Z.eqb_compare. reflexivity. Qed.
  Lemma ple_rk x y : ple x y <-> rk x <= rk y.
  Proof. unfold ple. rewrite cmp_rk. reflexivity. Qed.
  Lemma plt_rk x y : plt x y <-> rk x < rk y.
  Proof. unfold plt. rewrite cmp_rk. reflexivity. Qed.

  Lemma rk_min x : rk MIN <= rk x.
  Proof. pose proof (min_least x) as E. rewrite leb_rk in E. lia. Qed.
  Lemma rk_max x : rk x <= rk MAX.
  Proof. pose proof (max_greatest x) as E. rewrite leb_rk in E. lia. Qed.
  Lemma rk_nonneg x : 0 <= rk x.
  Proof. unfold rk. lia. Qed.

  Lemma up_rk x y : up x = Some y -> rk y = rk x + 1.
  Proof.
    intros E. destruct (up_some _ _ E) as [Hlt Hleast]. rewrite ltb_rk in Hlt.
    assert (Hle : (length (below y) <= S (length (below x)))%nat); [|unfold rk in *; lia].
    pose proof (dedup_once points x) as O. unfold below, all_points in *.
    assert (B : forall l, (length (filter (fun p => ltb p y) l) <=
                           length (filter (fun p => ltb p x) l) + length (filter (fun p => eqb x p) l))%nat).
    { intros l. induction l as [|p l IH]; cbn; [lia|].
      specialize (Hleast p). rewrite !ltb_rk, leb_rk in *. rewrite eqb_rk.
      destruct (Z.ltb_spec (rk p) (rk y)), (Z.ltb_spec (rk p) (rk x)), (Z.eqb_spec (rk x) (rk p)); cbn; try lia. }
    specialize (B (dedup points)). lia.
  Qed.

  Lemma up_none_rk x : up x = None <-> rk x = rk MAX.
  Proof.
    split.
    - intros E. pose proof (up_none _ E MAX) as Hn. rewrite ltb_rk in Hn.
      pose proof (rk_max x). lia.
    - intros E. destruct (up x) as [y|] eqn:Ey; [|reflexivity].
      apply up_rk in Ey. pose proof (rk_max y). lia.
  Qed.

  Lemma down_rk x y : down x = Some y -> rk y = rk x - 1.
  Proof.
    intros E. destruct (down_some _ _ E) as [Hlt Hgr]. rewrite ltb_rk in Hlt.
    destruct (up y) as [z|] eqn:Ez.
    - apply up_rk in Ez. destruct (Z.eq_dec (rk z) (rk x)) as [|N]; [lia|exfalso].
      specialize (Hgr z). rewrite ltb_rk, leb_rk in Hgr. lia.
    - pose proof (up_none _ Ez x) as X. rewrite ltb_rk in X. lia.
  Qed.

  Lemma down_none_rk x : down x = None <-> rk x = rk MIN.
  Proof.
    split.
    - intros E. pose proof (down_none _ E MIN) as Hn. rewrite ltb_rk in Hn.
      pose proof (rk_min x). lia.
    - intros E. destruct (down x) as [y|] eqn:Ey; [|reflexivity].
      apply down_rk in Ey. pose proof (rk_min y). lia.
  Qed.

  Lemma up_exists x y : rk x < rk y -> exists z, up x = Some z /\ rk z = rk x + 1.
  Proof.
    intros E. destruct (up x) as [z|] eqn:Ez.
    - exists z. split; [reflexivity|]. apply up_rk, Ez.
    - apply up_none_rk in Ez. pose proof (rk_max y). lia.
  Qed.

  Lemma down_exists x y : rk y < rk x -> exists z, down x = Some z /\ rk z = rk x - 1.
  Proof.
    intros E. destruct (down x) as [z|] eqn:Ez.
    - exists z. split; [reflexivity|]. apply down_rk, Ez.
    - apply down_none_rk in Ez. pose proof (rk_min y). lia.
  Qed.

  Lemma up_iff {OL : OrdLaws I} x y : up x = Some y <-> rk y = rk x + 1.
  Proof.
    split; [apply up_rk|]. intros E. destruct (up_exists x y) as (z & Ez & Hz); [lia|]. rewrite Ez. f_equal. apply rk_inj. lia.
  Qed.
  Lemma down_iff {OL : OrdLaws I} x y : down x = Some y <-> rk y = rk x - 1.
  Proof.
    split; [apply down_rk|]. intros E. destruct (down_exists x y) as (z & Ez & Hz); [lia|]. rewrite Ez. f_equal. apply rk_inj. lia.
  Qed.

  Lemma rk_surj x y z : rk x <= z <= rk y -> exists p, rk p = z.
  Proof.
    intros [Hx Hy].
    assert (Hn : forall n : nat, rk x + Z.of_nat n <= rk y -> exists p, rk p = rk x + Z.of_nat n).
    { induction n as [|n IH]; intros Hn.
      - exists x. lia.
      - destruct IH as [p Hp]; [lia|].
        destruct (up_exists p y) as [q [_ Hq]]; [lia|]. exists q. lia. }
    destruct (Hn (Z.to_nat (z - rk x))) as [p Hp]; [lia|]. exists p. lia.
  Qed.
End Rank.
