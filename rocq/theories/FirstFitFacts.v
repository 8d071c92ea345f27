(** * FirstFitFacts: handing out places in the order of the gaps (the proofs of C150). *)
From Coq Require Import List ZArith Bool Lia ZifyBool Sorting.Sorted.
From Verif Require Import Base BTree UtilsModel IntervalModel NoditModel NoditOps InstancesModel Instances Spec FirstFitOps
  PointFacts IntervalFacts ListFacts NoditFacts NoditInv NoditQueries NoditGaps NoditMutations IntervalProofs MergeAllFacts.
Import ListNotations.
Open Scope Z_scope.

Section Facts.
  Context {lo hi : Z} `{T : IntType lo hi}.
  Notation int := (int lo hi).
  Context {K : Type} {IK : InclusiveInterval int K} {IL : IntervalLaws int K} {FI : FromInvalid int K}.
  Context {V : Type}.
  Context {Q : Type} {IQ : InclusiveInterval int Q}.
  Implicit Types (m : NoditMap K V) (b : build) (q : Q) (n s p : int).

  Lemma covers_int {A} {IA : InclusiveInterval int A} (a : A) p : covers a p <-> ival (istart a) <= ival p <= ival (iend a).
  Proof. unfold covers. rewrite !ple_int. reflexivity. Qed.
  Lemma at_int z : lo <= z <= hi -> exists p : int, ival p = z.
  Proof. intros L. destruct (@of_Z_fits lo hi z L) as (p & _ & E). exists p. exact E. Qed.
  Lemma plt_int (x y : int) : plt x y <-> ival x < ival y.
  Proof. unfold plt. rewrite cmp_int. apply Z.compare_lt_iff. Qed.

  Lemma width_build b (k : K) : valid k -> lo <= 0 -> ival (iend k) - ival (istart k) <= hi ->
    exists w, width (difference b) k = Val w /\ ival w = ival (iend k) - ival (istart k).
  Proof. intros Vk L0 L. destruct (width_fits k Vk L L0) as (w & E1 & E2 & Hw). exists w. destruct b; auto. Qed.
  Lemma plus_build b (x y : int) : lo <= ival x + ival y <= hi -> exists z, plus b x y = Val z /\ ival z = ival x + ival y.
  Proof.
    intros L. destruct (@of_Z_fits lo hi (ival x + ival y) L) as (z & E & Hz). exists z. split; [|exact Hz]. destruct b; cbn [plus].
    - unfold add_debug, InstancesModel.checked. rewrite E. reflexivity.
    - unfold add_release, wrapping, wrap_Z. rewrite !Z.mod_small by lia. rewrite !Zplus_minus, E. reflexivity.
  Qed.
  Lemma from_int (x y : int) : ival x <= ival y -> ival (istart (ifrom (mkInterval x y) : K)) = ival x /\ ival (iend (ifrom (mkInterval x y) : K)) = ival y.
  Proof.
    intros L. destruct (from_valid (mkInterval x y) (K := K)) as [F1 F2]; [rewrite leb_int; cbn; lia|]. cbn in F1, F2. apply Z.compare_eq in F1, F2. auto.
  Qed.

  (** The first of the wide ones. *)
  Lemma find_wide_spec b n (gs : list K) : lo <= 0 -> (forall g, In g gs -> valid g /\ ival (iend g) - ival (istart g) <= hi) ->
    (exists l1 g l2, gs = l1 ++ g :: l2 /\ find_wide b n gs = Val (Some g) /\ ival n <= ival (iend g) - ival (istart g) /\
       forall g', In g' l1 -> ival (iend g') - ival (istart g') < ival n) \/
    (find_wide b n gs = Val None /\ forall g, In g gs -> ival (iend g) - ival (istart g) < ival n).
  Proof.
    intros L0. induction gs as [|g gs IH]; intros Hg; [right; split; [reflexivity|intros g []]|].
    destruct (Hg g (or_introl eq_refl)) as [Vg Lg]. destruct (width_build b g Vg L0 Lg) as (w & E & Hw). cbn [find_wide]. rewrite E. cbn [obind].
    assert (X : geb w n = (ival n <=? ival w)).
    { unfold geb. rewrite cmp_int. destruct (ival w ?= ival n) eqn:C; [apply Z.compare_eq in C|apply (proj1 (Z.compare_lt_iff _ _)) in C|apply (proj1 (Z.compare_gt_iff _ _)) in C]; cbn; symmetry; lia. }
    rewrite X. destruct (ival n <=? ival w) eqn:C.
    - left. exists [], g, gs. split; [reflexivity|]. split; [reflexivity|]. split; [lia|intros g' []].
    - destruct IH as [(l1 & g1 & l2 & -> & E1 & W1 & F)|[E1 F]]; [intros g' Hg'; apply Hg; right; exact Hg'| |].
      + left. exists (g :: l1), g1, l2. split; [reflexivity|]. split; [exact E1|]. split; [exact W1|]. intros g' [<-|Hi]; [lia|apply F, Hi].
      + right. split; [exact E1|]. intros g' [<-|Hi]; [lia|apply F, Hi].
  Qed.

  Lemma take_spec b m q n v : lo <= 0 -> WF m -> valid q -> 0 <= ival n -> ival (iend q) - ival (istart q) <= hi ->
    (exists k m', take b q n v m = (m', Val (Some k)) /\ insert_strict k v m = (m', Val (Ok tt)) /\ WF m' /\
       (forall e, In e m' <-> e = (k, v) \/ In e m) /\
       ival (iend k) = ival (istart k) + ival n /\ room m q n (istart k) /\ forall s, room m q n s -> ival (istart k) <= ival s) \/
    (take b q n v m = (m, Val None) /\ forall s, ~ room m q n s).
  Proof.
    intros L0 W Vq Ln Lq. destruct (gaps_trimmed_spec m q W Vq (quiet_at_FI m q)) as (gs & E & As & Rn & _).
    destruct (gaps_trimmed_points m q W Vq (quiet_at_FI m q)) as (gs' & E' & Pt). rewrite E in E'. injection E' as <-.
    assert (Ends : forall g, In g gs -> valid g /\ ival (istart q) <= ival (istart g) /\ ival (iend g) <= ival (iend q) /\ ival (istart g) <= ival (iend g)).
    { intros g Hg. destruct (Rn g Hg) as [(Vg & Pg & _) _]. split; [exact Vg|]. apply valid_int in Vg.
      destruct (Pg (istart g)) as [_ C1]; [apply covers_int; lia|]. destruct (Pg (iend g)) as [_ C2]; [apply covers_int; lia|].
      rewrite covers_int in C1, C2. lia. }
    (* where there is room there is a gap *)
    assert (In' : forall s, room m q n s -> exists g, In g gs /\ ival (istart g) <= ival s /\ ival s + ival n <= ival (iend g)).
    { intros s [Ls F]. destruct (F s) as [Cs Ns]; [lia|]. destruct (proj1 (Pt s Cs) Ns) as (g & Hg & Hs). exists g. split; [exact Hg|].
      destruct (at_int (ival s + ival n)) as (e & He); [pose proof (int_range s); lia|]. destruct (Rn g Hg) as [(_ & _ & M) _].
      pose proof (M (mkInterval s e)) as X. assert (Ce : covers g e).
      { apply X; [| |apply covers_int; cbn; lia].
        - intros p Hp. rewrite covers_int in Hp. cbn in Hp. destruct (F p); [lia|]. auto.
        - exists s. split; [exact Hs|apply covers_int; cbn; lia]. }
      rewrite covers_int in Hs, Ce. lia. }
    unfold take. rewrite E. cbn [obind].
    destruct (find_wide_spec b n gs L0) as [(l1 & g & l2 & -> & -> & Wg & F)|[-> F]].
    { intros g Hg. destruct (Ends g Hg) as (Vg & X). split; [exact Vg|lia]. }
    - left. assert (Hg : In g (l1 ++ g :: l2)) by (apply in_app_iff; right; left; reflexivity). destruct (Ends g Hg) as (Vg & X).
      destruct (plus_build b (istart g) n) as (e & -> & He); [pose proof (int_range (istart g)); pose proof (int_range (iend g)); lia|]. cbn [obind].
      assert (Eii : ii (istart g) e = Val (mkInterval (istart g) e)).
      { unfold ii, IntervalModel.checked. rewrite iip_valid; [reflexivity|]. apply valid_int. cbn. lia. }
      rewrite Eii. set (k := ifrom (mkInterval (istart g) e) : K). destruct (from_int (istart g) e) as [Ks Ke]; [lia|]. fold k in Ks, Ke.
      assert (Free : forall p, covers k p -> covers q p /\ ~ covered m p).
      { intros p Hp. rewrite covers_int in Hp. destruct (Rn g Hg) as [(_ & P & _) _]. destruct (P p); [apply covers_int; lia|]. auto. }
      assert (Vk : valid k) by (apply valid_int; lia).
      destruct (insert_strict_done m k v W Vk) as (x1 & x2 & Em & Ei & Wi).
      { intros k' v' Hi (p & P1 & P2). apply (Free p P2). exists k', v'. auto. }
      rewrite Ei. exists k, (x1 ++ (k, v) :: x2). split; [reflexivity|]. split; [exact Ei|]. split; [exact Wi|]. split.
      { intros e'. rewrite Em, !in_app_iff. cbn [In]. intuition. }
      split; [lia|]. split.
      + split; [pose proof (int_range e); lia|]. intros p Hp. apply Free, covers_int. lia.
      + intros s Rs. destruct (In' s Rs) as (g' & Hg' & A & B). apply in_app_iff in Hg'. destruct Hg' as [Hg'|[<-|Hg']]; [|lia|].
        * specialize (F g' Hg'). pose proof (int_range s). lia.
        * unfold ascending in As. apply SS_app in As. destruct As as (_ & As & _). apply SS_cons in As. destruct As as [_ As]. rewrite Forall_forall in As.
          pose proof (As g' Hg' (istart g) (istart g')) as Bf. assert (V' := proj1 (Ends g' ltac:(apply in_app_iff; right; right; exact Hg'))). apply valid_int in V'.
          assert (plt (istart g) (istart g')) as L by (apply Bf; rewrite covers_int; lia). rewrite plt_int in L. lia.
    - right. split; [reflexivity|]. intros s Rs. destruct (In' s Rs) as (g & Hg & A & B). specialize (F g Hg). lia.
  Qed.

  (** ** Histories *)
  Record served q m (live : list (int * (K * V))) : Prop := {
    sv_wf : WF m;
    sv_in : forall e, In e m <-> In e (map snd live);
    sv_size : forall n k v, In (n, (k, v)) live -> ival (iend k) = ival (istart k) + ival n /\ forall p, covers k p -> covers q p;
    sv_apart : ForallOrdPairs (fun x y => ~ overlap (fst (snd x)) (fst (snd y))) live
  }.

  Lemma delete_in {A} i (l : list A) x : In x (delete i l) -> In x l.
  Proof. revert i. induction l as [|y l IH]; intros i; [destruct i; intros []|]. destruct i; cbn; [auto|]. intros [->|Hi]; [auto|right; apply (IH i), Hi]. Qed.
  Lemma delete_pairs {A} (R : A -> A -> Prop) i l : ForallOrdPairs R l -> ForallOrdPairs R (delete i l).
  Proof.
    intros F. revert i. induction F as [|x l Hx F IH]; intros i; [destruct i; constructor|]. destruct i; cbn; [exact F|]. constructor; [|apply IH].
    rewrite Forall_forall in *. intros y Hy. apply Hx, (delete_in i l y Hy).
  Qed.
  Lemma delete_other {A} (R : A -> A -> Prop) i l x y : ForallOrdPairs R l -> (forall a c, R a c -> R c a) -> nth_error l i = Some x ->
    In y l -> In y (delete i l) \/ y = x.
  Proof.
    intros F S. revert i. induction F as [|z l Hz F IH]; intros i E Hi; [destruct Hi|]. destruct i; cbn in E |- *.
    - injection E as ->. destruct Hi as [->|Hi]; auto.
    - destruct Hi as [->|Hi]; [auto|]. destruct (IH i E Hi); auto.
  Qed.
  Lemma delete_apart {A} (R : A -> A -> Prop) i l x y : ForallOrdPairs R l -> (forall a c, R a c -> R c a) -> nth_error l i = Some x -> In y (delete i l) -> R x y.
  Proof.
    intros F S. revert i. induction F as [|z l Hz F IH]; intros i E Hi; [destruct i; destruct Hi|]. rewrite Forall_forall in Hz. destruct i; cbn in E, Hi.
    - injection E as ->. apply Hz, Hi.
    - destruct Hi as [->|Hi]; [|apply (IH i); assumption]. apply S, Hz. apply (nth_error_In _ _ E).
  Qed.

  Lemma serve_step b q m live r : lo <= 0 -> valid q -> ival (iend q) - ival (istart q) <= hi ->
    (forall n v, r = Take n v -> 0 <= ival n) -> served q m live -> served q (fst (serve b q (m, live) r)) (snd (serve b q (m, live) r)).
  Proof.
    intros L0 Vq Lq Hr S. pose proof S as [W Hin Hs Ha]. destruct r as [n v|i]; cbn [serve].
    - destruct (take_spec b m q n v L0 W Vq (Hr n v eq_refl) Lq) as [(k & m' & -> & _ & W' & Hi & Hw & (Hh & Hf) & _)|[-> _]]; [|exact S].
      cbn [fst snd]. assert (Fr : forall p, covers k p -> covers q p /\ ~ covered m p) by (intros p Hp; apply Hf; rewrite covers_int in Hp; lia). split.
      + exact W'.
      + intros e. rewrite Hi, Hin. cbn [map In snd]. split; (intros [->|X]; [left; reflexivity|right; exact X]).
      + intros n0 k0 v0 [E|Hl]; [injection E as <- <- <-; split; [exact Hw|intros p Hp; apply Fr, Hp]|apply (Hs n0 k0 v0 Hl)].
      + constructor; [|exact Ha]. rewrite Forall_forall. intros [n0 [k0 v0]] Hl (p & P1 & P2). cbn in P1, P2. apply (Fr p P1). exists k0, v0. split; [|exact P2].
        apply Hin, in_map_iff. exists (n0, (k0, v0)). auto.
    - destruct (nth_error live i) as [[n0 [k v0]]|] eqn:E; [|exact S]. cbn [fst snd].
      assert (Hl := nth_error_In _ _ E). assert (Hm : In (k, v0) m) by (apply Hin, in_map_iff; exists (n0, (k, v0)); auto).
      assert (Vk : valid k) by (apply (wf_valid m (k, v0) W Hm)).
      destruct (remove_overlapping_spec m k W Vk) as (kept & removed & -> & _ & Sk & Wk). cbn [fst].
      assert (Sy : forall a c : int * (K * V), ~ overlap (fst (snd a)) (fst (snd c)) -> ~ overlap (fst (snd c)) (fst (snd a))) by (intros a c N (p & P1 & P2); apply N; exists p; auto). split.
      + exact Wk.
      + intros e. split.
        * intros Hi. apply (sub_in _ _ _ Sk) in Hi. destruct Hi as [Hi N]. apply Hin, in_map_iff in Hi. destruct Hi as (x & <- & Hx).
          destruct (delete_other _ i live _ x Ha Sy E Hx) as [D| ->]; [apply in_map, D|]. destruct N. cbn. destruct Vk as (p & Hp). exists p. auto.
        * intros Hi. apply in_map_iff in Hi. destruct Hi as (x & <- & Hx). apply (sub_in _ _ _ Sk). split; [apply Hin, in_map, (delete_in i live x Hx)|].
          apply (Sy (n0, (k, v0))). apply (delete_apart _ i live _ x Ha Sy E Hx).
      + intros n1 k1 v1 Hl1. apply (Hs n1 k1 v1), (delete_in i live _ Hl1).
      + apply delete_pairs, Ha.
  Qed.

  Lemma serve_all_spec b q rs : lo <= 0 -> valid q -> ival (iend q) - ival (istart q) <= hi ->
    (forall n v, In (Take n v) rs -> 0 <= ival n) -> served q (fst (serve_all b q rs)) (snd (serve_all (K := K) b q rs)).
  Proof.
    intros L0 Vq Lq. unfold serve_all. assert (S0 : served q (fst (new : NoditMap K V, [] : list (int * (K * V)))) (snd (new : NoditMap K V, [] : list (int * (K * V))))).
    { split; [apply WF_nil|intros e; reflexivity|intros n k v []|constructor]. }
    revert S0. generalize (new : NoditMap K V, [] : list (int * (K * V))). induction rs as [|r rs IH]; intros [m live] S Hr; [exact S|].
    cbn [fold_left]. apply IH.
    - apply serve_step; try assumption. intros n v ->. apply (Hr n v). left. reflexivity.
    - intros n v Hi. apply (Hr n v). right. exact Hi.
  Qed.
End Facts.
