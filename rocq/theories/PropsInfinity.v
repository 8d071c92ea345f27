(** * PropsInfinity: the README's wrapper for pretending to have an infinity (C134). *)
From Coq Require Import List ZArith Bool Lia.
From Verif Require Import Base BTree UtilsModel IntervalModel NoditModel NoditOps Spec TransportOps CompleteOps InfinityOps InstancesModel Instances
  PointFacts IntervalFacts ListFacts NoditFacts NoditQueries NoditMutations NoditInv NoditMore CompleteProofs TransportFacts PropsNodit PropsTransport.
Import ListNotations.
Open Scope nat_scope.

Section Props.
  Context {T : Type} `{PL : PointLaws T} {OL : OrdLaws T}.
  Context {V : Type}.
  Notation W := (WithInfinity T).
  Implicit Types (i : Interval T) (j : Interval W) (x y : T).

  Lemma le_inf (w : W) : ple w Infinity.
  Proof. destruct w; discriminate. Qed.
  Lemma inf_le x : ~ ple Infinity (Finite x).
  Proof. intros A. apply A. reflexivity. Qed.
  Lemma le_max x : ple x MAX.
  Proof. apply ple_rk, rk_max. Qed.
  Lemma le_trans (x y z : T) : ple x y -> ple y z -> ple x z.
  Proof. rewrite !ple_rk. lia. Qed.
  Lemma eq_max x : cmp x MAX = Eq <-> ple MAX x.
  Proof.
    rewrite ple_rk. pose proof (rk_max x). rewrite cmp_rk, Z.compare_eq_iff. lia.
  Qed.
  Lemma wrap_covers i x : covers (wrap i) (Finite x) <-> covers i x.
  Proof. reflexivity. Qed.
  Lemma wrap_inf i : ~ covers (wrap i) Infinity.
  Proof. intros [_ A]. exact (inf_le _ A). Qed.
  Lemma gap_covers i x : covers (wrap_gap i) (Finite x) <-> covers i x.
  Proof.
    unfold covers, wrap_gap. cbn [istart iend Interval_InclusiveInterval ivl_start ivl_end].
    destruct (cmp (ivl_end i) MAX) eqn:E; [|reflexivity..]. apply eq_max in E.
    split; intros [A _]; (split; [exact A|]); [|apply le_inf]. eapply le_trans; [apply le_max|exact E].
  Qed.
  Lemma gap_inf i : covers (wrap_gap i) Infinity <-> covers (wrap_gap i) Infinity /\ ple MAX (ivl_end i).
  Proof.
    split; [|intros []; assumption]. intros C. split; [exact C|]. destruct C as [_ A]. unfold wrap_gap in A.
    cbn [istart iend Interval_InclusiveInterval ivl_start ivl_end] in A.
    apply eq_max. destruct (cmp (ivl_end i) MAX); [reflexivity|destruct (inf_le _ A)..].
  Qed.
  Lemma gap_inf_intro i : ple MAX (ivl_end i) -> covers (wrap_gap i) Infinity.
  Proof.
    intros A. apply eq_max in A. unfold covers, wrap_gap. cbn [istart iend Interval_InclusiveInterval ivl_start ivl_end]. rewrite A.
    split; apply le_inf.
  Qed.

  (** The points of [j] below [Infinity]. *)
  Definition lower s j : Interval T := mkInterval s (match ivl_end j with Finite e => e | Infinity => MAX end).
  Lemma lower_covers s j x : ivl_start j = Finite s -> covers (lower s j) x <-> covers j (Finite x).
  Proof.
    destruct j as [s' e]. cbn. intros ->. unfold covers. cbn [istart iend Interval_InclusiveInterval ivl_start ivl_end lower].
    destruct e as [e|]; [reflexivity|]. split; intros [A _]; (split; [exact A|]); [apply le_inf|apply le_max].
  Qed.
  Lemma start_finite j x : covers j (Finite x) -> exists s, ivl_start j = Finite s.
  Proof. destruct j as [[s|] e]; [intros _; exists s; reflexivity|]. intros [A _]. destruct (inf_le _ A). Qed.
  Lemma to_inf j x : covers j (Finite x) -> covers j Infinity -> covers j (Finite MAX).
  Proof.
    intros [A _] [_ B]. split.
    - destruct j as [[s|] e]; [apply le_max|destruct (inf_le _ A)].
    - destruct j as [s [e|]]; [destruct (inf_le _ B)|apply le_inf].
  Qed.

  Context (P : T -> Prop) (P' : W -> Prop).
  Context (PP : forall x, P' (Finite x) <-> P x).
  Lemma runs_up i : P' Infinity -> max_run P i -> max_run P' (wrap_gap i).
  Proof.
    intros Pi ((x0 & Hx0) & Hin & Hmax). split; [exists (Finite x0); apply gap_covers, Hx0|]. split.
    - intros [x|] Hp; [apply PP, Hin, gap_covers, Hp|exact Pi].
    - intros j Hj (w & Hw1 & Hw2).
      (* a finite point of [j] that [i] covers puts the finite part of [j] inside [i] *)
      assert (M : forall y, covers j (Finite y) -> covers i y -> forall x, covers j (Finite x) -> covers i x).
      { intros y Y1 Y2 x Hx. destruct (start_finite j x Hx) as (s & E). apply (Hmax (lower s j)).
        - intros z Hz. apply PP, Hj, (lower_covers s j z E), Hz.
        - exists y. split; [exact Y2|]. apply (lower_covers s j y E), Y1.
        - apply (lower_covers s j x E), Hx. }
      intros [x|] Hp.
      + apply gap_covers. destruct w as [y|].
        * apply (M y); [exact Hw2|apply gap_covers, Hw1|exact Hp].
        * apply gap_inf in Hw1. destruct Hw1 as [_ Hm]. apply (M MAX); [exact (to_inf j x Hp Hw2)| |exact Hp].
          split; [|exact Hm]. destruct Hx0 as [A _]. eapply le_trans; [exact A|apply le_max].
      + destruct w as [y|]; [|exact Hw1]. apply gap_inf_intro. apply gap_covers in Hw1.
        assert (C : covers i MAX) by (apply (M y); [exact Hw2|exact Hw1|exact (to_inf j y Hw2 Hp)]). apply C.
  Qed.
  Lemma runs_same i : ~ P' Infinity -> max_run P i -> max_run P' (wrap i).
  Proof.
    intros Pi ((x0 & Hx0) & Hin & Hmax). split; [exists (Finite x0); exact Hx0|]. split.
    - intros [x|] Hp; [apply PP, Hin, Hp|destruct (wrap_inf _ Hp)].
    - intros j Hj ([y|] & Hw1 & Hw2); [|destruct (wrap_inf _ Hw1)]. intros [x|] Hp; [|destruct (Pi (Hj _ Hp))].
      destruct (start_finite j x Hp) as (s & E). apply (Hmax (lower s j)).
      + intros z Hz. apply PP, Hj, (lower_covers s j z E), Hz.
      + exists y. split; [exact Hw1|]. apply (lower_covers s j y E), Hw2.
      + apply (lower_covers s j x E), Hp.
  Qed.
  Lemma runs_down s j x : ivl_start j = Finite s -> covers j (Finite x) -> max_run P' j -> max_run P (lower s j).
  Proof.
    intros E Hx (_ & Hin & Hmax). split; [exists x; apply (lower_covers s j x E), Hx|]. split.
    - intros z Hz. apply PP, Hin, (lower_covers s j z E), Hz.
    - intros i Hi (y & Y1 & Y2) z Hz. apply (lower_covers s j z E), (Hmax (wrap i)); [|exists (Finite y); split; [apply (lower_covers s j y E), Y1|exact Y2]|exact Hz].
      intros [w|] Hw; [apply PP, Hi, Hw|destruct (wrap_inf _ Hw)].
  Qed.
End Props.

Lemma runs_meet {I} `{PL : PointLaws I} (P : I -> Prop) (a b : Interval I) : max_run P a -> max_run P b -> overlap a b -> same_points a b.
Proof.
  intros (_ & A1 & A2) (_ & B1 & B2) (x & Xa & Xb) p. split; intros Hp; [apply (B2 a A1)|apply (A2 b B1)]; try assumption; exists x; auto.
Qed.

Section Lists.
  Context {T : Type} `{PL : PointLaws T} {OL : OrdLaws T}.
  Notation W := (WithInfinity T).
  Context (P : T -> Prop) (P' : W -> Prop) (PP : forall x, P' (Finite x) <-> P x).
  (** Lists of runs are carried over by any [h] that adds at most [Infinity] to an interval. *)
  Lemma lists_carried (h : Interval T -> Interval W) (sel : Interval T -> Prop) (sel' : Interval W -> Prop) (l : list (Interval T)) :
    (forall i x, covers (h i) (Finite x) <-> covers i x) ->
    (forall i, max_run P i -> max_run P' (h i)) ->
    (forall j, max_run P' j -> sel' j -> exists x, covers j (Finite x)) ->
    (forall i, sel i -> sel' (h i)) -> (forall s j, ivl_start j = Finite s -> max_run P' j -> sel' j -> sel (lower s j)) ->
    lists_max_runs P sel l -> lists_max_runs P' sel' (map h l).
  Proof.
    intros Hc Hr Hf Hs Hs' (A & B & C). split; [|split].
    - assert (Bv : forall i, In i l -> valid i) by (intros i Hi; apply (B i Hi)). clear B C.
      unfold ascending in *. induction A as [|i l A IH F]; cbn; [constructor|]. constructor.
      + apply IH. intros i' Hi'. apply Bv. right. exact Hi'.
      + apply Forall_forall. intros k Hk. apply in_map_iff in Hk. destruct Hk as (i' & <- & Hi').
        rewrite Forall_forall in F. specialize (F i' Hi'). destruct (Bv i (or_introl eq_refl)) as (w & Hw). destruct (Bv i' (or_intror Hi')) as (z & Hz).
        intros [x|] y Hx Hy.
        * destruct y as [y|]; [|reflexivity]. apply (F x y); apply Hc; assumption.
        * exfalso. assert (X : covers i z).
          { apply Hc. pose proof (F w z Hw Hz) as L. split; [|destruct Hx as [_ Hx]; destruct (iend (h i)) as [e|]; [destruct (inf_le _ Hx)|apply le_inf]].
            apply Hc in Hw. destruct Hw as [Hw _]. destruct (istart (h i)) as [b|]; [|destruct (inf_le _ Hw)].
            change (ple b z). change (ple b w) in Hw. eapply le_trans; [exact Hw|]. unfold ple. unfold plt in L. rewrite L. discriminate. }
          specialize (F z z X Hz). unfold plt in F. rewrite cmp_rk, Z.compare_refl in F. discriminate.
    - intros k Hk. apply in_map_iff in Hk. destruct Hk as (i & <- & Hi). destruct (B i Hi) as [B1 B2]. split; [apply Hr, B1|].
      destruct i as [a b]. specialize (Hs _ B2). cbn in Hs. destruct (h _). exact Hs.
    - intros j Hj Sj. destruct (Hf j Hj Sj) as (x & Hx). destruct (start_finite j x Hx) as (s & E).
      destruct (C (lower s j) (runs_down P P' PP s j x E Hx Hj) (Hs' s j E Hj Sj)) as (g & Hg & Sg).
      exists (h g). split; [apply in_map, Hg|]. apply (runs_meet P').
      + apply Hr, B, Hg.
      + exact Hj.
      + exists (Finite x). split; [apply Hc, Sg, (lower_covers s j x E), Hx|exact Hx].
  Qed.
End Lists.

Section Corresponding.
  Context {T : Type} `{PL : PointLaws T} {OL : OrdLaws T}.
  Context {V : Type}.
  Notation W := (WithInfinity T).
  Notation sent := (send wrap (fun v : V => v)).

  Lemma finite_converts : converts (@Finite T) wrap.
  Proof. split; [split|]; reflexivity. Qed.
  Lemma sent_covered (m : NoditMap (Interval T) V) x : covered (map sent m) (Finite x) <-> covered m x.
  Proof.
    unfold covered. split.
    - intros (k & v & A & B). apply in_map_iff in A. destruct A as ([k' v'] & E & A). injection E as <- <-. eauto.
    - intros (k & v & A & B). exists (wrap k), v. split; [apply (in_map sent) in A; exact A|exact B].
  Qed.
  Lemma sent_inf (m : NoditMap (Interval T) V) : ~ covered (map sent m) Infinity.
  Proof. intros (k & v & A & B). apply in_map_iff in A. destruct A as ([k' v'] & E & A). injection E as <- <-. destruct (wrap_inf _ B). Qed.
  Lemma wrap_valid (q : Interval T) : valid (wrap q) <-> valid q.
  Proof. split; [intros ([x|] & A); [exists x; exact A|destruct (wrap_inf _ A)]|intros (x & A); exists (Finite x); exact A]. Qed.
  Lemma wrap_overlap_gap (i q : Interval T) : overlap i q -> overlap (wrap_gap i) (wrap q).
  Proof. intros (x & A & B). exists (Finite x). split; [apply gap_covers, A|exact B]. Qed.

  Context (os : list (op T (Interval T) V)) (os' : list (op W (Interval W) V)).
  Context (Hos : Forall2 (op_sent (@Finite T) wrap (fun v => v)) os os').
  Notation m := (run os).
  Notation m' := (run os').
  Lemma run_sent : m' = map sent m.
  Proof. exact (C83_histories Finite wrap (fun v => v) C83_finite_points finite_converts os os' Hos). Qed.
  Lemma free_iff x : ~ covered m' (Finite x) <-> ~ covered m x.
  Proof. rewrite run_sent, sent_covered. reflexivity. Qed.
  Lemma free_inf : ~ covered m' Infinity.
  Proof. rewrite run_sent. apply sent_inf. Qed.

  Lemma inf_get p : get_key_value_at_point m' (Finite p) =
    omap (fun r => match r with Ok e => Ok (sent e) | Err g => Err (wrap_gap g) end) (get_key_value_at_point m p).
  Proof.
    symmetry. apply (get_key_value_iff interval_determined m' (Finite p) (run_WF os')).
    destruct (proj2 (get_key_value_iff interval_determined m p (run_WF os) _) eq_refl) as (r & -> & X). cbn [omap].
    eexists. split; [reflexivity|]. destruct r as [e|g].
    - destruct X as [A B]. split; [rewrite run_sent; apply in_map, A|exact B].
    - destruct X as [A B]. split; [apply gap_covers, A|]. apply (runs_up (fun x => ~ covered m x)); [exact free_iff|exact free_inf|exact B].
  Qed.
  Lemma inf_untrimmed (q : Interval T) : gaps_untrimmed m' (wrap q) = omap (map wrap_gap) (gaps_untrimmed m q).
  Proof.
    symmetry. apply (gaps_untrimmed_iff interval_determined m' (wrap q) (run_WF os')).
    destruct (proj2 (gaps_untrimmed_iff interval_determined m q (run_WF os) _) eq_refl) as [X Y]. split.
    - intros Vq. apply (proj1 (wrap_valid q)) in Vq. destruct (X Vq) as (l & -> & L). exists (map wrap_gap l). split; [reflexivity|].
      revert L. apply lists_carried.
      + exact free_iff.
      + apply gap_covers.
      + intros i. apply runs_up; [exact free_iff|exact free_inf].
      + intros j _ ([x|] & A & B); [exists x; exact A|destruct (wrap_inf _ B)].
      + intros i. apply wrap_overlap_gap.
      + intros s j E _ ([x|] & A & B); [|destruct (wrap_inf _ B)]. exists x. split; [apply (lower_covers s j x E), A|exact B].
    - intros N. rewrite Y; [reflexivity|]. intros Vq. apply N. apply wrap_valid, Vq.
  Qed.
  Lemma inf_trimmed (q : Interval T) : gaps_trimmed m' (wrap q) = omap (map wrap) (gaps_trimmed m q).
  Proof.
    symmetry. apply (gaps_trimmed_iff interval_determined m' (wrap q) (run_WF os')).
    destruct (proj2 (gaps_trimmed_iff interval_determined m q (run_WF os) _) eq_refl) as [X Y]. split.
    - intros Vq. apply (proj1 (wrap_valid q)) in Vq. destruct (X Vq) as (l & -> & L). exists (map wrap l). split; [reflexivity|].
      assert (PP : forall x, ~ covered m' (Finite x) /\ covers (wrap q) (Finite x) <-> ~ covered m x /\ covers q x) by (intros x; rewrite free_iff; reflexivity).
      revert L. apply lists_carried.
      + exact PP.
      + reflexivity.
      + intros i. apply runs_same; [exact PP|]. intros [_ A]. destruct (wrap_inf _ A).
      + intros j ((w & Hw) & Hin & _) _. destruct w as [x|]; [exists x; exact Hw|]. destruct (wrap_inf _ (proj2 (Hin _ Hw))).
      + auto.
      + auto.
    - intros N. rewrite Y; [reflexivity|]. intros Vq. apply N. apply wrap_valid, Vq.
  Qed.
  Lemma inf_contains (q : Interval T) : map_contains_interval m' (wrap q) = map_contains_interval m q.
  Proof.
    symmetry. apply (contains_interval_iff m' (wrap q) (run_WF os')).
    destruct (proj2 (contains_interval_iff m q (run_WF os) _) eq_refl) as [X Y]. split.
    - intros Vq. apply (proj1 (wrap_valid q)) in Vq. destruct (X Vq) as (b & -> & B). exists b. split; [reflexivity|]. rewrite B, run_sent. split.
      + intros A [x|] Hx; [apply sent_covered, A, Hx|destruct (wrap_inf _ Hx)].
      + intros A x Hx. apply sent_covered, (A (Finite x)), Hx.
    - intros N. apply Y. intros Vq. apply N. apply wrap_valid, Vq.
  Qed.
  Lemma inf_encountered p g : get_key_value_at_point m' (Finite p) = Val (Err g) ->
    ivl_end g = Infinity <-> forall e x, In e (iter m') -> covers (fst e) (Finite x) -> plt x p.
  Proof.
    intros E. destruct (proj2 (get_key_value_iff interval_determined m' (Finite p) (run_WF os') _) eq_refl) as (r & E' & X).
    rewrite E in E'. injection E' as <-. destruct X as (Cg & Vg & Hin & Hmax). unfold iter. split.
    - intros Eg e x He Hx. unfold plt. destruct (cmp x p) eqn:Ec; [| |]; [exfalso|reflexivity|exfalso].
      + apply (Hin (Finite x)); [|exists (fst e), (snd e); split; [destruct e; exact He|exact Hx]]. 
        split; [|cbn; rewrite Eg; apply le_inf]. destruct Cg as [A _]. cbn in *. destruct (ivl_start g) as [s|]; [|destruct (inf_le _ A)].
        change (ple s x). change (ple s p) in A. rewrite ple_rk in *. rewrite cmp_rk, Z.compare_eq_iff in Ec. lia.
      + apply (Hin (Finite x)); [|exists (fst e), (snd e); split; [destruct e; exact He|exact Hx]].
        split; [|cbn; rewrite Eg; apply le_inf]. destruct Cg as [A _]. cbn in *. destruct (ivl_start g) as [s|]; [|destruct (inf_le _ A)].
        change (ple s x). change (ple s p) in A. rewrite ple_rk in *. rewrite cmp_rk, Z.compare_gt_iff in Ec. lia.
    - intros A. specialize (Hmax (mkInterval (Finite p) Infinity)).
      assert (X : covers g Infinity).
      { apply Hmax.
        - intros [x|] Hx; [|exact free_inf]. intros (k & v & Hk & Hkx). specialize (A (k, v) x Hk Hkx). destruct Hx as [Hx _].
          change (ple p x) in Hx. unfold plt in A. rewrite ple_rk in Hx. rewrite cmp_rk, Z.compare_lt_iff in A. lia.
        - exists (Finite p). split; [exact Cg|]. split; [change (ple p p); rewrite ple_rk; lia|apply le_inf].
        - split; apply le_inf. }
      destruct X as [_ X]. cbn in X. destruct (ivl_end g); [destruct (inf_le _ X)|reflexivity].
  Qed.
  Lemma inf_point :
    get_at_point m' Infinity = Val None /\ map_contains_point m' Infinity = Val false /\
    exists g, get_key_value_at_point m' Infinity = Val (Err g) /\ ivl_end g = Infinity /\
      forall x, covers g (Finite x) <-> forall e y, In e (iter m') -> covers (fst e) (Finite y) -> plt y x.
  Proof.
    split; [|split].
    - symmetry. apply (get_at_point_iff m' Infinity (run_WF os')). exists None. split; [reflexivity|]. intros v. split; [discriminate|].
      intros (k & A & B). destruct (free_inf (ex_intro _ k (ex_intro _ v (conj A B)))).
    - symmetry. apply (contains_point_iff m' Infinity (run_WF os')). exists false. split; [reflexivity|]. split; [discriminate|]. intros A. destruct (free_inf A).
    - destruct (proj2 (get_key_value_iff interval_determined m' Infinity (run_WF os') _) eq_refl) as (r & E & X). rewrite E. destruct r as [[k v]|g].
      { destruct X as [A B]. destruct (free_inf (ex_intro _ k (ex_intro _ v (conj A B)))). }
      exists g. split; [reflexivity|]. destruct X as (Cg & Vg & Hin & Hmax).
      assert (Eg : ivl_end g = Infinity) by (destruct Cg as [_ X]; cbn in X; destruct (ivl_end g); [destruct (inf_le _ X)|reflexivity]).
      split; [exact Eg|]. unfold iter. intros x. split.
      + intros Hx e y He Hy. unfold plt. rewrite cmp_rk. apply Z.compare_lt_iff.
        assert (D : ~ (rk x <= rk y)%Z); [|lia]. intros L. apply (Hin (Finite y)); [|exists (fst e), (snd e); split; [destruct e; exact He|exact Hy]].
        split; [|cbn; rewrite Eg; apply le_inf]. destruct Hx as [A _]. cbn in *. destruct (ivl_start g) as [s|]; [|destruct (inf_le _ A)].
        change (ple s y). change (ple s x) in A. rewrite ple_rk in *. lia.
      + intros A. apply (Hmax (mkInterval (Finite x) Infinity)).
        * intros [y|] Hy; [|exact free_inf]. intros (k & v & Hk & Hky). specialize (A (k, v) y Hk Hky). destruct Hy as [Hy _].
          change (ple x y) in Hy. unfold plt in A. rewrite ple_rk in Hy. rewrite cmp_rk, Z.compare_lt_iff in A. lia.
        * exists Infinity. split; [exact Cg|]. split; apply le_inf.
        * split; [change (ple x x); rewrite ple_rk; lia|apply le_inf].
  Qed.
End Corresponding.

Section Theorems.
  Context {T : Type} `{PL : PointLaws T} {OL : OrdLaws T} {V : Type}.
  Notation W := (WithInfinity T).
  (** The calls of [os'] are those of [os] with all points wrapped in [Finite]. *)
  Notation wrapped os os' := (Forall2 (op_sent (@Finite T) wrap (fun v : V => v)) os os').
  Notation sent := (send wrap (fun v : V => v)).

  (** ** C134 *)
  (** The gaps are those of the map over [T], going on to [Infinity] where those go up to [T::MAX]. *)
  Theorem C134_gaps : forall (os : list (op T (Interval T) V)) (os' : list (op W (Interval W) V)), wrapped os os' -> forall (q : Interval T) p,
    get_key_value_at_point (run os') (Finite p) =
      omap (fun r => match r with Ok e => Ok (sent e) | Err g => Err (wrap_gap g) end) (get_key_value_at_point (run os) p) /\
    gaps_untrimmed (run os') (wrap q) = omap (map wrap_gap) (gaps_untrimmed (run os) q) /\
    gaps_trimmed (run os') (wrap q) = omap (map wrap) (gaps_trimmed (run os) q) /\
    map_contains_interval (run os') (wrap q) = map_contains_interval (run os) q.
  Proof.
    intros os os' Hos q p. split; [apply inf_get, Hos|]. split; [apply inf_untrimmed, Hos|].
    split; [apply inf_trimmed, Hos|apply inf_contains, Hos].
  Qed.
  (** README: "be explicit with when Infinity is encountered": a reported gap ends in [Infinity]
      exactly if no entry reaches the point or lies after it. *)
  Theorem C134_when_infinity_is_encountered : forall (os : list (op T (Interval T) V)) (os' : list (op W (Interval W) V)), wrapped os os' ->
    forall p g, get_key_value_at_point (run os') (Finite p) = Val (Err g) ->
    (ivl_end g = Infinity <-> forall e x, In e (iter (run os')) -> covers (fst e) (Finite x) -> plt x p).
  Proof. intros os os' Hos p g E. exact (inf_encountered os os' Hos p g E). Qed.
  (** No entry contains [Infinity]; the gap there is what is left after the last entry. *)
  Theorem C134_at_infinity : forall (os : list (op T (Interval T) V)) (os' : list (op W (Interval W) V)), wrapped os os' ->
    get_at_point (run os') Infinity = Val None /\ map_contains_point (run os') Infinity = Val false /\
    exists g, get_key_value_at_point (run os') Infinity = Val (Err g) /\ ivl_end g = Infinity /\
      forall x, covers g (Finite x) <-> forall e y, In e (iter (run os')) -> covers (fst e) (Finite y) -> plt y x.
  Proof. intros os os' Hos. exact (inf_point os os' Hos). Qed.
End Theorems.

(** The hypotheses are met, non-trivially; the map over [u8] reports a gap up to 255. *)
Example C134_ex :
  let ops : list (op u8 (Interval u8) nat) :=
    [OpInsertStrict (1 --> 4) 1; OpInsertMergeTouching (5 --> 9) 2; OpCut (3 --> 3 : Interval u8); OpInsertOverwrite (20 --> 30) 3] in
  let ops' : list (op (WithInfinity u8) (Interval (WithInfinity u8)) nat) :=
    [OpInsertStrict (wrap (1 --> 4 : Interval u8)) 1; OpInsertMergeTouching (wrap (5 --> 9 : Interval u8)) 2;
     OpCut (wrap (3 --> 3 : Interval u8)); OpInsertOverwrite (wrap (20 --> 30 : Interval u8)) 3] in
  Forall2 (op_sent (@Finite u8) wrap (fun v => v)) ops ops' /\
  get_key_value_at_point (run ops) '40 = Val (Err (31 --> 255 : Interval u8)) /\
  get_key_value_at_point (run ops') (Finite '40) = Val (Err (mkInterval (Finite '31) Infinity)) /\
  get_key_value_at_point (run ops') (Finite '12) = Val (Err (mkInterval (Finite '10) (Finite '19))) /\
  gaps_untrimmed (run ops') (wrap (3 --> 99 : Interval u8)) =
    Val [mkInterval (Finite '3) (Finite '3); mkInterval (Finite '10) (Finite '19); mkInterval (Finite '31) Infinity].
Proof.
  intros ops ops'. split; [|vm_compute; auto].
  repeat apply Forall2_cons; [| | | |apply Forall2_nil].
  - exact (os_strict Finite wrap (fun v => v) (1 --> 4 : Interval u8) 1).
  - exact (os_touching Finite wrap (fun v => v) (5 --> 9 : Interval u8) 2).
  - apply os_cut. split; reflexivity.
  - exact (os_overwrite Finite wrap (fun v => v) (20 --> 30 : Interval u8) 3).
Qed.

Print Assumptions C134_gaps.
Print Assumptions C134_when_infinity_is_encountered.
Print Assumptions C134_at_infinity.
