(** * SplitZosditFacts: cutting an interval out of a ZosditMap in two pieces (the proofs of C147). *)
From Coq Require Import List ZArith Bool Lia ZifyBool Sorting.Sorted.
From Verif Require Import Base BTree UtilsModel IntervalModel NoditModel ZosditModel Spec ZosditOps WalkOps SplitOps
  PointFacts IntervalFacts ListFacts NoditFacts NoditQueries NoditGaps EqFacts GqditAlgebra ZosditFacts ZosditMut ZosditProofs AccountFacts WalkFacts PutBackFacts NoditMore SplitFacts.
Import ListNotations.
Open Scope Z_scope.

Section Facts.
  Context {I : Type} `{PL : PointLaws I}.
  Context {K : Type} {IK : InclusiveInterval I K} {IL : IntervalLaws I K}.
  Context {V : Type}.
  Notation entry := (K * V)%type.
  Implicit Types (z : ZosditMap K V) (k : K) (v : V).

  (** ** What is left of one entry *)
  Lemma ascending_app (l l' : list K) : ascending l -> ascending l' -> (forall a b, In a l -> In b l' -> before a b) -> ascending (l ++ l').
  Proof.
    intros A B C. unfold ascending in *. induction A as [|a l A IH F]; [exact B|]. cbn. constructor.
    - apply IH. intros x y Hx. apply C. right. exact Hx.
    - apply Forall_app. split; [exact F|]. apply Forall_forall. intros y Hy. apply C; [left; reflexivity|exact Hy].
  Qed.
  Lemma ascending_pieces (la : list entry) (lab : list (list entry)) : ascending (map fst la) ->
    Forall2 (fun a l => ascending (map fst l) /\ forall g, In g l -> forall p, covers (fst g) p -> covers (fst a) p) la lab ->
    ascending (map fst (concat lab)).
  Proof.
    intros A F. induction F as [|a l la lab [Al Hl] F IH]; [constructor|]. cbn [map] in A. inversion A as [|? ? A' Ha]; subst. cbn. rewrite map_app. apply ascending_app.
    - exact Al.
    - apply IH, A'.
    - intros x y Hx Hy. apply in_map_iff in Hx, Hy. destruct Hx as (g & <- & Hg), Hy as (h & <- & Hh). apply in_concat in Hh. destruct Hh as (l' & Hl' & Hh).
      assert (exists a', In a' la /\ forall p, covers (fst h) p -> covers (fst a') p) as (a' & Ha' & Sa).
      { clear - F Hl' Hh. induction F as [|b m la lab [_ Hm] F IH]; [destruct Hl'|]. destruct Hl' as [->|Hl'].
        - exists b. split; [left; reflexivity|]. exact (Hm h Hh).
        - destruct (IH Hl') as (a' & Ha' & Sa). exists a'. split; [right; exact Ha'|exact Sa]. }
      rewrite Forall_forall in Ha. assert (B : before (fst a) (fst a')) by (apply Ha, in_map, Ha'). intros p p' Hp Hp'. apply B; [apply (Hl g Hg), Hp|apply Sa, Hp'].
  Qed.
  Lemma F2_in {A B} (R : A -> B -> Prop) l l' y : Forall2 R l l' -> In y l' -> exists x, In x l /\ R x y.
  Proof.
    intros F. induction F as [|a b l l' Hab F IH]; intros Hy; [destruct Hy|]. destruct Hy as [<-|Hy]; [exists a; split; [left; reflexivity|exact Hab]|].
    destruct (IH Hy) as (x & Hx & Hr). exists x. split; [right; exact Hx|exact Hr].
  Qed.
  Lemma F2_in_l {A B} (R : A -> B -> Prop) l l' x : Forall2 R l l' -> In x l -> exists y, In y l' /\ R x y.
  Proof.
    intros F. induction F as [|a b l l' Hab F IH]; intros Hy; [destruct Hy|]. destruct Hy as [<-|Hy]; [exists b; split; [left; reflexivity|exact Hab]|].
    destruct (IH Hy) as (y & Hx & Hr). exists y. split; [right; exact Hx|exact Hr].
  Qed.
  Lemma sub_app_inv {A} (P : A -> Prop) l1 l2 s : sub P (l1 ++ l2) s -> exists s1 s2, s = s1 ++ s2 /\ sub P l1 s1 /\ sub P l2 s2.
  Proof.
    revert s. induction l1 as [|x l1 IH]; intros s S; [exists [], s; repeat split; [constructor|exact S]|]. cbn in S.
    inversion S as [|? ? t Hx S'|? ? t Hx S']; subst; destruct (IH _ S') as (s1 & s2 & -> & S1 & S2).
    - exists (x :: s1), s2. split; [reflexivity|]. split; [constructor; assumption|exact S2].
    - exists s1, s2. split; [reflexivity|]. split; [apply sub_drop; assumption|exact S2].
  Qed.
  (** Around every point left over there is a longest piece. *)
  Lemma piece_exists {Q} {IQ : InclusiveInterval I Q} (q : Q) k p : covers k p -> ~ covers q p -> valid q ->
    exists j : Interval I, max_run (fun x => covers k x /\ ~ covers q x) j /\ covers j p.
  Proof.
    intros Hk Hq Vq. apply valid_rk in Vq. apply covers_rk in Hk. rewrite covers_rk in Hq.
    assert (X : exists a b : I, rk a <= rk p <= rk b /\ (forall x, rk a <= rk x <= rk b -> covers k x /\ ~ covers q x) /\
      (forall x, covers k x -> ~ covers q x -> (rk x < rk a \/ rk b < rk x) -> exists y, covers q y /\ (rk x <= rk y <= rk p \/ rk p <= rk y <= rk x))).
    { destruct (Z_lt_le_dec (rk p) (lo q)) as [L|L].
      - destruct (rk_surj (istart k) (iend k) (Z.min (hi k) (lo q - 1))) as (b & Eb); [unfold lo, hi in *; lia|]. exists (istart k), b. unfold lo, hi in *.
        split; [lia|]. split; [intros x Hx; rewrite !covers_rk; unfold lo, hi; lia|]. intros x Hx Hn O. exists (istart q). rewrite covers_rk in Hx. rewrite covers_rk in Hn. rewrite covers_rk. unfold lo, hi in *. lia.
      - destruct (rk_surj (istart k) (iend k) (Z.max (lo k) (hi q + 1))) as (a & Ea); [unfold lo, hi in *; lia|]. exists a, (iend k). unfold lo, hi in *.
        split; [lia|]. split; [intros x Hx; rewrite !covers_rk; unfold lo, hi; lia|]. intros x Hx Hn O. exists (iend q). rewrite covers_rk in Hx. rewrite covers_rk in Hn. rewrite covers_rk. unfold lo, hi in *. lia. }
    destruct X as (a & b & Hp & Hin & Hout). exists (mkInterval a b).
    assert (Cj : forall x, covers (mkInterval a b) x <-> rk a <= rk x <= rk b) by (intros x; rewrite covers_rk; reflexivity).
    split; [|apply Cj, Hp]. split; [exists p; apply Cj, Hp|]. split; [intros x Hx; apply Hin, Cj, Hx|].
    intros j Hj (o & O1 & O2) x Hx. apply Cj. apply Cj in O1. destruct (Z_lt_le_dec (rk x) (rk a)) as [L|L]; [|destruct (Z_lt_le_dec (rk b) (rk x)) as [L'|L']; [|lia]]; exfalso.
    all: destruct (Hj x Hx) as [X1 X2]; destruct (Hout x X1 X2) as (y & Hy & Hr); [lia|].
    all: assert (Z : rk a <= rk y <= rk b \/ (rk o <= rk y <= rk x \/ rk x <= rk y <= rk o)) by lia.
    all: destruct Z as [Z|Z]; [apply (Hin y Z), Hy|]; apply (Hj y); [|exact Hy]; apply covers_rk in Hx, O2; apply covers_rk; lia.
  Qed.

  Section Two.
    Context {Q Q1 Q2 : Type} {IQ : InclusiveInterval I Q} {IQ1 : InclusiveInterval I Q1} {IQ2 : InclusiveInterval I Q2}.
    Context (q : Q) (q1 : Q1) (q2 : Q2) (MO : made_of q q1 q2).

    Lemma made_sym : made_of q q2 q1.
    Proof. destruct MO as (A & B & C). split; [exact B|]. split; [exact A|]. intros p. rewrite C. tauto. Qed.

    Lemma leaves_twice (e : entry) l la lab : leaves q e l -> leaves q1 e la -> Forall2 (leaves q2) la lab -> same_entries (concat lab) l.
    Proof.
      intros (L & Lv & _) (La & Lav & _) F. destruct MO as (V1 & V2 & C).
      assert (P : forall g, In g (concat lab) -> exists a, In a la /\ snd g = snd e /\ max_run (fun p => covers (fst a) p /\ ~ covers q2 p) (fst g) /\ max_run (fun p => covers (fst e) p /\ ~ covers q1 p) (fst a)).
      { intros g Hg. apply in_concat in Hg. destruct Hg as (l' & Hl' & Hg). destruct (F2_in _ _ _ _ F Hl') as (a & Ha & (R & Rv & _)). exists a. split; [exact Ha|].
        split; [rewrite (Rv g Hg); apply Lav, Ha|]. split; [apply R, in_map, Hg|apply La, in_map, Ha]. }
      assert (M : lists_max_runs (fun p => covers (fst e) p /\ ~ covers q p) (fun _ => True) (map fst (concat lab))).
      { split; [|split].
        - apply (ascending_pieces la lab); [apply La|]. clear - F. induction F as [|a l la lab (R & _) F IH]; constructor; [|exact IH]. split; [apply R|].
          intros g Hg p Hp. assert (In (fst g) (map fst l)) as Hi by (apply in_map, Hg). apply (proj1 (proj2 R)) in Hi. destruct Hi as [(_ & X & _) _]. apply (X p Hp).
        - intros g Hg. split; [|exact Logic.I]. apply in_map_iff in Hg. destruct Hg as (g' & <- & Hg). destruct (P g' Hg) as (a & _ & _ & R2 & R1).
          pose proof (max_run_twice (covers (fst e)) (fun p => ~ covers q1 p) (fun p => ~ covers q2 p) (fst a) (fst g') R1 R2) as R.
          apply (max_run_ext _ _ (fst g')) with (2 := R). intros p. rewrite C. tauto.
        - intros j Rj _. pose proof Rj as ((p & Hp) & Rp & _). destruct (Rp p Hp) as [He Hq]. rewrite C in Hq.
          destruct (piece_exists q1 (fst e) p He (fun X => Hq (or_introl X)) V1) as (j1 & R1 & H1). destruct (proj2 (proj2 La) j1 R1 Logic.I) as (a' & Ha' & Sa).
          apply in_map_iff in Ha'. destruct Ha' as (a & <- & Ha). apply Sa in H1.
          destruct (F2_in_l _ _ _ _ F Ha) as (l' & Hl' & (R & _)).
          destruct (piece_exists q2 (fst a) p H1 (fun X => Hq (or_intror X)) V2) as (j2 & R2 & H2). destruct (proj2 (proj2 R) j2 R2 Logic.I) as (g' & Hg' & Sg).
          apply in_map_iff in Hg'. destruct Hg' as (g & <- & Hg). assert (Hc : In g (concat lab)) by (apply in_concat; exists l'; auto). exists (fst g). split; [apply in_map, Hc|].
          destruct (P g Hc) as (a0 & _ & _ & Q2' & Q1').
          pose proof (max_run_twice (covers (fst e)) (fun p => ~ covers q1 p) (fun p => ~ covers q2 p) (fst a0) (fst g) Q1' Q2') as RR.
          assert (RR' : max_run (fun p => covers (fst e) p /\ ~ covers q p) (fst g)) by (apply (max_run_ext _ _ (fst g)) with (2 := RR); intros x; rewrite C; tauto).
          apply (max_run_same _ (fst g) j p RR' Rj); [apply Sg, H2|exact Hp]. }
      assert (F2 : Forall2 same_points (map fst (concat lab)) (map fst l)) by exact (lists_unique _ _ _ _ _ (fun p => iff_refl _) M L).
      assert (Vs : forall g, In g (concat lab) -> snd g = snd e) by (intros g Hg; destruct (P g Hg) as (_ & _ & E & _); exact E).
      clear - F2 Vs Lv. unfold same_entries. revert l F2 Lv. induction (concat lab) as [|g c IH]; intros [|h l] F2 Lv; cbn in F2; inversion F2; subst; constructor.
      - split; [assumption|]. rewrite (Vs g (or_introl eq_refl)), (Lv h (or_introl eq_refl)). reflexivity.
      - apply IH; [intros x Hx; apply Vs; right; exact Hx|assumption|intros x Hx; apply Lv; right; exact Hx].
    Qed.
    Lemma all_leaves_twice (l : list entry) : forall ls la lab, Forall2 (leaves q) l ls -> Forall2 (leaves q1) l la -> Forall2 (leaves q2) (concat la) lab ->
      same_entries (concat lab) (concat ls).
    Proof.
      induction l as [|e l IH]; intros ls la lab F F1 F2; inversion F; subst; inversion F1; subst; cbn [concat] in *; [inversion F2; subst; constructor|].
      apply Forall2_app_inv_l in F2. destruct F2 as (x1 & x2 & Fx & Fy & ->). rewrite concat_app. apply Forall2_app; [|eapply IH; eassumption].
      eapply leaves_twice; eassumption.
    Qed.

    (** What the second cut yields of a piece is what it would yield of the entry. *)
    Lemma leaf_yields (e : entry) la s : ~ overlap q1 q2 -> leaves q1 e la -> sub (fun g => overlap (fst g) q2) la s ->
      (overlap (fst e) q2 -> exists g, s = [g] /\ snd g = snd e /\ forall p, covers q2 p -> (covers (fst g) p <-> covers (fst e) p)) /\
      (~ overlap (fst e) q2 -> s = []).
    Proof.
      intros N (L & Lv & _) S. destruct MO as (V1 & V2 & _).
      assert (In_e : forall g, In g la -> forall p, covers (fst g) p -> covers (fst e) p).
      { intros g Hg p Hp. assert (Hi : In (fst g) (map fst la)) by (apply in_map, Hg). apply (proj1 (proj2 L)) in Hi. destruct Hi as [(_ & X & _) _]. apply (X p Hp). }
      assert (U : forall g, In g la -> overlap (fst g) q2 -> forall p, covers q2 p -> (covers (fst g) p <-> covers (fst e) p)).
      { intros g Hg (o & O1 & O2) p Hp. split; [apply (In_e g Hg)|]. intros He. pose proof (In_e g Hg o O1) as Oe.
        assert (Hi : In (fst g) (map fst la)) by (apply in_map, Hg). apply (proj1 (proj2 L)) in Hi. destruct Hi as [(_ & _ & X) _].
        apply covers_rk in Hp, O2, He, Oe.
        assert (J : forall a b : I, rk a <= rk o <= rk b -> rk a <= rk p <= rk b -> lo (fst e) <= rk a -> rk b <= hi (fst e) -> lo q2 <= rk a -> rk b <= hi q2 -> covers (fst g) p).
        { intros a b A1 A2 A3 A4 A5 A6. apply (X (mkInterval a b)).
          - intros x Hx. apply covers_rk in Hx. unfold lo, hi in Hx. cbn in Hx. split; [apply covers_rk; lia|]. intros H1. apply N. exists x. split; [exact H1|apply covers_rk; lia].
          - exists o. split; [exact O1|]. apply covers_rk. unfold lo, hi. cbn. exact A1.
          - apply covers_rk. unfold lo, hi. cbn. exact A2. }
        destruct (Z_le_gt_dec (rk o) (rk p)) as [G|G]; [apply (J o p)|apply (J p o)]; lia. }
      split.
      - intros (p & Hp & Hq). destruct (piece_exists q1 (fst e) p Hp (fun X => N (ex_intro _ p (conj X Hq))) V1) as (j & Rj & Hj).
        destruct (proj2 (proj2 L) j Rj Logic.I) as (g' & Hg' & Sg). apply in_map_iff in Hg'. destruct Hg' as (g & <- & Hg). apply Sg in Hj.
        assert (Og : overlap (fst g) q2) by (exists p; auto). exists g.
        assert (Hs : In g s) by (apply (sub_in _ _ _ S); auto).
        assert (T : s = [g]).
        { assert (Ss : StronglySorted (fun a b : entry => before (fst a) (fst b)) s).
          { assert (Ss : StronglySorted (fun a b : entry => before (fst a) (fst b)) la) by (apply SS_map, L).
            clear - S Ss. induction S as [|a l l' Ha S IH|a l l' Ha S IH]; [constructor| |]; inversion Ss as [|? ? Sl Fl]; subst; [|auto]. constructor; [auto|].
            apply Forall_forall. intros x Hx. apply (sub_in _ _ _ S) in Hx. rewrite Forall_forall in Fl. apply Fl, Hx. }
          assert (All : forall x, In x s -> covers (fst x) p) by (intros x Hx; apply (sub_in _ _ _ S) in Hx; destruct Hx as [Hx Ox]; apply (U x Hx Ox p Hq), Hp).
          destruct s as [|x [|y s]]; [destruct Hs| |].
          - destruct Hs as [->|[]]. reflexivity.
          - exfalso. inversion Ss as [|? ? _ Fx]; subst. inversion Fx as [|? ? B _]; subst. pose proof (B p p (All x (or_introl eq_refl)) (All y (or_intror (or_introl eq_refl)))) as Lt.
            apply plt_rk in Lt. lia. }
        split; [exact T|]. split; [apply Lv, Hg|apply (U g Hg Og)].
      - intros No. destruct s as [|x s]; [reflexivity|]. exfalso. pose proof (proj1 (sub_in _ _ _ S x) (or_introl eq_refl)) as [Hx (p & P1 & P2)]. apply No. exists p. split; [apply (In_e x Hx), P1|exact P2].
    Qed.
    Lemma leaves_yield (l : list entry) : forall la s s' out, ~ overlap q1 q2 -> Forall2 (leaves q1) l la -> sub (fun g => overlap (fst g) q2) (concat la) s ->
      sub (fun g => overlap (fst g) q2) l s' -> Forall2 (yields q2) s out -> Forall2 (part_in q2) s' out.
    Proof.
      induction l as [|e l IH]; intros la s s' out N F S S' Y; inversion F; subst.
      - inversion S'; subst. cbn in S. inversion S; subst. inversion Y; subst. constructor.
      - cbn [concat] in S. destruct (sub_app_inv _ _ _ _ S) as (s1 & s2 & -> & S1 & S2). apply Forall2_app_inv_l in Y. destruct Y as (o1 & o2 & Y1 & Y2 & ->).
        destruct (leaf_yields e _ s1 N H3 S1) as [T1 T2]. inversion S' as [|? ? t Ho St|? ? t Ho St]; subst.
        + destruct (T1 Ho) as (g & -> & Ev & Hg). inversion Y1 as [|? o ? ? [Yv Yc] Yn]; subst. inversion Yn; subst. cbn. constructor; [|eapply IH; eassumption].
          split; [congruence|]. intros p. rewrite Yc. specialize (Hg p). tauto.
        + rewrite (T2 Ho) in Y1. inversion Y1; subst. cbn. eapply IH; eassumption.
    Qed.

    (** ** What overlaps, when [q1] is on the left *)
    Lemma zchop (l : list entry) : ZS l -> before q1 q2 -> exists a s b,
      sub (fun e => overlap (fst e) q) l (a ++ s ++ b) /\ sub (fun e => overlap (fst e) q1) l (a ++ s) /\
      sub (fun e => overlap (fst e) q2) l (s ++ b) /\ (length s <= 1)%nat /\
      Forall (fun e => ~ overlap (fst e) q2) a /\ Forall (fun e => ~ overlap (fst e) q1) b.
    Proof.
      intros W B. destruct (made_of_rk q q1 q2 MO) as (Z1 & Z2 & El & Eh & A1 & A2 & Vq). rewrite IntervalFacts.before_rk in B by assumption.
      induction l as [|e l IH]; [exists [], [], []; split; [constructor|]; split; [constructor|]; split; [constructor|]; split; [cbn; lia|]; split; constructor|].
      apply ZS_cons in W. destruct W as (Ve & W & Hl). destruct (IH W) as (a & s & b & S & S1 & S2 & Ls & Na & Nb). rewrite Forall_forall in Hl.
      pose proof (overlap_made (fst e) q q1 q2 MO) as O.
      assert (NoA : overlap (fst e) q2 -> a = [] /\ (overlap (fst e) q1 -> s = [])).
      { intros Oe. apply overlap_rk in Oe. unfold elo, ehi in *. split.
        - destruct a as [|x a]; [reflexivity|exfalso]. destruct (proj1 (sub_in _ _ _ S1 x) (or_introl eq_refl)) as [Hx Ox]. inversion Na as [|? ? Nx _]; subst. specialize (Hl x Hx). rewrite overlap_rk in Ox. rewrite overlap_rk in Nx.
          pose proof (ZS_okv _ _ W Hx) as Vx. unfold elo, ehi in Vx. lia.
        - intros _. destruct s as [|x s]; [reflexivity|exfalso]. destruct (proj1 (sub_in _ _ _ S1 x)) as [Hx Ox]; [apply in_app_iff; right; left; reflexivity|]. specialize (Hl x Hx). rewrite overlap_rk in Ox. lia. }
      assert (NoS : overlap (fst e) q2 -> s = []).
      { intros Oe. apply overlap_rk in Oe. destruct s as [|x s]; [reflexivity|exfalso]. destruct (proj1 (sub_in _ _ _ S1 x)) as [Hx Ox]; [apply in_app_iff; right; left; reflexivity|].
        specialize (Hl x Hx). unfold elo, ehi in *. rewrite overlap_rk in Ox. lia. }
      destruct (overlap_or (fst e) q1) as [O1|O1], (overlap_or (fst e) q2) as [O2|O2].
      - destruct (NoA O2) as [-> _]. rewrite (NoS O2) in *. exists [], [e], b. cbn [app] in *. split; [constructor; [apply O; auto|exact S]|]. split; [constructor; [exact O1|]|].
        + exact S1.
        + split; [constructor; [exact O2|exact S2]|]. split; [cbn; lia|]. split; [constructor|exact Nb].
      - exists (e :: a), s, b. cbn [app]. split; [constructor; [apply O; auto|exact S]|]. split; [constructor; [exact O1|exact S1]|]. split; [apply sub_drop; [exact O2|exact S2]|].
        split; [exact Ls|]. split; [constructor; assumption|exact Nb].
      - destruct (NoA O2) as [-> _]. rewrite (NoS O2) in *. exists [], [], (e :: b). cbn [app] in *. split; [constructor; [apply O; auto|exact S]|]. split; [apply sub_drop; [exact O1|exact S1]|].
        split; [constructor; [exact O2|exact S2]|]. split; [cbn; lia|]. split; [constructor|constructor; assumption].
      - exists a, s, b. split; [apply sub_drop; [rewrite O; tauto|exact S]|]. split; [apply sub_drop; [exact O1|exact S1]|]. split; [apply sub_drop; [exact O2|exact S2]|]. auto.
    Qed.
  End Two.

  (** ** Cuts that do what is said, or have nothing to do *)
  Definition finds {Q} {IQ : InclusiveInterval I Q} (q : Q) z : Prop := cuttable z q \/ forall e, In e (zosdit_iter z) -> ~ overlap (fst e) q.
  Lemma cut_ok {Q} {IQ : InclusiveInterval I Q} (q : Q) z : ZWF z -> valid q -> finds q z ->
    exists z' out, zosdit_cut q z = (z', Val out) /\ ZWF z' /\
      (exists o, sub (fun e => overlap (fst e) q) (zosdit_iter z) o /\ Forall2 (yields q) o out) /\
      (exists ls, Forall2 (leaves q) (zosdit_iter z) ls /\ zosdit_iter z' = concat ls) /\
      (z_len z' + length (zosdit_iter z) = z_len z + length (zosdit_iter z'))%nat.
  Proof.
    intros W Vq X. destruct (cuttable_dec z q) as [C|C].
    - destruct (cut_done z q W Vq C) as (z' & out & E & W' & O & L & _ & N). exists z', out. auto.
    - destruct X as [X|X]; [contradiction|]. exists z, []. split; [apply cut_not_done; assumption|]. split; [exact W|]. split; [|split; [|reflexivity]].
      + exists []. split; [apply sub_none, Forall_forall, X|constructor].
      + exists (map (fun e => [e]) (zosdit_iter z)). split; [|clear; induction (zosdit_iter z) as [|e l IH]; cbn; [reflexivity|rewrite <- IH; reflexivity]].
        assert (Ok : forall e, In e (zosdit_iter z) -> elo e <= ehi e) by (intros e; apply (iter_okv z e W)).
        induction (zosdit_iter z) as [|e l IH]; [constructor|]. constructor; [|apply IH; [intros x Hx; apply X; right; exact Hx|intros x Hx; apply Ok; right; exact Hx]].
        assert (No : ~ overlap (fst e) q) by (apply X; left; reflexivity).
        assert (R : max_run (fun p => covers (fst e) p /\ ~ covers q p) (fst e)).
        { split; [apply valid_rk, (Ok e (or_introl eq_refl))|]. split; [intros p Hp; split; [exact Hp|intros Hq; apply No; exists p; auto]|]. intros j Hj _ p Hp. apply (Hj p Hp). }
        split; [|split; [intros e' [<-|[]]; reflexivity|reflexivity]]. split; [repeat constructor|]. split.
        * intros g [<-|[]]. split; [exact R|exact Logic.I].
        * intros j Rj _. exists (fst e). split; [left; reflexivity|]. pose proof Rj as ((p & Hp) & Rp & _). apply (max_run_same _ (fst e) j p R Rj); [apply (Rp p Hp)|exact Hp].
  Qed.

  Section Cuts.
    Context {Q Q1 Q2 : Type} {IQ : InclusiveInterval I Q} {IQ1 : InclusiveInterval I Q1} {IQ2 : InclusiveInterval I Q2}.
    Context (q : Q) (q1 : Q1) (q2 : Q2) (MO : made_of q q1 q2).
    Lemma F2_len {A B} (R : A -> B -> Prop) l l' : Forall2 R l l' -> length l = length l'.
    Proof. intros F. induction F; cbn; congruence. Qed.
    (** Any order, provided both cuts find what they are to cut. *)
    Lemma cut_twice z z' out z1 out1 z2 out2 : ~ overlap q1 q2 -> ZWF z -> finds q z -> finds q1 z ->
      zosdit_cut q z = (z', Val out) -> zosdit_cut q1 z = (z1, Val out1) -> zosdit_cut q2 z1 = (z2, Val out2) -> finds q2 z1 ->
      same_entries (zosdit_iter z2) (zosdit_iter z') /\ zosdit_len z2 = zosdit_len z' /\
      (forall o, sub (fun e => overlap (fst e) q) (zosdit_iter z) o -> Forall2 (part_in q) o out) /\
      (forall o, sub (fun e => overlap (fst e) q1) (zosdit_iter z) o -> Forall2 (part_in q1) o out1) /\
      (forall o, sub (fun e => overlap (fst e) q2) (zosdit_iter z) o -> Forall2 (part_in q2) o out2).
    Proof.
      intros N W Fq F1 E E1 E2 F2. destruct (made_of_rk q q1 q2 MO) as (_ & _ & _ & _ & _ & _ & Vq). pose proof MO as (V1 & V2 & _).
      destruct (cut_ok q z W Vq Fq) as (x & y & Ex & W' & (o & So & Y) & (ls & L & El) & Nl). rewrite E in Ex. injection Ex as <- <-.
      destruct (cut_ok q1 z W V1 F1) as (x & y & Ex & W1 & (o1 & So1 & Y1) & (ls1 & L1 & El1) & Nl1). rewrite E1 in Ex. injection Ex as <- <-.
      destruct (cut_ok q2 z1 W1 V2 F2) as (x & y & Ex & W2 & (o2 & So2 & Y2) & (ls2 & L2 & El2) & Nl2). rewrite E2 in Ex. injection Ex as <- <-.
      assert (S : same_entries (zosdit_iter z2) (zosdit_iter z')) by (rewrite El, El2; rewrite El1 in L2; apply (all_leaves_twice q q1 q2 MO (zosdit_iter z) ls ls1 ls2); assumption).
      split; [exact S|]. split; [apply F2_len in S; unfold zosdit_len; lia|]. split; [intros u Su; rewrite (sub_unique _ _ _ _ Su So); exact Y|].
      split; [intros u Su; rewrite (sub_unique _ _ _ _ Su So1); exact Y1|]. intros u Su. rewrite El1 in So2. apply (leaves_yield q q1 q2 MO (zosdit_iter z) ls1 o2 u out2); assumption.
    Qed.
    Lemma pieces_back {Qa} {IQa : InclusiveInterval I Qa} (qa : Qa) z z1 out : ZWF z -> valid qa -> finds qa z -> zosdit_cut qa z = (z1, Val out) ->
      ZWF z1 /\ (forall g p, In g (zosdit_iter z1) -> covers (fst g) p -> ~ covers qa p) /\
      (forall g, In g (zosdit_iter z1) -> exists e, In e (zosdit_iter z) /\ forall p, covers (fst g) p -> covers (fst e) p) /\
      (forall e p, In e (zosdit_iter z) -> covers (fst e) p -> ~ covers qa p -> exists g, In g (zosdit_iter z1) /\ covers (fst g) p /\
         forall x, covers (fst e) x -> (forall y, rk x <= rk y <= rk p \/ rk p <= rk y <= rk x -> ~ covers qa y) -> covers (fst g) x).
    Proof.
      intros W Va F E. destruct (cut_ok qa z W Va F) as (x & y & Ex & W1 & _ & (ls & L & El) & _). rewrite E in Ex. injection Ex as <- <-. rewrite El.
      split; [exact W1|]. split; [|split].
      - intros g p Hg Hp. apply in_concat in Hg. destruct Hg as (l & Hl & Hg). destruct (F2_in _ _ _ _ L Hl) as (e & He & (R & _)).
        assert (Hi : In (fst g) (map fst l)) by (apply in_map, Hg). apply (proj1 (proj2 R)) in Hi. destruct Hi as [(_ & X & _) _]. apply (X p Hp).
      - intros g Hg. apply in_concat in Hg. destruct Hg as (l & Hl & Hg). destruct (F2_in _ _ _ _ L Hl) as (e & He & (R & _)). exists e. split; [exact He|]. intros p Hp.
        assert (Hi : In (fst g) (map fst l)) by (apply in_map, Hg). apply (proj1 (proj2 R)) in Hi. destruct Hi as [(_ & X & _) _]. apply (X p Hp).
      - intros e p He Hp Hn. destruct (F2_in_l _ _ _ _ L He) as (l & Hl & (R & _)). destruct (piece_exists qa (fst e) p Hp Hn Va) as (j & Rj & Hj).
        destruct (proj2 (proj2 R) j Rj Logic.I) as (g' & Hg' & Sg). pose proof (proj1 (proj2 R) g' Hg') as [(_ & _ & Mg) _]. apply in_map_iff in Hg'. destruct Hg' as (g & <- & Hg). apply Sg in Hj.
        exists g. split; [apply in_concat; exists l; auto|]. split; [exact Hj|]. intros x0 Hx Hy. apply covers_rk in Hx. pose proof Hp as Hp'. apply covers_rk in Hp'.
        assert (J : forall a b : I, rk a <= rk p <= rk b -> rk a <= rk x0 <= rk b -> lo (fst e) <= rk a -> rk b <= hi (fst e) ->
          (forall w, rk a <= rk w <= rk b -> rk x0 <= rk w <= rk p \/ rk p <= rk w <= rk x0) -> covers (fst g) x0).
        { intros a b A1 A2 A3 A4 A5. apply (Mg (mkInterval a b)).
          - intros w Hw. apply covers_rk in Hw. unfold lo, hi in Hw. cbn in Hw. split; [apply covers_rk; lia|apply Hy, A5, Hw].
          - exists p. split; [exact Hj|]. apply covers_rk. unfold lo, hi. cbn. exact A1.
          - apply covers_rk. unfold lo, hi. cbn. exact A2. }
        destruct (Z_le_gt_dec (rk x0) (rk p)) as [G|G]; [apply (J x0 p)|apply (J p x0)]; intros; lia.
    Qed.
    Lemma elo_covers (e : entry) : elo e <= ehi e -> covers (fst e) (istart (fst e)) /\ covers (fst e) (iend (fst e)).
    Proof. intros Ve. rewrite !covers_rk. unfold elo, ehi, lo, hi in *. lia. Qed.

    (** From left to right. *)
    Lemma left_cuttable z : before q1 q2 -> (cuttable z q1 <-> cuttable z q).
    Proof.
      intros B. destruct (made_of_rk q q1 q2 MO) as (Z1 & Z2 & El & Eh & A1 & A2 & _). rewrite IntervalFacts.before_rk in B by assumption. unfold cuttable.
      replace (lo q) with (lo q1) by lia. tauto.
    Qed.
    Lemma left_finds z : before q1 q2 -> finds q z -> finds q1 z.
    Proof.
      intros B [F|F]; [left; apply left_cuttable; assumption|right]. intros e He O. apply (F e He). apply (overlap_made (fst e) q q1 q2 MO). auto.
    Qed.
    Lemma left_first_alone z z1 out1 : before q1 q2 -> ZWF z -> (forall e, In e (zosdit_iter z) -> lo q <= elo e) -> zosdit_cut q1 z = (z1, Val out1) -> finds q z /\ finds q2 z1.
    Proof.
      intros B W A E1. destruct (made_of_rk q q1 q2 MO) as (Z1 & Z2 & El & Eh & A1 & A2 & Vq). pose proof MO as (V1 & V2 & _). pose proof B as B'. rewrite IntervalFacts.before_rk in B' by assumption.
      assert (F : finds q z) by (left; right; intros e He; pose proof (A e He); pose proof (iter_okv z e W He); lia). split; [exact F|].
      destruct (pieces_back q1 z z1 out1 W V1 (left_finds z B F) E1) as (W1 & N & S & _). left. right. intros g Hg. pose proof (iter_okv z1 g W1 Hg) as Vg.
      destruct (elo_covers g Vg) as [C1 C2]. pose proof (N g _ Hg C2) as N2. destruct (S g Hg) as (e & He & Sg). apply Sg in C2. specialize (A e He).
      rewrite covers_rk in N2. apply covers_rk in C2. unfold elo, ehi, lo, hi in *. lia.
    Qed.
    Lemma left_first_stuck z z1 out1 e0 : before q1 q2 -> ZWF z -> cuttable z q -> In e0 (zosdit_iter z) -> elo e0 < lo q -> zosdit_cut q1 z = (z1, Val out1) ->
      zosdit_cut q2 z1 = (z1, Val []).
    Proof.
      intros B W C He0 L E1. destruct (made_of_rk q q1 q2 MO) as (Z1 & Z2 & El & Eh & A1 & A2 & Vq). pose proof MO as (V1 & V2 & _).
      assert (F1 : finds q1 z) by (left; apply left_cuttable; assumption). rewrite IntervalFacts.before_rk in B by assumption.
      destruct (pieces_back q1 z z1 out1 W V1 F1 E1) as (W1 & N & S & P). apply cut_not_done; [exact W1|exact V2|]. intros [(g & Hg & Lg)|X].
      - fold (zosdit_iter z1) in Hg. apply (N g (iend q1) Hg); apply covers_rk; unfold elo, ehi, lo, hi in *; lia.
      - destruct (elo_covers e0 (iter_okv z e0 W He0)) as [C0 _]. destruct (P e0 _ He0 C0) as (g & Hg & Cg & _); [rewrite covers_rk; unfold elo, lo, hi in *; lia|].
        fold (zosdit_iter z1) in X. specialize (X g Hg). apply covers_rk in Cg. apply (N g (iend q1) Hg); apply covers_rk; unfold elo, ehi, lo, hi in *; lia.
    Qed.
    (** From right to left. *)
    Lemma right_finds z z1 out2 : before q1 q2 -> ZWF z -> finds q z -> finds q2 z -> zosdit_cut q2 z = (z1, Val out2) -> finds q1 z1.
    Proof.
      intros B W F F2 E2. destruct (made_of_rk q q1 q2 MO) as (Z1 & Z2 & El & Eh & A1 & A2 & Vq). pose proof MO as (V1 & V2 & _).
      destruct (pieces_back q2 z z1 out2 W V2 F2 E2) as (W1 & N & S & P). destruct (left_finds z B F) as [C|X].
      - left. destruct C as [(e & He & Le)|A].
        + left. fold (zosdit_iter z) in He. fold (zosdit_iter z1). rewrite IntervalFacts.before_rk in B by assumption.
          destruct (elo_covers e (iter_okv z e W He)) as [C0 C1]. destruct (P e (istart q1) He) as (g & Hg & Cg & Mg); [apply covers_rk; unfold elo, ehi, lo, hi in *; lia|rewrite covers_rk; unfold elo, lo, hi in *; lia|].
          exists g. split; [exact Hg|]. assert (C2 : covers (fst g) (istart (fst e))) by (apply Mg; [exact C0|]; intros y Hy Hc; apply covers_rk in Hc; unfold elo, ehi, lo, hi in *; lia).
          apply covers_rk in Cg, C2. unfold elo, ehi, lo, hi in *. lia.
        + destruct (some_or_none (fun e => (elo e <? lo q1)) (zosdit_iter z)) as [(e & He & Le)|Nn].
          * left. fold (zosdit_iter z1). rewrite IntervalFacts.before_rk in B by assumption. fold (zosdit_iter z) in A. specialize (A e He).
            destruct (elo_covers e (iter_okv z e W He)) as [C0 C1]. destruct (P e (istart q1) He) as (g & Hg & Cg & Mg); [apply covers_rk; unfold elo, ehi, lo, hi in *; lia|rewrite covers_rk; unfold elo, lo, hi in *; lia|].
            exists g. split; [exact Hg|]. assert (C2 : covers (fst g) (istart (fst e))) by (apply Mg; [exact C0|]; intros y Hy Hc; apply covers_rk in Hc; unfold elo, ehi, lo, hi in *; lia).
            apply covers_rk in Cg, C2. unfold elo, ehi, lo, hi in *. lia.
          * right. intros g Hg. fold (zosdit_iter z1) in Hg. destruct (S g Hg) as (e & He & Sg). specialize (Nn e He). cbn in Nn.
            destruct (elo_covers g (iter_okv z1 g W1 Hg)) as [_ C2]. apply Sg in C2. apply covers_rk in C2. unfold elo, ehi, lo, hi in *. lia.
      - right. intros g Hg (p & O1 & O2). destruct (S g Hg) as (e & He & Sg). apply (X e He). exists p. auto.
    Qed.
    Lemma gapless_finds {Qa} {IQa : InclusiveInterval I Qa} (qa : Qa) z : ZWF z -> gapless (zosdit_iter z) -> finds qa z.
    Proof.
      intros W G. destruct (cuttable_dec z qa) as [C|C]; [left; exact C|right]. intros e He O. apply overlap_rk in O. pose proof (gapless_uncuttable qa z W G C e He) as L. unfold ehi in L. lia.
    Qed.
    Lemma finds_iff {Qa} {IQa : InclusiveInterval I Qa} (qa : Qa) z : ZWF z -> valid qa ->
      (finds qa z <-> cut_reaches qa (zosdit_iter z) \/ forall e, In e (zosdit_iter z) -> ~ overlap (fst e) qa).
    Proof. intros W Va. unfold finds. rewrite (cut_reaches_spec qa z W Va). reflexivity. Qed.
  End Cuts.
End Facts.
