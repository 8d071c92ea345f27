(** * SplitFacts: calls about an interval made of two (the proofs of C146). *)
From Coq Require Import List ZArith Bool Lia ZifyBool Sorting.Sorted.
From Verif Require Import Base BTree UtilsModel IntervalModel NoditModel NoditOps Spec SplitOps
  PointFacts IntervalFacts ListFacts NoditFacts NoditInv NoditQueries NoditGaps NoditMutations NoditMerges NoditMore NoditCoherence
  EqModel EqFacts GqditAlgebra.
Import ListNotations.
Open Scope Z_scope.

Section Facts.
  Context {I : Type} `{PL : PointLaws I}.
  Context {K : Type} {IK : InclusiveInterval I K} {IL : IntervalLaws I K}.
  Context {V : Type}.
  Notation entry := (K * V)%type.
  Implicit Types (m : NoditMap K V) (l : list (K * V)).

  Lemma made_of_rk {Q Q1 Q2} {IQ : InclusiveInterval I Q} {IQ1 : InclusiveInterval I Q1} {IQ2 : InclusiveInterval I Q2}
    (q : Q) (q1 : Q1) (q2 : Q2) : made_of q q1 q2 ->
    lo q1 <= hi q1 /\ lo q2 <= hi q2 /\ lo q = Z.min (lo q1) (lo q2) /\ hi q = Z.max (hi q1) (hi q2) /\
    lo q2 <= hi q1 + 1 /\ lo q1 <= hi q2 + 1 /\ valid q.
  Proof.
    intros (V1 & V2 & E). assert (Vq : valid q) by (destruct V1 as (p & Hp); exists p; apply E; auto).
    assert (Z1 := proj1 (valid_rk q1) V1). assert (Z2 := proj1 (valid_rk q2) V2). assert (Zq := proj1 (valid_rk q) Vq).
    assert (R : forall p, lo q <= rk p <= hi q <-> (lo q1 <= rk p <= hi q1) \/ (lo q2 <= rk p <= hi q2)) by (intros p; rewrite <- !covers_rk; apply E).
    pose proof (R (istart q)) as Ra. pose proof (R (iend q)) as Rb. pose proof (R (istart q1)) as R1. pose proof (R (iend q1)) as R2.
    pose proof (R (istart q2)) as R3. pose proof (R (iend q2)) as R4.
    rewrite <- ?lo_rk, <- ?hi_rk in *. unfold lo, hi in *.
    assert (lo q = Z.min (lo q1) (lo q2) /\ hi q = Z.max (hi q1) (hi q2)) as [El Eh] by (unfold lo, hi; lia).
    unfold lo, hi in El, Eh.
    split; [exact Z1|]. split; [exact Z2|]. split; [exact El|]. split; [exact Eh|]. 
    assert (X : forall z, lo q <= z <= hi q -> (lo q1 <= z <= hi q1) \/ (lo q2 <= z <= hi q2)).
    { intros z Hz. destruct (rk_surj (istart q) (iend q) z) as (p & <-); [unfold lo, hi in Hz; lia|]. apply R. unfold lo, hi in Hz. exact Hz. }
    unfold lo, hi in X. pose proof (X (rk (iend q1) + 1)) as X1. pose proof (X (rk (iend q2) + 1)) as X2.
    split; [lia|]. split; [lia|exact Vq].
  Qed.

  Lemma overlap_made {A Q Q1 Q2} {IA : InclusiveInterval I A} {IQ : InclusiveInterval I Q} {IQ1 : InclusiveInterval I Q1} {IQ2 : InclusiveInterval I Q2}
    (a : A) (q : Q) (q1 : Q1) (q2 : Q2) : made_of q q1 q2 -> (overlap a q <-> overlap a q1 \/ overlap a q2).
  Proof.
    intros (_ & _ & E). split.
    - intros (p & H1 & H2). apply E in H2. destruct H2 as [H2|H2]; [left|right]; exists p; auto.
    - intros [(p & H1 & H2)|(p & H1 & H2)]; exists p; (split; [exact H1|apply E; auto]).
  Qed.
  Lemma overlap_or {A B} {IA : InclusiveInterval I A} {IB : InclusiveInterval I B} (a : A) (b : B) : overlap a b \/ ~ overlap a b.
  Proof. rewrite overlap_rk. lia. Qed.
  Lemma same_entries_maps l l' : same_entries l l' -> same_map l l'.
  Proof. apply F2_same_map. Qed.

  Section Chop.
    Context {Q Q1 Q2 : Type} {IQ : InclusiveInterval I Q} {IQ1 : InclusiveInterval I Q1} {IQ2 : InclusiveInterval I Q2}.
    Context (q : Q) (q1 : Q1) (q2 : Q2) (MO : made_of q q1 q2).

    (** The entries that overlap, when [q1] is on the left. *)
    Lemma overlap_chop m : WF m -> before q1 q2 -> exists a s b,
      sub (fun e => overlap (fst e) q) m (a ++ s ++ b) /\ sub (fun e => overlap (fst e) q1) m (a ++ s) /\
      sub (fun e => overlap (fst e) q2) m (s ++ b) /\ (length s <= 1)%nat /\
      Forall (fun e => ~ overlap (fst e) q2) a /\ Forall (fun e => ~ overlap (fst e) q1) b /\
      Forall (fun e => overlap (fst e) q1 /\ overlap (fst e) q2) s.
    Proof.
      intros W B. destruct (made_of_rk q q1 q2 MO) as (Z1 & Z2 & El & Eh & A1 & A2 & Vq).
      rewrite IntervalFacts.before_rk in B by assumption.
      destruct (split_overlap m q W Vq) as (A & M & C & -> & HA & HM & HC & HS & _).
      pose proof W as W0. apply WF_app in W0. destruct W0 as (WA & WMC & _). apply WF_app in WMC. destruct WMC as (WM & WC & _).
      destruct (split_by (fun e => ehi e <? lo q2) M WM) as (a & r & -> & Ha & Hr); [unfold okv; intros x y; lia|].
      pose proof WM as WM'. apply WF_app in WM'. destruct WM' as (Wa & Wr & _).
      destruct (split_by (fun e => elo e <=? hi q1) r Wr) as (s & b & -> & Hs & Hb); [unfold okv; intros x y; lia|].
      pose proof Wr as Wr'. apply WF_app in Wr'. destruct Wr' as (Ws & Wb & _).
      rewrite !Forall_app in HM. rewrite Forall_app in Hr. destruct HM as (Ma & Ms & Mb), Hr as (Rs & Rb).
      rewrite Forall_forall in HA, HC, Ha, Hs, Hb, Ma, Ms, Mb, Rs, Rb. unfold left_of, right_of, meets in *.
      assert (Va : forall e, In e a -> elo e <= ehi e) by (intros e; apply (WF_okv _ _ Wa)).
      assert (Vs : forall e, In e s -> elo e <= ehi e) by (intros e; apply (WF_okv _ _ Ws)).
      assert (Vb : forall e, In e b -> elo e <= ehi e) by (intros e; apply (WF_okv _ _ Wb)).
      assert (VA : forall e, In e A -> elo e <= ehi e) by (intros e; apply (WF_okv _ _ WA)).
      assert (VC : forall e, In e C -> elo e <= ehi e) by (intros e; apply (WF_okv _ _ WC)).
      assert (F : forall (X : list entry) (P : entry -> Prop), (forall e, In e X -> P e) -> Forall P X) by (intros X P HX; apply Forall_forall, HX).
      exists a, s, b. split; [exact HS|]. split; [|split; [|split; [|split; [|split]]]].
      - apply (sub_app _ A _ [] (a ++ s)).
        + apply sub_none, F. intros e He. rewrite overlap_rk. specialize (HA e He). specialize (VA e He). unfold elo, ehi in *. lia.
        + rewrite <- (app_nil_r (a ++ s)). rewrite (app_assoc a s b), <- app_assoc. apply sub_app.
          * apply sub_all, F. intros e He. rewrite overlap_rk. apply in_app_or in He. destruct He as [He|He].
            -- specialize (Ha e He). specialize (Ma e He). specialize (Va e He). unfold elo, ehi in *. lia.
            -- specialize (Hs e He). specialize (Ms e He). specialize (Vs e He). specialize (Rs e He). unfold elo, ehi in *. lia.
          * apply sub_none, F. intros e He. rewrite overlap_rk. apply in_app_or in He. destruct He as [He|He].
            -- specialize (Hb e He). unfold elo, ehi in *. lia.
            -- specialize (HC e He). unfold elo, ehi in *. lia.
      - apply (sub_app _ A _ [] (s ++ b)).
        + apply sub_none, F. intros e He. rewrite overlap_rk. specialize (HA e He). unfold elo, ehi in *. lia.
        + rewrite <- app_assoc. apply (sub_app _ a _ [] (s ++ b)).
          * apply sub_none, F. intros e He. rewrite overlap_rk. specialize (Ha e He). unfold elo, ehi in *. lia.
          * rewrite <- (app_nil_r (s ++ b)) at 2. apply sub_app.
            -- apply sub_all, F. intros e He. rewrite overlap_rk. apply in_app_or in He. destruct He as [He|He].
               ++ specialize (Ms e He). specialize (Vs e He). specialize (Rs e He). specialize (Hs e He). unfold elo, ehi in *. lia.
               ++ specialize (Mb e He). specialize (Vb e He). specialize (Rb e He). specialize (Hb e He). unfold elo, ehi in *. lia.
            -- apply sub_none, F. intros e He. rewrite overlap_rk. specialize (HC e He). unfold elo, ehi in *. lia.
      - destruct s as [|x [|y s]]; cbn; [lia|lia|exfalso]. apply WF_cons in Ws. destruct Ws as (_ & _ & Fx). inversion Fx; subst.
        pose proof (Rs x (or_introl eq_refl)). pose proof (Hs y (or_intror (or_introl eq_refl))). lia.
      - apply F. intros e He. rewrite overlap_rk. specialize (Ha e He). unfold elo, ehi in *. lia.
      - apply F. intros e He. rewrite overlap_rk. specialize (Hb e He). unfold elo, ehi in *. lia.
      - apply F. intros e He. rewrite !overlap_rk. specialize (Hs e He). specialize (Ms e He). specialize (Vs e He). specialize (Rs e He). unfold elo, ehi in *. lia.
    Qed.

    Lemma apart_before : before q1 q2 -> ~ overlap q1 q2.
    Proof. intros B (p & H1 & H2). specialize (B p p H1 H2). apply plt_rk in B. lia. Qed.

    (** Parts of the entries [a ++ s ++ b], chopped. *)
    Lemma parts_chop (a s b o o1 o2 : list entry) :
      Forall (fun e => ~ overlap (fst e) q2) a -> Forall (fun e => ~ overlap (fst e) q1) b -> (length s <= 1)%nat ->
      Forall2 (part_in q) (a ++ s ++ b) o -> Forall2 (part_in q1) (a ++ s) o1 -> Forall2 (part_in q2) (s ++ b) o2 ->
      chopped q1 q2 o o1 o2.
    Proof.
      intros Na Nb Ls F F1 F2.
      apply Forall2_app_inv_l in F. destruct F as (a' & r & Fa & Fr & ->). apply Forall2_app_inv_l in Fr. destruct Fr as (s' & b' & Fs & Fb & ->).
      apply Forall2_app_inv_l in F1. destruct F1 as (a1 & s1 & Fa1 & Fs1 & ->). apply Forall2_app_inv_l in F2. destruct F2 as (s2 & b2 & Fs2 & Fb2 & ->).
      destruct MO as (_ & _ & E). exists a', s', b', s1, s2. split; [reflexivity|]. split; [clear -Fs Ls; destruct Fs as [|? ? ? ? ? Fs]; [exact Ls|]; destruct Fs; [exact Ls|cbn in Ls; lia]|].
      assert (J : forall (x y y' : list entry) (R R' S : entry -> entry -> Prop), Forall2 R x y -> Forall2 R' x y' ->
        (forall u v w, In u x -> R u v -> R' u w -> S v w) -> Forall2 S y y').
      { clear. intros x y y' R R' S HF. revert y'. induction HF as [|u v x y Hu HF IH]; intros y' HF' HS; inversion HF'; subst; constructor.
        - apply (HS u); [left; reflexivity|assumption..].
        - apply IH; [assumption|]. intros u' v' w' Hi. apply HS. right. exact Hi. }
      rewrite Forall_forall in Na, Nb. split; [|split; [|split]].
      - apply Forall2_app; [|clear; induction s1; constructor; [split; [intros p; reflexivity|reflexivity]|assumption]].
        apply (J _ _ _ _ _ _ Fa1 Fa). intros u v w Hu [E1 C1] [E2 C2]. split; [|congruence]. intros p. rewrite C1, C2, E. split; [tauto|].
        intros [Hc [H1|H2]]; [tauto|]. destruct (Na u Hu). exists p. auto.
      - apply (J _ _ _ _ _ _ Fs Fs1). intros u v w _ [E1 C1] [E2 C2]. split; [congruence|]. intros p. rewrite C1, C2, E. tauto.
      - apply Forall2_app; [clear; induction s2; constructor; [split; [intros p; reflexivity|reflexivity]|assumption]|].
        apply (J _ _ _ _ _ _ Fb2 Fb). intros u v w Hu [E1 C1] [E2 C2]. split; [|congruence]. intros p. rewrite C1, C2, E. split; [tauto|].
        intros [Hc [H1|H2]]; [|tauto]. destruct (Nb u Hu). exists p. auto.
      - apply (J _ _ _ _ _ _ Fs Fs2). intros u v w _ [E1 C1] [E2 C2]. split; [congruence|]. intros p. rewrite C1, C2, E. tauto.
    Qed.
    Lemma chopped_same (o o1 o2 o1' o2' : list entry) : chopped q1 q2 o o1 o2 -> same_entries o1' o1 -> same_entries o2' o2 -> chopped q1 q2 o o1' o2'.
    Proof.
      intros (a & s & b & s1 & s2 & E & Ls & A1 & B1 & A2 & B2) S1 S2. exists a, s, b, s1, s2. split; [exact E|]. split; [exact Ls|].
      assert (T : forall x y z : list entry, same_entries x y -> same_entries y z -> same_entries x z).
      { clear. unfold same_entries. intros x y z HF. revert z. induction HF as [|u v x y [Hu Eu] HF IH]; intros z HF'; inversion HF' as [|? ? ? ? [Hw Ew]]; subst; constructor.
        - split; [intros p; rewrite (Hu p); apply Hw|congruence].
        - apply IH. assumption. }
      split; [apply (T _ _ _ S1 A1)|]. split; [exact B1|]. split; [apply (T _ _ _ S2 A2)|exact B2].
    Qed.
  End Chop.

  (** ** Maps whose entries are the parts of other entries *)
  Lemma parts_same (P : entry -> I -> Prop) m l l' : WF m -> WF l -> WF l' ->
    (forall k v, In (k, v) l -> exists k0, In (k0, v) m /\ (forall p, covers k p -> covers k0 p) /\ max_run (P (k0, v)) k) ->
    (forall k v, In (k, v) l' -> exists k0, In (k0, v) m /\ (forall p, covers k p -> covers k0 p) /\ max_run (P (k0, v)) k) ->
    same_map l l' -> same_entries l l'.
  Proof.
    intros W Wl Wl' H1 H2 S.
    assert (X : forall l l', (forall k v, In (k, v) l -> exists k0, In (k0, v) m /\ (forall p, covers k p -> covers k0 p) /\ max_run (P (k0, v)) k) ->
      (forall k v, In (k, v) l' -> exists k0, In (k0, v) m /\ (forall p, covers k p -> covers k0 p) /\ max_run (P (k0, v)) k) ->
      same_map l l' -> forall e, In e l -> exists e', In e' l' /\ same_entry e e').
    { clear - W PL IL. intros l l' H1 H2 S [k v] Hi. destruct (H1 k v Hi) as (k0 & Hk0 & Hc & R). pose proof R as ((p & Hp) & _).
      destruct (proj1 (S p v)) as (k' & Hi' & Hp'); [exists k; auto|]. destruct (H2 k' v Hi') as (k0' & Hk0' & Hc' & R').
      assert (E : (k0, v) = (k0', v)) by (apply (covers_unique m p); auto). injection E as <-.
      exists (k', v). split; [exact Hi'|]. split; [|reflexivity]. exact (max_run_same _ k k' p R R' Hp Hp'). }
    apply sim_F2; [assumption..|apply X; assumption|].
    intros e' He'. destruct (X l' l H2 H1 (fun p v => iff_sym (S p v)) e' He') as (e & He & A & B).
    exists e. split; [exact He|]. split; [intros p; symmetry; apply A|symmetry; exact B].
  Qed.

  Lemma sub_wf (P : entry -> Prop) m m' : sub P m m' -> WF m -> WF m'.
  Proof.
    intros S. induction S as [|e l l' He S IH|e l l' He S IH]; intros W; [exact W| |].
    - apply WF_cons in W. destruct W as (Ve & W & Hl). apply WF_cons. split; [exact Ve|]. split; [apply IH, W|].
      rewrite Forall_forall in *. intros x Hx. apply Hl. apply (sub_in _ _ _ S x) in Hx. apply Hx.
    - apply WF_cons in W. apply IH, W.
  Qed.
  Section Cut.
    Context {Q Q1 Q2 : Type} {IQ : InclusiveInterval I Q} {IQ1 : InclusiveInterval I Q1} {IQ2 : InclusiveInterval I Q2}.
    Context (q : Q) (q1 : Q1) (q2 : Q2) (MO : made_of q q1 q2).

    Lemma max_run_ext {A} {IA : InclusiveInterval I A} (P P' : I -> Prop) (k : A) : (forall p, P p <-> P' p) -> max_run P k -> max_run P' k.
    Proof.
      intros E (Vk & A1 & A2). split; [exact Vk|]. split; [intros p Hp; apply E, A1, Hp|].
      intros j Hj. apply A2. intros p Hp. apply E, Hj, Hp.
    Qed.
    (** What is left. *)
    Lemma cut_left m m' l m1 l1 m2 l2 : WF m -> cut q m = (m', Val l) -> cut q1 m = (m1, Val l1) -> cut q2 m1 = (m2, Val l2) -> same_entries m2 m'.
    Proof.
      intros W E E1 E2. destruct (made_of_rk q q1 q2 MO) as (_ & _ & _ & _ & _ & _ & Vq). destruct MO as (V1 & V2 & C).
      destruct (cut_full m q W Vq) as (x & y & Ex & W' & _ & _ & H' & M'). rewrite E in Ex. injection Ex as <- <-.
      destruct (cut_full m q1 W V1) as (x & y & Ex & W1 & _ & _ & H1 & M1). rewrite E1 in Ex. injection Ex as <- <-.
      destruct (cut_full m1 q2 W1 V2) as (x & y & Ex & W2 & _ & _ & H2 & M2). rewrite E2 in Ex. injection Ex as <- <-.
      apply (parts_same (fun e p => covers (fst e) p /\ ~ covers q p) m); [assumption..| | |].
      - intros k v Hi. destruct (H2 k v Hi) as (k1 & Hk1 & R2 & _). destruct (H1 k1 v Hk1) as (k0 & Hk0 & R1 & _).
        pose proof (max_run_twice (covers k0) (fun p => ~ covers q1 p) (fun p => ~ covers q2 p) k1 k R1 R2) as R.
        exists k0. split; [exact Hk0|]. split; [intros p Hp; apply R, Hp|]. cbn. apply (max_run_ext _ _ k) with (2 := R). intros p. rewrite C. tauto.
      - intros k v Hi. destruct (H' k v Hi) as (k0 & Hk0 & R & _). exists k0. split; [exact Hk0|]. split; [intros p Hp; apply R, Hp|exact R].
      - intros p v. rewrite M2, M1, M', C. tauto.
    Qed.
    (** What the second cut returns is what it would return first. *)
    Lemma cut_again m m1 m2 l2 m2' l2' : ~ overlap q1 q2 -> WF m -> WF m1 ->
      (forall k v, In (k, v) m1 -> overlap k q2 -> exists k0, In (k0, v) m /\ max_run (fun p => covers k0 p /\ ~ covers q1 p) k) ->
      (forall p v, covers q2 p -> (maps_to m1 p v <-> maps_to m p v)) ->
      cut q2 m1 = (m2, Val l2) -> cut q2 m = (m2', Val l2') -> same_entries l2 l2'.
    Proof.
      intros N W W1 H1 M1 E2 E2'. destruct MO as (V1 & V2 & C).
      destruct (cut_full m1 q2 W1 V2) as (x & y & Ex & W2 & Wl2 & L2 & _ & _). rewrite E2 in Ex. injection Ex as <- <-.
      destruct (cut_full m q2 W V2) as (x & y & Ex & W2' & Wl2' & L2' & _ & _). rewrite E2' in Ex. injection Ex as <- <-.
      pose proof (cut_out_maps m1 q2 m2 l2 W1 V2 E2) as O2. pose proof (cut_out_maps m q2 m2' l2' W V2 E2') as O2'.
      assert (Rn : forall (k k0 : K), valid k -> (forall p, covers k p <-> covers k0 p /\ covers q2 p) -> max_run (fun p => covers k0 p /\ covers q2 p) k).
      { intros k k0 Vk Hk. split; [exact Vk|]. split; [intros p Hp; apply Hk, Hp|]. intros j Hj _ p Hp. apply Hk, Hj, Hp. }
      apply (parts_same (fun e p => covers (fst e) p /\ covers q2 p) m); [assumption..| | |].
      - intros k v Hi. destruct (L2 k v Hi) as (_ & k1 & Hk1 & Ho1 & Hk). destruct (H1 k1 v Hk1 Ho1) as (k0 & Hk0 & R1). exists k0. split; [exact Hk0|].
        assert (Sub : forall p, covers k1 p -> covers k0 p) by (intros p Hp; apply R1, Hp).
        split; [intros p Hp; apply Sub, Hk, Hp|]. cbn [fst]. assert (Vk : valid k) by (apply valid_rk; apply (WF_okv _ _ Wl2 Hi)).
        apply Rn; [exact Vk|]. intros p. rewrite Hk. split; [intros [X Y]; split; [apply Sub, X|exact Y]|]. intros [X Y]. split; [|exact Y].
        destruct Vk as (o & Ho). apply Hk in Ho. destruct Ho as [O1 O3]. pose proof (Sub o O1) as O0. apply covers_rk in X, Y, O3, O0.
        assert (J : forall a b : I, (forall z, rk a <= rk z <= rk b -> lo k0 <= rk z <= hi k0 /\ lo q2 <= rk z <= hi q2) ->
          rk a <= rk o <= rk b -> rk a <= rk p <= rk b -> covers k1 p).
        { intros a b Hab Ho Hp. destruct R1 as (_ & _ & R1). apply (R1 (mkInterval a b)).
          - intros z Hz. apply covers_rk in Hz. unfold lo, hi in Hz. cbn in Hz. destruct (Hab z Hz) as [Z0 Z2]. split; [apply covers_rk, Z0|].
            intros Z1. apply N. exists z. split; [exact Z1|apply covers_rk, Z2].
          - exists o. split; [exact O1|]. apply covers_rk. unfold lo, hi. cbn. exact Ho.
          - apply covers_rk. unfold lo, hi. cbn. exact Hp. }
        destruct (Z_le_gt_dec (rk o) (rk p)) as [L|L]; [apply (J o p)|apply (J p o)]; intros; lia.
      - intros k v Hi. destruct (L2' k v Hi) as (_ & k0 & Hk0 & _ & Hk). exists k0. split; [exact Hk0|]. split; [intros p Hp; apply Hk, Hp|].
        apply Rn; [apply valid_rk; apply (WF_okv _ _ Wl2' Hi)|exact Hk].
      - intros p v. rewrite O2, O2'. specialize (M1 p v). tauto.
    Qed.
    Lemma cut_second m m1 l1 m2 l2 m2' l2' : ~ overlap q1 q2 -> WF m -> cut q1 m = (m1, Val l1) -> cut q2 m1 = (m2, Val l2) ->
      cut q2 m = (m2', Val l2') -> same_entries l2 l2'.
    Proof.
      intros N W E1. destruct MO as (V1 & V2 & C).
      destruct (cut_full m q1 W V1) as (x & y & Ex & W1 & _ & _ & H1 & M1). rewrite E1 in Ex. injection Ex as <- <-.
      apply cut_again; try assumption.
      - intros k v Hi _. destruct (H1 k v Hi) as (k0 & Hk0 & R1 & _). exists k0. auto.
      - intros p v Hq. rewrite M1. split; [tauto|]. intros X. split; [exact X|]. intros Z. apply N. exists p. auto.
    Qed.
    Lemma cut_chop m : WF m -> before q1 q2 -> exists m' l m1 l1 m2 l2,
      cut q m = (m', Val l) /\ cut q1 m = (m1, Val l1) /\ cut q2 m1 = (m2, Val l2) /\ same_entries m2 m' /\ chopped q1 q2 l l1 l2.
    Proof.
      intros W B. destruct (made_of_rk q q1 q2 MO) as (_ & _ & _ & _ & _ & _ & Vq). pose proof MO as (V1 & V2 & _).
      destruct (overlap_chop q q1 q2 MO m W B) as (a & s & b & S & S1 & S2 & Ls & Na & Nb & _).
      destruct (cut_entries m q W Vq) as (m' & l & E & _ & (o & So & Fo) & _). rewrite (sub_unique _ _ _ _ So S) in Fo.
      destruct (cut_entries m q1 W V1) as (m1 & l1 & E1 & W1 & (o1 & So1 & Fo1) & _). rewrite (sub_unique _ _ _ _ So1 S1) in Fo1.
      destruct (cut_entries m q2 W V2) as (mx & l2' & E2' & _ & (o2 & So2 & Fo2) & _). rewrite (sub_unique _ _ _ _ So2 S2) in Fo2.
      destruct (cut_entries m1 q2 W1 V2) as (m2 & l2 & E2 & _). exists m', l, m1, l1, m2, l2.
      split; [exact E|]. split; [exact E1|]. split; [exact E2|]. split; [apply (cut_left m m' l m1 l1 m2 l2 W E E1 E2)|].
      apply (chopped_same q1 q2 l l1 l2').
      - apply (parts_chop q q1 q2 MO a s b); assumption.
      - clear. induction l1; constructor; [split; [intros p; reflexivity|reflexivity]|assumption].
      - apply (cut_second m m1 l1 m2 l2 mx l2'); try assumption. apply (apart_before q1 q2 B).
    Qed.
    Lemma remove_chop m : WF m -> before q1 q2 -> exists m' l m1 l1 l2,
      remove_overlapping q m = (m', Val l) /\ remove_overlapping q1 m = (m1, Val l1) /\ remove_overlapping q2 m1 = (m', Val l2) /\ l = l1 ++ l2.
    Proof.
      intros W B. destruct (made_of_rk q q1 q2 MO) as (_ & _ & _ & _ & _ & _ & Vq). pose proof MO as (V1 & V2 & _).
      destruct (overlap_chop q q1 q2 MO m W B) as (a & s & b & S & S1 & S2 & Ls & Na & Nb & Ns).
      destruct (remove_overlapping_spec m q W Vq) as (m' & l & E & So & Sm & W'). rewrite (sub_unique _ _ _ _ So S) in *.
      destruct (remove_overlapping_spec m q1 W V1) as (m1 & l1 & E1 & So1 & Sm1 & W1). rewrite (sub_unique _ _ _ _ So1 S1) in *.
      destruct (remove_overlapping_spec m1 q2 W1 V2) as (m2 & l2 & E2 & So2 & Sm2 & W2).
      assert (m2 = m') as ->.
      { apply WF_perm_eq; [assumption..|]. intros e. rewrite (sub_in _ _ _ Sm2), (sub_in _ _ _ Sm1), (sub_in _ _ _ Sm), (overlap_made _ q q1 q2 MO). tauto. }
      assert (l2 = b) as ->.
      { assert (Wl2 : WF l2) by (apply (sub_wf _ _ _ So2 W1)). pose proof (sub_wf _ _ _ S W) as Wabc. apply WF_app in Wabc. destruct Wabc as (_ & Wsb & _).
        apply WF_app in Wsb. apply WF_perm_eq; [exact Wl2|apply Wsb|]. intros e. rewrite (sub_in _ _ _ So2), (sub_in _ _ _ Sm1).
        pose proof (sub_in _ _ _ S2 e) as I2. rewrite in_app_iff in I2. rewrite Forall_forall in Nb, Ns. split.
        - intros [[Hi N] O]. destruct (proj2 I2 (conj Hi O)) as [X|X]; [|exact X]. destruct N. apply (Ns e X).
        - intros X. destruct (proj1 I2 (or_intror X)) as [Hi O]. split; [split; [exact Hi|apply (Nb e X)]|exact O]. }
      exists m', (a ++ s ++ b), m1, (a ++ s), b. rewrite <- app_assoc. auto.
    Qed.
  End Cut.

  (** ** Merging insertions *)
  Lemma absorbs_in (P : entry -> Prop) k v m m' r e : absorbs P k v m m' r -> (In e m' <-> e = (r, v) \/ In e m /\ ~ P e).
  Proof.
    intros (_ & (x & y & S & ->) & _). rewrite <- (sub_in _ _ _ S e), !in_app_iff. cbn [In]. split; [intros [X|[X|X]]|intros [X|[X|X]]]; auto.
  Qed.
  Lemma absorb_twice (P P1 P2 : entry -> Prop) k k1 k2 v m m1 m2 m' r r1 r2 :
    (forall p, covers k p <-> covers k1 p \/ covers k2 p) ->
    (forall e, In e m -> (P e <-> P1 e \/ P2 e)) -> (forall e, In e m -> P1 e \/ ~ P1 e) -> P2 (r1, v) ->
    absorbs P1 k1 v m m1 r1 -> absorbs P2 k2 v m1 m2 r2 -> absorbs P k v m m' r -> WF m2 -> WF m' ->
    same_points r2 r /\ same_entries m2 m'.
  Proof.
    intros C HP D H2 A1 A2 A W2 W'. pose proof (fun e => absorbs_in P1 k1 v m m1 r1 e A1) as M1. pose proof (fun e => absorbs_in P2 k2 v m1 m2 r2 e A2) as M2.
    pose proof (fun e => absorbs_in P k v m m' r e A) as M'. destruct A1 as (C1 & _), A2 as (C2 & _), A as (Cr & _).
    assert (S : same_points r2 r).
    { intros p. rewrite C2, Cr, C. split.
      - intros [X|(e & He & Pe & Hc)]; [auto|]. apply M1 in He. destruct He as [->|[He Ne]].
        + cbn in Hc. apply C1 in Hc. destruct Hc as [Hc|(e & He & Pe' & Hc)]; [auto|]. right. exists e. split; [exact He|]. split; [apply HP; auto|exact Hc].
        + right. exists e. split; [exact He|]. split; [apply HP; auto|exact Hc].
      - intros [[X|X]|(e & He & Pe & Hc)].
        + right. exists (r1, v). split; [apply M1; auto|]. split; [exact H2|]. apply C1. auto.
        + auto.
        + right. destruct (D e He) as [Y|Y].
          * exists (r1, v). split; [apply M1; auto|]. split; [exact H2|]. cbn. apply C1. right. exists e. auto.
          * exists e. split; [apply M1; auto|]. split; [|exact Hc]. apply (HP e He) in Pe. tauto. }
    split; [exact S|]. apply sim_F2; [assumption..| |].
    - intros e He. apply M2 in He. destruct He as [->|[He Ne]]; [exists (r, v); split; [apply M'; auto|split; [exact S|reflexivity]]|].
      apply M1 in He. destruct He as [->|[He Ne1]]; [contradiction|]. exists e. split; [apply M'; right; split; [exact He|rewrite (HP e He); tauto]|].
      split; [intros p; reflexivity|reflexivity].
    - intros e He. apply M' in He. destruct He as [->|[He Ne]]; [exists (r2, v); split; [apply M2; auto|split; [exact S|reflexivity]]|].
      rewrite (HP e He) in Ne. exists e. split; [apply M2; right; split; [apply M1; right|]; tauto|]. split; [intros p; reflexivity|reflexivity].
  Qed.

  Section Merge.
    Context (k k1 k2 : K) (v : V) (MO : made_of k k1 k2).
    Implicit Types (r : K).

    Lemma tor_split m : WF m -> exists m' r m1 r1 m2 r2,
      insert_merge_touching_or_overlapping k v m = (m', Val r) /\
      insert_merge_touching_or_overlapping k1 v m = (m1, Val r1) /\ insert_merge_touching_or_overlapping k2 v m1 = (m2, Val r2) /\
      same_points r2 r /\ same_entries m2 m'.
    Proof.
      intros W. destruct (made_of_rk k k1 k2 MO) as (Z1 & Z2 & El & Eh & A1 & A2 & Vk). pose proof MO as (V1 & V2 & C).
      destruct (insert_merge_touching_or_overlapping_spec m k v W Vk) as (m' & r & E & W' & A).
      destruct (insert_merge_touching_or_overlapping_spec m k1 v W V1) as (m1 & r1 & E1 & W1 & B1).
      destruct (insert_merge_touching_or_overlapping_spec m1 k2 v W1 V2) as (m2 & r2 & E2 & W2 & B2).
      exists m', r, m1, r1, m2, r2. do 3 (split; [assumption|]).
      assert (Nr : forall (a : K) (b : K), lo a <= hi a -> lo b <= hi b -> (touch a b \/ overlap a b <-> lo a <= hi b + 1 /\ lo b <= hi a + 1)).
      { intros a b Va Vb. rewrite touch_rk, overlap_rk by assumption. lia. }
      assert (Zk : lo k <= hi k) by (apply valid_rk, Vk).
      apply (absorb_twice _ _ _ k k1 k2 v m m1 m2 m' r r1 r2) with (5 := B1) (6 := B2) (7 := A); try assumption.
      - intros e He. pose proof (WF_okv _ _ W He) as Ve. unfold elo, ehi in Ve. rewrite !Nr by assumption. lia.
      - intros e He. pose proof (WF_okv _ _ W He) as Ve. unfold elo, ehi in Ve. rewrite !Nr by assumption. lia.
      - cbn [fst]. assert (Hr : In (r1, v) m1) by (apply (absorbs_in _ _ _ _ _ _ (r1, v) B1); auto). pose proof (WF_okv _ _ W1 Hr) as Vr. unfold elo, ehi in Vr. cbn in Vr.
        apply Nr; [exact Vr|exact Z2|]. destruct B1 as (Cr & _). pose proof (proj2 (Cr (istart k1))) as X. pose proof (proj2 (Cr (iend k1))) as Y.
        rewrite !covers_rk in X, Y. unfold lo, hi in *. specialize (X (or_introl (conj (Z.le_refl _) Z1))). specialize (Y (or_introl (conj Z1 (Z.le_refl _)))). lia.
    Qed.

    Lemma overlap_none m : (forall k' v', In (k', v') m -> ~ overlap k' k) <->
      (forall k' v', In (k', v') m -> ~ overlap k' k1) /\ (forall k' v', In (k', v') m -> ~ overlap k' k2).
    Proof.
      split.
      - intros X. split; intros k' v' Hi O; apply (X k' v' Hi), (overlap_made k' k k1 k2 MO); auto.
      - intros [X Y] k' v' Hi O. apply (overlap_made k' k k1 k2 MO) in O. destruct O as [O|O]; [apply (X k' v' Hi O)|apply (Y k' v' Hi O)].
    Qed.
    (** What was absorbed with the first half, seen from the second. *)
    Lemma first_half (P1 : entry -> Prop) m m1 r1 : ~ overlap k1 k2 -> WF m -> WF m1 -> (forall k' v', In (k', v') m -> ~ overlap k' k) ->
      absorbs P1 k1 v m m1 r1 -> touch r1 k2 /\ forall k' v', In (k', v') m1 -> ~ overlap k' k2.
    Proof.
      intros N W W1 Hn B1. destruct (made_of_rk k k1 k2 MO) as (Z1 & Z2 & El & Eh & A1 & A2 & Vk).
      assert (No : ~ overlap r1 k2).
      { intros (p & H1 & H2). apply B1 in H1. destruct H1 as [H1|(e & He & _ & H1)]; [apply N; exists p; auto|].
        apply (Hn (fst e) (snd e)); [rewrite <- surjective_pairing; exact He|]. apply (overlap_made (fst e) k k1 k2 MO). right. exists p. auto. }
      pose proof (fun e => absorbs_in P1 k1 v m m1 r1 e B1) as M1. assert (Hr : In (r1, v) m1) by (apply M1; auto).
      pose proof (WF_okv _ _ W1 Hr) as Vr. unfold elo, ehi in Vr. cbn in Vr. split.
      - apply touch_rk; [exact Vr|exact Z2|]. rewrite overlap_rk in No, N. destruct B1 as (Cr & _).
        pose proof (proj2 (Cr (istart k1))) as X. pose proof (proj2 (Cr (iend k1))) as Y. rewrite !covers_rk in X, Y. unfold lo, hi in *.
        specialize (X (or_introl (conj (Z.le_refl _) Z1))). specialize (Y (or_introl (conj Z1 (Z.le_refl _)))). lia.
      - intros k' v' Hi. apply M1 in Hi. destruct Hi as [E|[Hi _]]; [injection E as -> ->; exact No|]. intros O. apply (Hn k' v' Hi), (overlap_made k' k k1 k2 MO). auto.
    Qed.
    Lemma touch_halves (e : entry) m : ~ overlap k1 k2 -> WF m -> In e m -> ~ overlap (fst e) k -> (touch (fst e) k <-> touch (fst e) k1 \/ touch (fst e) k2).
    Proof.
      intros N W He No. destruct (made_of_rk k k1 k2 MO) as (Z1 & Z2 & El & Eh & A1 & A2 & Vk). apply valid_rk in Vk.
      pose proof (WF_okv _ _ W He) as Ve. unfold elo, ehi in Ve. rewrite !touch_rk by assumption. rewrite overlap_rk in No, N. lia.
    Qed.
    Lemma touching_split m m' r : ~ overlap k1 k2 -> WF m -> insert_merge_touching k v m = (m', Val (Ok r)) -> exists m1 r1 m2 r2,
      insert_merge_touching k1 v m = (m1, Val (Ok r1)) /\ insert_merge_touching k2 v m1 = (m2, Val (Ok r2)) /\ same_points r2 r /\ same_entries m2 m'.
    Proof.
      intros N W E. destruct (made_of_rk k k1 k2 MO) as (Z1 & Z2 & El & Eh & A1 & A2 & Vk). pose proof MO as (V1 & V2 & C).
      destruct (overlap_dec m k W Vk) as [X|Hn]; [rewrite insert_merge_touching_refused in E by assumption; discriminate|].
      destruct (insert_merge_touching_done m k v W Vk Hn) as (x & y & Ex & W' & A). rewrite E in Ex. injection Ex as <- <-.
      destruct (insert_merge_touching_done m k1 v W V1 (proj1 (proj1 (overlap_none m) Hn))) as (m1 & r1 & E1 & W1 & B1).
      destruct (first_half _ m m1 r1 N W W1 Hn B1) as [T Hn1].
      destruct (insert_merge_touching_done m1 k2 v W1 V2 Hn1) as (m2 & r2 & E2 & W2 & B2). exists m1, r1, m2, r2. do 2 (split; [assumption|]).
      apply (absorb_twice _ _ _ k k1 k2 v m m1 m2 m' r r1 r2) with (5 := B1) (6 := B2) (7 := A); try assumption.
      - intros e He. apply (touch_halves e m N W He). apply (Hn (fst e) (snd e)). rewrite <- surjective_pairing. exact He.
      - intros e He. pose proof (WF_okv _ _ W He) as Ve. unfold elo, ehi in Ve. rewrite touch_rk by assumption. lia.
    Qed.
    Lemma touching_if_equal_split veq m m' r : veq v v = true -> ~ overlap k1 k2 -> WF m ->
      insert_merge_touching_if_values_equal veq k v m = (m', Val (Ok r)) -> exists m1 r1 m2 r2,
      insert_merge_touching_if_values_equal veq k1 v m = (m1, Val (Ok r1)) /\
      insert_merge_touching_if_values_equal veq k2 v m1 = (m2, Val (Ok r2)) /\ same_points r2 r /\ same_entries m2 m'.
    Proof.
      intros Hv N W E. destruct (made_of_rk k k1 k2 MO) as (Z1 & Z2 & El & Eh & A1 & A2 & Vk). pose proof MO as (V1 & V2 & C).
      destruct (overlap_dec m k W Vk) as [X|Hn]; [rewrite insert_merge_touching_if_equal_refused in E by assumption; discriminate|].
      destruct (insert_merge_touching_if_equal_done veq m k v W Vk Hn) as (x & y & Ex & W' & A). rewrite E in Ex. injection Ex as <- <-.
      destruct (insert_merge_touching_if_equal_done veq m k1 v W V1 (proj1 (proj1 (overlap_none m) Hn))) as (m1 & r1 & E1 & W1 & B1).
      destruct (first_half _ m m1 r1 N W W1 Hn B1) as [T Hn1].
      destruct (insert_merge_touching_if_equal_done veq m1 k2 v W1 V2 Hn1) as (m2 & r2 & E2 & W2 & B2). exists m1, r1, m2, r2. do 2 (split; [assumption|]).
      apply (absorb_twice _ _ _ k k1 k2 v m m1 m2 m' r r1 r2) with (5 := B1) (6 := B2) (7 := A); try assumption.
      - intros e He. rewrite (touch_halves e m N W He); [tauto|]. apply (Hn (fst e) (snd e)). rewrite <- surjective_pairing. exact He.
      - intros e He. pose proof (WF_okv _ _ W He) as Ve. unfold elo, ehi in Ve. rewrite touch_rk by assumption. destruct (veq (snd e) v); [lia|right; intros [_ X]; discriminate].
      - split; [exact T|exact Hv].
    Qed.
    Lemma overwrite_split m : WF m -> exists m' l m1 l1 m2 l2,
      insert_overwrite k v m = (m', Val l) /\ insert_overwrite k1 v m = (m1, Val l1) /\ insert_overwrite k2 v m1 = (m2, Val l2) /\
      same_map m2 m' /\ (before k1 k2 -> chopped k1 k2 l l1 l2).
    Proof.
      intros W. destruct (made_of_rk k k1 k2 MO) as (_ & _ & _ & _ & _ & _ & Vk). pose proof MO as (V1 & V2 & C).
      destruct (insert_overwrite_spec m k v W Vk) as (m' & l & E & Ec & W' & _ & _ & M).
      destruct (insert_overwrite_spec m k1 v W V1) as (m1 & l1 & E1 & Ec1 & W1 & _ & I1 & M1).
      destruct (insert_overwrite_spec m1 k2 v W1 V2) as (m2 & l2 & E2 & Ec2 & W2 & _ & _ & M2).
      exists m', l, m1, l1, m2, l2. do 3 (split; [assumption|]). split.
      - intros p w. rewrite M2, M1, M, C. pose proof (proj1 (covers_rk k2 p)). pose proof (proj2 (covers_rk k2 p)).
        destruct (Z_le_gt_dec (lo k2) (rk p)); destruct (Z_le_gt_dec (rk p) (hi k2)).
        2-4: assert (~ covers k2 p) by (intros Q; rewrite covers_rk in Q; lia); tauto. assert (covers k2 p) by (apply covers_rk; lia). tauto.
      - intros B. destruct (cut_chop k k1 k2 MO m W B) as (x & y & x1 & y1 & x2 & y2 & F & F1 & F2 & _ & Hch).
        rewrite F in Ec. injection Ec as ->. rewrite F1 in Ec1. injection Ec1 as ->. rewrite F1 in I1. cbn [fst] in I1.
        destruct (cut_full m k1 W V1) as (m3 & l3 & F3 & W3 & _ & _ & H3 & M3). rewrite F1 in F3. injection F3 as <- <-.
        pose proof (apart_before k1 k2 B) as N. destruct (cut_full m k2 W V2) as (m4 & l4 & F4 & _). destruct (cut k2 m1) as [m5 o] eqn:F5. cbn in Ec2. subst o.
        apply (chopped_same k1 k2 l l1 l4).
        + apply (chopped_same k1 k2 l l1 y2); [exact Hch| |].
          * clear. induction l1; constructor; [split; [intros p; reflexivity|reflexivity]|assumption].
          * pose proof (cut_second k k1 k2 MO m x1 l1 x2 y2 m4 l4 N W F1 F2 F4) as S. clear - S. unfold same_entries in *. induction S as [|? ? ? ? [A E] S IH]; constructor; [|exact IH].
            split; [intros p; symmetry; apply A|symmetry; exact E].
        + clear. induction l1; constructor; [split; [intros p; reflexivity|reflexivity]|assumption].
        + apply (cut_again k k1 k2 MO m m1 m5 l2 m4 l4 N W W1); try assumption.
          * intros k' v' Hi Ho. apply I1 in Hi. destruct Hi as [Eq|Hi]; [injection Eq as -> ->; destruct (N Ho)|]. destruct (H3 k' v' Hi) as (k0 & Hk0 & R & _). exists k0. auto.
          * intros p w Hp. rewrite M1. assert (~ covers k1 p) by (intros X; apply N; exists p; auto). tauto.
    Qed.
    Lemma strict_split m : ~ overlap k1 k2 -> WF m ->
      (insert_strict k v m = (m, Val (Err v)) /\
        (insert_strict k1 v m = (m, Val (Err v)) \/ exists m1, insert_strict k1 v m = (m1, Val (Ok tt)) /\ insert_strict k2 v m1 = (m1, Val (Err v)))) \/
      exists m' m1 m2, insert_strict k v m = (m', Val (Ok tt)) /\ insert_strict k1 v m = (m1, Val (Ok tt)) /\ insert_strict k2 v m1 = (m2, Val (Ok tt)) /\ same_map m2 m'.
    Proof.
      intros N W. destruct (made_of_rk k k1 k2 MO) as (_ & _ & _ & _ & _ & _ & Vk). pose proof MO as (V1 & V2 & C).
      destruct (overlap_dec m k W Vk) as [X|Hn]; [left|right].
      - split; [apply insert_strict_refused; assumption|]. destruct (overlap_dec m k1 W V1) as [X1|Hn1]; [left; apply insert_strict_refused; assumption|right].
        destruct (insert_strict_done m k1 v W V1 Hn1) as (a & b & Em & E1 & W1). exists (a ++ (k1, v) :: b). split; [exact E1|]. apply insert_strict_refused; [exact W1|exact V2|].
        destruct X as (k' & v' & Hi & O). apply (overlap_made k' k k1 k2 MO) in O. destruct O as [O|O]; [destruct (Hn1 k' v' Hi O)|]. exists k', v'. split; [|exact O].
        subst m. apply in_app_iff in Hi. apply in_app_iff. cbn. tauto.
      - destruct (proj1 (overlap_none m) Hn) as [Hn1 Hn2]. destruct (insert_strict_done m k1 v W V1 Hn1) as (a & b & Em & E1 & W1).
        destruct (insert_strict_done _ k2 v W1 V2) as (a' & b' & Em1 & E2 & W2).
        { intros k' v' Hi. apply in_app_iff in Hi. cbn in Hi. destruct Hi as [Hi|[Eq|Hi]]; [|injection Eq as <- <-; exact N|]; apply (Hn2 k' v'); subst m; apply in_app_iff; auto. }
        destruct (insert_strict_done m k v W Vk Hn) as (c & d & Em' & E & W'). exists (c ++ (k, v) :: d), (a ++ (k1, v) :: b), (a' ++ (k2, v) :: b').
        do 3 (split; [assumption|]).
        assert (Y : forall (x y : list entry) e u, In u (x ++ e :: y) <-> u = e \/ In u (x ++ y)) by (intros x y e u; rewrite !in_app_iff; cbn [In]; intuition congruence).
        assert (Z : forall (x y : list entry) (j : K) p w, maps_to (x ++ (j, v) :: y) p w <-> (covers j p /\ w = v) \/ maps_to (x ++ y) p w).
        { intros x y j p w. unfold maps_to. split.
          - intros (j' & Hj & Hc). apply Y in Hj. destruct Hj as [Eq|Hj]; [injection Eq as -> ->; auto|]. right. exists j'. auto.
          - intros [[Hc ->]|(j' & Hj & Hc)]; [exists j; split; [apply Y; auto|exact Hc]|exists j'; split; [apply Y; auto|exact Hc]]. }
        intros p w. rewrite !Z, <- Em1, Z, <- Em, <- Em', C. tauto.
    Qed.
    Lemma touching_split_refused m : ~ overlap k1 k2 -> WF m -> (exists k' v', In (k', v') m /\ overlap k' k) ->
      insert_merge_touching k v m = (m, Val (Err v)) /\
      (insert_merge_touching k1 v m = (m, Val (Err v)) \/ exists m1 r1, insert_merge_touching k1 v m = (m1, Val (Ok r1)) /\ insert_merge_touching k2 v m1 = (m1, Val (Err v))).
    Proof.
      intros N W X. destruct (made_of_rk k k1 k2 MO) as (_ & _ & _ & _ & _ & _ & Vk). pose proof MO as (V1 & V2 & C).
      split; [apply insert_merge_touching_refused; assumption|]. destruct (overlap_dec m k1 W V1) as [X1|Hn1]; [left; apply insert_merge_touching_refused; assumption|right].
      destruct (insert_merge_touching_done m k1 v W V1 Hn1) as (m1 & r1 & E1 & W1 & A1). exists m1, r1. split; [exact E1|]. apply insert_merge_touching_refused; [exact W1|exact V2|].
      destruct X as (k' & v' & Hi & O). apply (overlap_made k' k k1 k2 MO) in O. destruct O as [O|O]; [destruct (Hn1 k' v' Hi O)|].
      pose proof (proj1 (made_of_rk k k1 k2 MO)) as Z1. pose proof (WF_okv _ _ W Hi) as Vk'. unfold elo, ehi in Vk'. cbn in Vk'.
      assert (D : touch k' k1 \/ ~ touch k' k1) by (rewrite touch_rk by assumption; lia). destruct D as [T|T].
      - exists r1, v. split; [apply (absorbs_in _ _ _ _ _ _ (r1, v) A1); auto|]. destruct O as (p & O1 & O2). exists p. split; [|exact O2]. apply A1. right. exists (k', v'). auto.
      - exists k', v'. split; [apply (absorbs_in _ _ _ _ _ _ (k', v') A1); auto|exact O].
    Qed.
    Lemma touching_if_equal_split_refused veq m : ~ overlap k1 k2 -> WF m -> (exists k' v', In (k', v') m /\ overlap k' k) ->
      insert_merge_touching_if_values_equal veq k v m = (m, Val (Err v)) /\
      (insert_merge_touching_if_values_equal veq k1 v m = (m, Val (Err v)) \/ exists m1 r1, insert_merge_touching_if_values_equal veq k1 v m = (m1, Val (Ok r1)) /\ insert_merge_touching_if_values_equal veq k2 v m1 = (m1, Val (Err v))).
    Proof.
      intros N W X. destruct (made_of_rk k k1 k2 MO) as (_ & _ & _ & _ & _ & _ & Vk). pose proof MO as (V1 & V2 & C).
      split; [apply insert_merge_touching_if_equal_refused; assumption|]. destruct (overlap_dec m k1 W V1) as [X1|Hn1]; [left; apply insert_merge_touching_if_equal_refused; assumption|right].
      destruct (insert_merge_touching_if_equal_done veq m k1 v W V1 Hn1) as (m1 & r1 & E1 & W1 & A1). exists m1, r1. split; [exact E1|]. apply insert_merge_touching_if_equal_refused; [exact W1|exact V2|].
      destruct X as (k' & v' & Hi & O). apply (overlap_made k' k k1 k2 MO) in O. destruct O as [O|O]; [destruct (Hn1 k' v' Hi O)|].
      pose proof (proj1 (made_of_rk k k1 k2 MO)) as Z1. pose proof (WF_okv _ _ W Hi) as Vk'. unfold elo, ehi in Vk'. cbn in Vk'.
      assert (D : (touch k' k1 /\ veq v' v = true) \/ ~ (touch k' k1 /\ veq v' v = true)) by (rewrite touch_rk by assumption; destruct (veq v' v); [lia|right; intros [_ Q]; discriminate]). destruct D as [T|T].
      - exists r1, v. split; [apply (absorbs_in _ _ _ _ _ _ (r1, v) A1); auto|]. destruct O as (p & O1 & O2). exists p. split; [|exact O2]. apply A1. right. exists (k', v'). auto.
      - exists k', v'. split; [apply (absorbs_in _ _ _ _ _ _ (k', v') A1); auto|exact O].
    Qed.
    Lemma absorbs_maps (P : entry -> Prop) j m m' r p w : absorbs P j v m m' r ->
      (maps_to m' p w <-> (w = v /\ (covers j p \/ exists e, In e m /\ P e /\ covers (fst e) p)) \/ exists e, In e m /\ ~ P e /\ covers (fst e) p /\ snd e = w).
    Proof.
      intros A. pose proof (fun e => absorbs_in P j v m m' r e A) as M. destruct A as (C & _). unfold maps_to. split.
      - intros (k' & Hi & Hc). apply M in Hi. destruct Hi as [Eq|[Hi Hp]]; [injection Eq as -> ->; left; split; [reflexivity|apply C, Hc]|]. right. exists (k', w). auto.
      - intros [[-> X]|([k' w'] & Hi & Hp & Hc & Eq)].
        + exists r. split; [apply M; auto|apply C, X].
        + cbn in Eq, Hc. subst w'. exists k'. split; [apply M; auto|exact Hc].
    Qed.
    Lemma overlapping_split m : WF m -> exists m' r m1 r1 m2 r2,
      insert_merge_overlapping k v m = (m', Val r) /\ insert_merge_overlapping k1 v m = (m1, Val r1) /\ insert_merge_overlapping k2 v m1 = (m2, Val r2) /\ same_map m2 m'.
    Proof.
      intros W. destruct (made_of_rk k k1 k2 MO) as (_ & _ & _ & _ & _ & _ & Vk). pose proof MO as (V1 & V2 & C).
      destruct (insert_merge_overlapping_spec m k v W Vk) as (m' & r & E & W' & A).
      destruct (insert_merge_overlapping_spec m k1 v W V1) as (m1 & r1 & E1 & W1 & B1).
      destruct (insert_merge_overlapping_spec m1 k2 v W1 V2) as (m2 & r2 & E2 & W2 & B2).
      exists m', r, m1, r1, m2, r2. do 3 (split; [assumption|]). pose proof (fun e => absorbs_in _ _ _ _ _ _ e B1) as M1. pose proof (fun e : entry => overlap_made (fst e) k k1 k2 MO) as O.
      assert (D : forall e : entry, overlap (fst e) k1 \/ ~ overlap (fst e) k1) by (intros e; apply overlap_or).
      assert (D2 : forall e : entry, overlap (fst e) k2 \/ ~ overlap (fst e) k2) by (intros e; apply overlap_or).
      pose proof (proj1 B1) as C1. intros p w. rewrite (absorbs_maps _ k2 m1 m2 r2 p w B2), (absorbs_maps _ k m m' r p w A), C. split.
      - intros [[-> [X|(e & He & Oe & Hc)]]|(e & He & Oe & Hc & <-)]; [auto| |]; apply M1 in He; (destruct He as [->|[He Ne]]; [cbn [fst snd] in *; apply C1 in Hc|]).
        + left. split; [reflexivity|]. destruct Hc as [Hc|(e & He & Pe & Hc)]; [auto|]. right. exists e. split; [exact He|]. split; [apply O; auto|exact Hc].
        + left. split; [reflexivity|]. right. exists e. split; [exact He|]. split; [apply O; auto|exact Hc].
        + left. split; [reflexivity|]. destruct Hc as [Hc|(e & He & Pe & Hc)]; [auto|]. right. exists e. split; [exact He|]. split; [apply O; auto|exact Hc].
        + right. exists e. split; [exact He|]. split; [rewrite O; tauto|auto].
      - assert (R : covers r1 p -> w = v -> (w = v /\ (covers k2 p \/ exists e, In e m1 /\ overlap (fst e) k2 /\ covers (fst e) p)) \/ exists e, In e m1 /\ ~ overlap (fst e) k2 /\ covers (fst e) p /\ snd e = w).
        { intros Hc ->. destruct (D2 (r1, v)) as [X|X]; [left; split; [reflexivity|right]; exists (r1, v); split; [apply M1; auto|auto]|]. right. exists (r1, v). split; [apply M1; auto|auto]. }
        intros [[-> [[X|X]|(e & He & Oe & Hc)]]|(e & He & Oe & Hc & <-)].
        + apply R; [apply C1; auto|reflexivity].
        + auto.
        + destruct (D e) as [Y|Y]; [apply R; [apply C1; right; exists e; auto|reflexivity]|]. left. split; [reflexivity|]. right. exists e.
          split; [apply M1; auto|]. split; [apply O in Oe; tauto|exact Hc].
        + right. rewrite O in Oe. exists e. split; [apply M1; right; split; [exact He|tauto]|]. split; [tauto|auto].
    Qed.
  End Merge.
End Facts.

(** ** Gaps *)
Section Gaps.
  Context {I : Type} `{PL : PointLaws I}.
  Context {K : Type} {IK : InclusiveInterval I K} {IL : IntervalLaws I K} {FI : FromInvalid I K}.
  Context {V : Type}.
  Context {Q Q1 Q2 : Type} {IQ : InclusiveInterval I Q} {IQ1 : InclusiveInterval I Q1} {IQ2 : InclusiveInterval I Q2}.
  Context (q : Q) (q1 : Q1) (q2 : Q2) (MO : made_of q q1 q2).
  Implicit Types (m : NoditMap K V).

  Lemma unmarked_fst (l : list (K * unit)) : unmarked (map fst l) = l.
  Proof. unfold unmarked. induction l as [|[g []] l IH]; cbn; [reflexivity|rewrite IH; reflexivity]. Qed.
  Lemma runs_WF P sel (l : list K) : lists_max_runs P sel l -> WF (unmarked l).
  Proof.
    intros (A & B & _). apply ascending_WF. unfold unmarked. rewrite map_map. cbn. rewrite map_id. split; [exact A|]. apply Forall_forall. intros g Hg. apply (B g Hg).
  Qed.
  Lemma sub_all_in {E} (P : E -> Prop) (l l' : list E) : sub P l l' -> (forall e, In e l -> P e) -> l' = l.
  Proof. intros S F. apply (sub_unique _ _ _ _ S). apply sub_all, Forall_forall, F. Qed.
  Lemma same_points_rev (l l' : list K) : Forall2 same_points l l' -> Forall2 same_points l' l.
  Proof. intros F. induction F as [|a b l l' S F IH]; constructor; [intros p; symmetry; apply S|exact IH]. Qed.

  Lemma gaps_chop m : WF m -> before q1 q2 -> exists g g1 g2 a s b,
    gaps_untrimmed m q = Val g /\ gaps_untrimmed m q1 = Val g1 /\ gaps_untrimmed m q2 = Val g2 /\
    g = a ++ s ++ b /\ (length s <= 1)%nat /\ Forall2 same_points g1 (a ++ s) /\ Forall2 same_points g2 (s ++ b) /\
    Forall (fun j => ~ overlap j q2) a /\ Forall (fun j => ~ overlap j q1) b.
  Proof.
    intros W B. destruct (made_of_rk q q1 q2 MO) as (_ & _ & _ & _ & _ & _ & Vq). pose proof MO as (V1 & V2 & C).
    destruct (gaps_untrimmed_spec m q W Vq (quiet_at_FI m q)) as (g & E & L).
    destruct (gaps_untrimmed_spec m q1 W V1 (quiet_at_FI m q1)) as (g1 & E1 & L1).
    destruct (gaps_untrimmed_spec m q2 W V2 (quiet_at_FI m q2)) as (g2 & E2 & L2).
    destruct (overlap_chop q q1 q2 MO (unmarked g) (runs_WF _ _ _ L) B) as (a & s & b & S & S1 & S2 & Ls & Na & Nb & _).
    pose proof L as (As & Lg & Lc).
    assert (Eq : a ++ s ++ b = unmarked g).
    { apply (sub_all_in _ _ _ S). intros [j []] Hj. apply in_map_iff in Hj. destruct Hj as (j' & Ej & Hj). injection Ej as ->. cbn. apply Lg in Hj. destruct Hj as [_ (p & Hp & Hq)]. exists p. auto. }
    assert (Gen : forall {X} {IX : InclusiveInterval I X} (x : X) (t : list (K * unit)), (forall p, covers x p -> covers q p) ->
      sub (fun e => overlap (fst e) x) (unmarked g) t -> lists_max_runs (fun p => ~ covered m p) (fun j => overlap j x) (map fst t)).
    { intros X IX x t Sx St. assert (Wt : WF t) by (apply (sub_wf _ _ _ St (runs_WF _ _ _ L))). split; [apply ascending_WF in Wt; apply Wt|]. split.
      - intros j Hj. apply in_map_iff in Hj. destruct Hj as ([j' []] & <- & Hj). apply (sub_in _ _ _ St) in Hj. destruct Hj as [Hj O]. cbn [fst] in *.
        apply in_map_iff in Hj. destruct Hj as (j'' & Ej & Hj). injection Ej as ->. split; [apply (Lg j' Hj)|]. destruct O as (p & O1 & O2). exists p. split; [exact O1|exact O2].
      - intros j Rj (p & O1 & O2). destruct (Lc j Rj) as (j' & Hj & Sj); [exists p; auto|]. exists j'. split; [|exact Sj]. apply in_map_iff. exists (j', tt). split; [reflexivity|].
        apply (sub_in _ _ _ St). split; [unfold unmarked; apply in_map_iff; exists j'; auto|]. exists p. split; [apply Sj, O1|exact O2]. }
    exists g, g1, g2, (map fst a), (map fst s), (map fst b). do 3 (split; [assumption|]). split; [|split; [|split; [|split; [|split]]]].
    - rewrite <- !map_app, Eq. unfold unmarked. rewrite map_map. cbn. rewrite map_id. reflexivity.
    - rewrite map_length. exact Ls.
    - rewrite <- map_app. apply (lists_unique _ _ _ _ _ (fun p => iff_refl _) L1). apply (Gen _ _ q1); [intros p Hp; apply C; auto|exact S1].
    - rewrite <- map_app. apply (lists_unique _ _ _ _ _ (fun p => iff_refl _) L2). apply (Gen _ _ q2); [intros p Hp; apply C; auto|exact S2].
    - apply Forall_map, Na.
    - apply Forall_map, Nb.
  Qed.
  Lemma part_same {X} {IX : InclusiveInterval I X} (x : X) (u u' t : list K) : Forall2 same_points u u' ->
    Forall2 (fun g t => forall p, covers t p <-> covers g p /\ covers x p) u t -> Forall2 (part_in x) (unmarked u') (unmarked t).
  Proof.
    intros S. revert t. induction S as [|a b u u' Sa S IH]; intros t F; inversion F; subst; constructor; [|apply IH; assumption].
    split; [reflexivity|]. cbn. intros p. rewrite <- (Sa p). auto.
  Qed.
  Lemma trimmed_chop m : WF m -> before q1 q2 -> exists t t1 t2,
    gaps_trimmed m q = Val t /\ gaps_trimmed m q1 = Val t1 /\ gaps_trimmed m q2 = Val t2 /\ chopped q1 q2 (unmarked t) (unmarked t1) (unmarked t2).
  Proof.
    intros W B. destruct (made_of_rk q q1 q2 MO) as (_ & _ & _ & _ & _ & _ & Vq). pose proof MO as (V1 & V2 & C).
    destruct (gaps_chop m W B) as (g & g1 & g2 & a & s & b & E & E1 & E2 & Eg & Ls & S1 & S2 & Na & Nb).
    destruct (gaps_trimmed_untrimmed m q W Vq (quiet_at_FI m q)) as (x & t & Ex & Et & F). rewrite E in Ex. injection Ex as <-.
    destruct (gaps_trimmed_untrimmed m q1 W V1 (quiet_at_FI m q1)) as (x & t1 & Ex & Et1 & F1). rewrite E1 in Ex. injection Ex as <-.
    destruct (gaps_trimmed_untrimmed m q2 W V2 (quiet_at_FI m q2)) as (x & t2 & Ex & Et2 & F2). rewrite E2 in Ex. injection Ex as <-.
    exists t, t1, t2. do 3 (split; [assumption|]). apply (parts_chop q q1 q2 MO (unmarked a) (unmarked s) (unmarked b)).
    - apply Forall_map. exact Na.
    - apply Forall_map. exact Nb.
    - unfold unmarked. rewrite map_length. exact Ls.
    - subst g. unfold unmarked at 1 2 3. rewrite <- !map_app. refine (part_same q _ _ t _ F). clear. induction (a ++ s ++ b); constructor; [intros p; reflexivity|assumption].
    - unfold unmarked at 1 2. rewrite <- map_app. exact (part_same q1 _ _ t1 S1 F1).
    - unfold unmarked at 1 2. rewrite <- map_app. exact (part_same q2 _ _ t2 S2 F2).
  Qed.
End Gaps.
