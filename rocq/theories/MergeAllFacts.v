(** * MergeAllFacts: many merging insertions one after the other (the proofs of C148). *)
From Coq Require Import List ZArith Bool Lia ZifyBool Sorting.Sorted Permutation.
From Verif Require Import Base BTree UtilsModel IntervalModel NoditModel NoditOps Spec SplitOps MergeAllOps
  PointFacts IntervalFacts ListFacts NoditFacts NoditInv NoditQueries NoditGaps NoditMutations NoditMerges SplitFacts.
Import ListNotations.
Open Scope Z_scope.

Section Facts.
  Context {I : Type} `{PL : PointLaws I}.
  Context {K : Type} {IK : InclusiveInterval I K} {IL : IntervalLaws I K}.
  Context {V : Type}.
  Notation entry := (K * V)%type.
  Implicit Types (m : NoditMap K V) (l : list (K * V)) (e : K * V).

  Lemma inside_rk (a b : K) : valid a -> (inside a b <-> lo b <= lo a /\ hi a <= hi b).
  Proof.
    intros Va. apply valid_rk in Va. split.
    - intros In'. pose proof (In' (istart a)) as A1. pose proof (In' (iend a)) as A2. rewrite !covers_rk in A1, A2. unfold lo, hi in *. lia.
    - intros [A B] p. rewrite !covers_rk. lia.
  Qed.
  Lemma wf_apart m e e' : WF m -> In e m -> In e' m -> overlap (fst e) (fst e') -> e = e'.
  Proof.
    intros W H1 H2 O. destruct (In_split _ _ H1) as (l1 & l2 & ->). apply WF_app in W. destruct W as (W1 & W2 & Hx).
    apply WF_cons in W2. destruct W2 as (_ & W2 & Hy). rewrite Forall_forall in Hy. rewrite overlap_rk in O.
    apply in_app_or in H2. destruct H2 as [H2|[H2|H2]].
    - pose proof (Hx e' e H2 (or_introl eq_refl)). unfold elo, ehi in *. lia.
    - exact H2.
    - pose proof (Hy e' H2). unfold elo, ehi in *. lia.
  Qed.
  Lemma wf_valid m e : WF m -> In e m -> valid (fst e).
  Proof. intros W Hi. apply valid_rk, (WF_okv m e W Hi). Qed.

  (** What is needed of the relation by which intervals grow together. *)
  Record linking (R : K -> K -> Prop) : Prop := {
    link_sym : forall a b, valid a -> valid b -> R a b -> R b a;
    link_dec : forall a b, valid a -> valid b -> R a b \/ ~ R a b;
    link_up : forall a b a' b', valid a -> valid b -> inside a a' -> inside b b' -> R a b -> overlap a' b' \/ R a' b';
    link_down : forall a b (F : K -> Prop), valid a -> valid b ->
      (forall p, covers a p -> exists x, F x /\ inside x a /\ covers x p) -> R a b -> exists x, F x /\ inside x a /\ R x b
  }.

  Lemma link_overlap : linking overlap.
  Proof.
    split.
    - intros a b _ _ (p & A & B). exists p. auto.
    - intros a b _ _. apply overlap_or.
    - intros a b a' b' _ _ A B (p & X & Y). left. exists p. auto.
    - intros a b F _ _ C (p & X & Y). destruct (C p X) as (x & Fx & Ix & Cx). exists x. split; [exact Fx|]. split; [exact Ix|]. exists p. auto.
  Qed.
  Lemma link_touch : linking touch.
  Proof.
    split.
    - intros a b Va Vb. rewrite !touch_rk by (apply valid_rk; assumption). lia.
    - intros a b Va Vb. rewrite touch_rk by (apply valid_rk; assumption). lia.
    - intros a b a' b' Va Vb A B. apply inside_rk in A; [|exact Va]. apply inside_rk in B; [|exact Vb].
      apply valid_rk in Va, Vb. rewrite overlap_rk, !touch_rk by lia. lia.
    - intros a b F Va Vb C T. apply valid_rk in Va, Vb. rewrite touch_rk in T by assumption. destruct T as [T|T].
      + destruct (C (iend a)) as (x & Fx & Ix & Cx); [apply covers_rk; unfold lo, hi in *; lia|].
        exists x. split; [exact Fx|]. split; [exact Ix|]. assert (Vx : valid x) by (exists (iend a); exact Cx).
        apply inside_rk in Ix; [|exact Vx]. apply valid_rk in Vx. apply covers_rk in Cx. rewrite touch_rk by assumption. unfold lo, hi in *. lia.
      + destruct (C (istart a)) as (x & Fx & Ix & Cx); [apply covers_rk; unfold lo, hi in *; lia|].
        exists x. split; [exact Fx|]. split; [exact Ix|]. assert (Vx : valid x) by (exists (istart a); exact Cx).
        apply inside_rk in Ix; [|exact Vx]. apply valid_rk in Vx. apply covers_rk in Cx. rewrite touch_rk by assumption. unfold lo, hi in *. lia.
  Qed.
  Lemma link_either : linking (fun a b => touch a b \/ overlap a b).
  Proof.
    destruct link_overlap as [s1 d1 u1 w1]. destruct link_touch as [s2 d2 u2 w2]. split.
    - intros a b Va Vb [X|X]; [left; apply s2|right; apply s1]; assumption.
    - intros a b Va Vb. destruct (d1 a b Va Vb), (d2 a b Va Vb); tauto.
    - intros a b a' b' Va Vb A B [X|X]; [destruct (u2 a b a' b' Va Vb A B X)|destruct (u1 a b a' b' Va Vb A B X)]; tauto.
    - intros a b F Va Vb C [X|X]; [destruct (w2 a b F Va Vb C X) as (x & A & B & D)|destruct (w1 a b F Va Vb C X) as (x & A & B & D)]; exists x; auto.
  Qed.

  (** ** [joined] *)
  Lemma joined_in R ks (a b : K) : joined R ks a b -> In a ks /\ In b ks.
  Proof. induction 1 as [a Ha|a b c J [IH1 IH2] Hc Rb]; auto. Qed.
  Lemma joined_trans R ks (a b c : K) : joined R ks a b -> joined R ks b c -> joined R ks a c.
  Proof. intros J. induction 1 as [b Hb|b c d J' IH Hd Rc]; [exact J|]. apply (joined_step R ks a c d); auto. Qed.
  Lemma joined_sym R ks (a b : K) : linking R -> Forall valid ks -> joined R ks a b -> joined R ks b a.
  Proof.
    intros L Fv J. rewrite Forall_forall in Fv. induction J as [a Ha|a b c J IH Hc Rb]; [constructor; exact Ha|].
    destruct (joined_in _ _ _ _ J) as [_ Hb]. apply (joined_trans R ks c b a); [|exact IH].
    apply (joined_step R ks c c b); [constructor; exact Hc|exact Hb|]. apply (link_sym R L); auto.
  Qed.
  Lemma joined_mono R ks ks' (a b : K) : (forall k, In k ks -> In k ks') -> joined R ks a b -> joined R ks' a b.
  Proof. intros S. induction 1 as [a Ha|a b c J IH Hc Rb]; [constructor; auto|]. apply (joined_step R ks' a b c); auto. Qed.

  (** ** The invariant *)
  Record grown (R : K -> K -> Prop) l m : Prop := {
    gr_wf : WF m;
    gr_valid : Forall (fun e => valid (fst e)) l;
    gr_covered : forall e p, In e m -> covers (fst e) p -> exists a, In a l /\ inside (fst a) (fst e) /\ covers (fst a) p;
    gr_member : forall a, In a l -> exists e, In e m /\ inside (fst a) (fst e);
    gr_joined : forall e a b, In e m -> In a l -> In b l -> inside (fst a) (fst e) -> inside (fst b) (fst e) ->
      joined R (map fst l) (fst a) (fst b);
    gr_last : forall e, In e m -> exists l1 x l2, l = l1 ++ x :: l2 /\
      inside (fst x) (fst e) /\ snd x = snd e /\ Forall (fun y => ~ inside (fst y) (fst e)) l2;
    gr_far : forall e e', In e m -> In e' m -> R (fst e) (fst e') -> e = e'
  }.

  Lemma in_both m e e' (a : K) : WF m -> valid a -> In e m -> In e' m -> inside a (fst e) -> inside a (fst e') -> e = e'.
  Proof. intros W (p & Hp) H1 H2 I1 I2. apply (wf_apart m e e' W H1 H2). exists p. auto. Qed.
  Lemma valids_map l : Forall (fun e => valid (fst e)) l -> Forall valid (map fst l).
  Proof. induction 1; constructor; auto. Qed.

  Lemma grown_components R l m : linking R -> grown R l m -> components R l m.
  Proof.
    intros L [W Fv C M J La Fa]. split; [|split; [|exact La]].
    - intros p. split.
      + intros (e & He & Hp). destruct (C e p He Hp) as (a & Ha & _ & Hc). exists a. auto.
      + intros (a & Ha & Hp). destruct (M a Ha) as (e & He & Hi). exists e. auto.
    - assert (Fv' := Fv). rewrite Forall_forall in Fv'.
      intros a b Ia Ib. split.
      + intros (e & He & I1 & I2). apply in_map_iff in Ia. destruct Ia as (a' & <- & Ia). apply in_map_iff in Ib. destruct Ib as (b' & <- & Ib).
        apply (J e a' b'); assumption.
      + intros Jo. induction Jo as [a Ha|a b c Jo IH Hc Rb].
        * apply in_map_iff in Ha. destruct Ha as (a' & <- & Ha). destruct (M a' Ha) as (e & He & Hi). exists e. auto.
        * destruct (joined_in _ _ _ _ Jo) as [_ Ib']. destruct (IH Ia Ib') as (e & He & I1 & I2).
          apply in_map_iff in Hc. destruct Hc as (c' & <- & Hc). destruct (M c' Hc) as (e' & He' & I3).
          apply in_map_iff in Ib'. destruct Ib' as (b' & <- & Ib').
          assert (e = e') as ->.
          { destruct (link_up R L (fst b') (fst c') (fst e) (fst e') (Fv' b' Ib') (Fv' c' Hc) I2 I3 Rb) as [O|O].
            - apply (wf_apart m e e' W He He' O).
            - apply (Fa e e' He He' O). }
          exists e'. auto.
  Qed.

  Lemma grown_nil R : grown R [] [].
  Proof.
    split; try (intros; contradiction).
    - apply WF_nil.
    - constructor.
  Qed.

  Lemma grown_step R l m m' k v r : linking R -> grown R l m -> valid k -> WF m' ->
    (forall e, In e m -> overlap (fst e) k -> R (fst e) k) ->
    absorbs (fun e => R (fst e) k) k v m m' r -> grown R (l ++ [(k, v)]) m'.
  Proof.
    intros L [W Fv C M J La Fa] Vk W' Ov Ab. pose proof Ab as (Rp & _ & _).
    assert (Ain : forall e, In e m' <-> e = (r, v) \/ In e m /\ ~ R (fst e) k) by (intros e; apply (absorbs_in _ _ _ _ _ _ _ Ab)).
    assert (Rin : In (r, v) m') by (apply Ain; auto).
    assert (Ik : inside k r) by (intros p Hp; apply Rp; auto).
    assert (Vr : valid r) by (destruct Vk as (p & Hp); exists p; auto).
    assert (Ie : forall e, In e m -> R (fst e) k -> inside (fst e) r).
    { intros e He Re p Hp. apply Rp. right. exists e. auto. }
    assert (Fv' := Fv). rewrite Forall_forall in Fv'.
    assert (Vl : Forall (fun e => valid (fst e)) (l ++ [(k, v)])) by (apply Forall_app; split; [exact Fv|constructor; [exact Vk|constructor]]).
    assert (Kept : forall e, In e m -> ~ R (fst e) k -> In e m') by (intros e He Ne; apply Ain; auto).
    assert (Kr : forall e, In e m -> ~ R (fst e) k -> ~ overlap (fst e) r).
    { intros e He Ne O. pose proof (wf_apart m' e (r, v) W' (Kept e He Ne) Rin O) as ->. cbn in *. apply Ne, (Ov (r, v) He). cbn.
      destruct Vk as (p & Hp). exists p. auto. }
    (* what lies in the new entry *)
    assert (Mem : forall a, In a l -> inside (fst a) r -> exists e, In e m /\ R (fst e) k /\ inside (fst a) (fst e)).
    { intros a Ha Hr. destruct (M a Ha) as (e & He & Hi). exists e. split; [exact He|].
      destruct (link_dec R L (fst e) k (wf_valid m e W He) Vk) as [Re|Ne]; [auto|]. exfalso. apply (Kr e He Ne).
      destruct (Fv' a Ha) as (p & Hp). exists p. auto. }
    assert (Sub : forall x, In x (map fst l) -> In x (map fst (l ++ [(k, v)]))) by (intros x Hx; rewrite map_app; apply in_or_app; auto).
    assert (Kin : In k (map fst (l ++ [(k, v)]))) by (rewrite map_app; apply in_or_app; right; left; reflexivity).
    assert (ToK : forall a, In a (l ++ [(k, v)]) -> inside (fst a) r -> joined R (map fst (l ++ [(k, v)])) (fst a) k).
    { intros a Ha Hr. apply in_app_or in Ha. destruct Ha as [Ha|[<-|[]]]; [|constructor; exact Kin].
      destruct (Mem a Ha Hr) as (e & He & Re & Hi).
      destruct (link_down R L (fst e) k (fun x => In x (map fst l)) (wf_valid m e W He) Vk) as (x & Hx & Ix & Rx); [|exact Re|].
      - intros p Hp. destruct (C e p He Hp) as (b & Hb & Ib & Cb). exists (fst b). split; [apply in_map; exact Hb|]. auto.
      - apply in_map_iff in Hx. destruct Hx as (b & <- & Hb).
        apply (joined_step R _ (fst a) (fst b) k); [|exact Kin|exact Rx]. apply (joined_mono R (map fst l)); [exact Sub|].
        apply (J e a b He Ha Hb Hi Ix). }
    split.
    - exact W'.
    - exact Vl.
    - intros e p He Hp. apply Ain in He. destruct He as [->|[He Ne]].
      + cbn in *. apply Rp in Hp. destruct Hp as [Hp|(e & He & Re & Hp)].
        * exists (k, v). split; [apply in_or_app; right; left; reflexivity|]. auto.
        * destruct (C e p He Hp) as (a & Ha & Ia & Ca). exists a. split; [apply in_or_app; auto|]. split; [|exact Ca].
          intros q Hq. apply (Ie e He Re), Ia, Hq.
      + destruct (C e p He Hp) as (a & Ha & Ia & Ca). exists a. split; [apply in_or_app; auto|auto].
    - intros a Ha. apply in_app_or in Ha. destruct Ha as [Ha|[<-|[]]].
      + destruct (M a Ha) as (e & He & Hi). destruct (link_dec R L (fst e) k (wf_valid m e W He) Vk) as [Re|Ne].
        * exists (r, v). split; [exact Rin|]. intros p Hp. apply (Ie e He Re), Hi, Hp.
        * exists e. auto.
      + exists (r, v). auto.
    - intros e a b He Ha Hb Ia Ib. apply Ain in He. destruct He as [->|[He Ne]].
      + cbn in *. apply (joined_trans R _ (fst a) k (fst b)); [apply ToK; assumption|].
        apply joined_sym; [exact L|apply valids_map, Vl|]. apply ToK; assumption.
      + assert (NK : forall x, In x (l ++ [(k, v)]) -> inside (fst x) (fst e) -> In x l).
        { intros x Hx Ix. apply in_app_or in Hx. destruct Hx as [Hx|[<-|[]]]; [exact Hx|]. exfalso. apply (Kr e He Ne).
          destruct Vk as (p & Hp). exists p. split; [apply Ix, Hp|apply Ik, Hp]. }
        apply (joined_mono R (map fst l)); [exact Sub|]. apply (J e a b He); auto.
    - intros e He. apply Ain in He. destruct He as [->|[He Ne]].
      + exists l, (k, v), []. auto.
      + destruct (La e He) as (l1 & x & l2 & -> & Ix & Sx & F2). exists l1, x, (l2 ++ [(k, v)]). rewrite <- app_assoc. split; [reflexivity|].
        split; [exact Ix|]. split; [exact Sx|]. apply Forall_app. split; [exact F2|]. constructor; [|constructor]. cbn. intros Ix'.
        apply (Kr e He Ne). destruct Vk as (p & Hp). exists p. split; [apply Ix', Hp|apply Ik, Hp].
    - assert (Far : forall e, In e m -> ~ R (fst e) k -> ~ R r (fst e)).
      { intros e He Ne Re. pose proof (wf_valid m e W He) as Ve.
        destruct (link_down R L r (fst e) (fun x => x = k \/ exists e', In e' m /\ R (fst e') k /\ x = fst e') Vr Ve) as (x & Hx & Ix & Rx); [|exact Re|].
        - intros p Hp. apply Rp in Hp. destruct Hp as [Hp|(e' & He' & Re' & Hp)].
          + exists k. auto.
          + exists (fst e'). split; [right; exists e'; auto|]. split; [apply (Ie e' He' Re')|exact Hp].
        - destruct Hx as [->|(e' & He' & Re' & ->)].
          + apply Ne, (link_sym R L); assumption.
          + pose proof (Fa e' e He' He Rx) as ->. contradiction. }
      intros e e' He He' Re. apply Ain in He, He'. destruct He as [->|[He Ne]], He' as [->|[He' Ne']]; [reflexivity|..].
      + exfalso. apply (Far e' He' Ne' Re).
      + exfalso. apply (Far e He Ne). apply (link_sym R L); [apply (wf_valid m e W He)|exact Vr|exact Re].
      + apply (Fa e e' He He' Re).
  Qed.

  (** A map to begin with. *)
  Lemma grown_start R m : linking R -> WF m -> (forall e e', In e m -> In e' m -> R (fst e) (fst e') -> e = e') -> grown R m m.
  Proof.
    intros L W Fa. assert (Fv : Forall (fun e => valid (fst e)) m) by (apply Forall_forall; intros e He; apply (wf_valid m e W He)).
    assert (Fv' := Fv). rewrite Forall_forall in Fv'. split.
    - exact W.
    - exact Fv.
    - intros e p He Hp. exists e. split; [exact He|]. split; [intros q Hq; exact Hq|exact Hp].
    - intros e He. exists e. split; [exact He|]. intros q Hq; exact Hq.
    - intros e a b He Ha Hb Ia Ib. 
      pose proof (in_both m a e (fst a) W (Fv' a Ha) Ha He (fun p Hp => Hp) Ia) as ->.
      pose proof (in_both m b e (fst b) W (Fv' b Hb) Hb He (fun p Hp => Hp) Ib) as ->. constructor. apply in_map, He.
    - intros e He. destruct (In_split _ _ He) as (l1 & l2 & E). exists l1, e, l2. split; [exact E|]. split; [intros p Hp; exact Hp|]. split; [reflexivity|].
      apply Forall_forall. intros y Hy Iy. subst m. apply WF_app in W. destruct W as (_ & W & _). apply WF_cons in W. destruct W as (_ & W & Hl).
      rewrite Forall_forall in Hl. pose proof (Hl y Hy) as X. assert (Vy : valid (fst y)) by (apply Fv', in_or_app; right; right; exact Hy).
      apply inside_rk in Iy; [|exact Vy]. apply valid_rk in Vy. unfold elo, ehi in *. lia.
    - exact Fa.
  Qed.

  Lemma fold_snoc {A B} (f : A -> B -> A) (l : list B) x a : fold_left f (l ++ [x]) a = f (fold_left f l a) x.
  Proof. rewrite fold_left_app. reflexivity. Qed.

  Lemma all_overlapping m l : WF m -> Forall (fun e => valid (fst e)) l -> grown overlap (m ++ l) (merge_all_overlapping m l).
  Proof.
    intros W. induction l as [|[k v] l IH] using rev_ind; intros Fv.
    - rewrite app_nil_r. apply grown_start; [apply link_overlap|exact W|]. intros e e'. apply (wf_apart m e e' W).
    - apply Forall_app in Fv. destruct Fv as [Fv Vk]. inversion Vk as [|? ? Vk' _]; subst. cbn in Vk'. specialize (IH Fv).
      unfold merge_all_overlapping in *. rewrite fold_snoc. cbn [fst snd]. set (m1 := fold_left _ l m) in *.
      destruct (insert_merge_overlapping_spec m1 k v (gr_wf _ _ _ IH) Vk') as (m' & r & -> & W' & Ab). cbn [fst].
      rewrite app_assoc. apply (grown_step overlap (m ++ l) m1 m' k v r link_overlap IH Vk' W'); [auto|exact Ab].
  Qed.
  Lemma all_either m l : WF m -> (forall e e', In e m -> In e' m -> ~ touch (fst e) (fst e')) -> Forall (fun e => valid (fst e)) l ->
    grown (fun a b => touch a b \/ overlap a b) (m ++ l) (merge_all_touching_or_overlapping m l).
  Proof.
    intros W Ap. induction l as [|[k v] l IH] using rev_ind; intros Fv.
    - rewrite app_nil_r. apply grown_start; [apply link_either|exact W|]. intros e e' He He' [T|O]; [destruct (Ap e e' He He' T)|apply (wf_apart m e e' W He He' O)].
    - apply Forall_app in Fv. destruct Fv as [Fv Vk]. inversion Vk as [|? ? Vk' _]; subst. cbn in Vk'. specialize (IH Fv).
      unfold merge_all_touching_or_overlapping in *. rewrite fold_snoc. cbn [fst snd]. set (m1 := fold_left _ l m) in *.
      destruct (insert_merge_touching_or_overlapping_spec m1 k v (gr_wf _ _ _ IH) Vk') as (m' & r & -> & W' & Ab). cbn [fst].
      rewrite app_assoc. apply (grown_step _ (m ++ l) m1 m' k v r link_either IH Vk' W'); [auto|exact Ab].
  Qed.

  (** [insert_merge_touching] refuses what overlaps. *)
  Lemma grown_meets R l m (k : K) : grown R l m ->
    ((exists a, In a l /\ overlap (fst a) k) <-> (exists e, In e m /\ overlap (fst e) k)).
  Proof.
    intros G. split.
    - intros (a & Ha & p & X & Y). destruct (gr_member _ _ _ G a Ha) as (e & He & Hi). exists e. split; [exact He|]. exists p. auto.
    - intros (e & He & p & X & Y). destruct (gr_covered _ _ _ G e p He X) as (a & Ha & _ & C). exists a. split; [exact Ha|]. exists p. auto.
  Qed.
  Lemma accepted_unique l acc acc' : accepted l acc -> accepted l acc' -> acc = acc'.
  Proof.
    intros A. revert acc'. induction A as [|l acc e A IH N|l acc e a A IH Ha O]; intros acc' A'; inversion A' as [|l0 acc0 e0 A0 N0 E0|l0 acc0 e0 a0 A0 Hi0 O0 E0].
    - reflexivity.
    - destruct l0; discriminate.
    - destruct l0; discriminate.
    - destruct l; discriminate.
    - apply app_inj_tail in E0. destruct E0 as [-> ->]. rewrite (IH _ A0). reflexivity.
    - apply app_inj_tail in E0. destruct E0 as [-> ->]. exfalso. pose proof (IH _ A0). subst. apply (N a0 Hi0 O0).
    - destruct l; discriminate.
    - apply app_inj_tail in E0. destruct E0 as [-> ->]. exfalso. pose proof (IH _ A0). subst. apply (N0 a Ha O).
    - apply app_inj_tail in E0. destruct E0 as [-> ->]. apply (IH _ A0).
  Qed.
  Lemma accepted_disjoint l : disjoint_intervals (map fst l) -> accepted l l.
  Proof.
    induction l as [|e l IH] using rev_ind; intros [Fv D]; [constructor|].
    rewrite map_app in Fv, D. apply Forall_app in Fv. destruct Fv as [Fv _].
    assert (X : ForallOrdPairs (fun a b => ~ overlap a b) (map fst l) /\ forall a, In a (map fst l) -> ~ overlap a (fst e)).
    { clear IH Fv. induction (map fst l) as [|x r IH']; [split; [constructor|intros a []]|]. inversion D as [|? ? Dx Dr]; subst. destruct (IH' Dr) as [D1 D2].
      rewrite Forall_forall in Dx. split.
      - constructor; [|exact D1]. apply Forall_forall. intros y Hy. apply Dx, in_or_app. auto.
      - intros a [<-|Ha]; [apply Dx, in_or_app; right; left; reflexivity|apply D2, Ha]. }
    destruct X as [D1 D2]. apply accepted_yes; [apply IH; split; assumption|]. intros a Ha. apply D2, in_map, Ha.
  Qed.

  Lemma wf_accepted m : WF m -> accepted m m.
  Proof.
    induction m as [|e m IH] using rev_ind; intros W; [constructor|]. apply WF_app in W. destruct W as (W & _ & Hx).
    apply accepted_yes; [apply IH, W|]. intros a Ha O. pose proof (Hx a e Ha (or_introl eq_refl)). rewrite overlap_rk in O. unfold elo, ehi in *. lia.
  Qed.
  Lemma all_touching m l : WF m -> (forall e e', In e m -> In e' m -> ~ touch (fst e) (fst e')) -> Forall (fun e => valid (fst e)) l ->
    exists acc, accepted (m ++ l) acc /\ grown touch acc (merge_all_touching m l).
  Proof.
    intros W0 Ap. induction l as [|[k v] l IH] using rev_ind; intros Fv.
    - exists m. rewrite app_nil_r. split; [apply wf_accepted, W0|].
      apply grown_start; [apply link_touch|exact W0|]. intros e e' He He' T. destruct (Ap e e' He He' T).
    - apply Forall_app in Fv. destruct Fv as [Fv Vk]. inversion Vk as [|? ? Vk' _]; subst. cbn in Vk'. destruct (IH Fv) as (acc & Ac & G).
      unfold merge_all_touching in *. rewrite fold_snoc. cbn [fst snd]. set (m1 := fold_left _ l m) in *. pose proof (gr_wf _ _ _ G) as W.
      destruct (overlap_dec m1 k W Vk') as [Ho|Hn].
      + rewrite insert_merge_touching_refused by assumption. cbn [fst].
        assert (exists e, In e m1 /\ overlap (fst e) k) as X by (destruct Ho as (k' & v' & Hi & O); exists (k', v'); auto).
        apply (grown_meets _ _ _ k G) in X. destruct X as (a & Ha & O). exists acc. split; [rewrite app_assoc; apply (accepted_no (m ++ l) acc (k, v) a Ac Ha O)|exact G].
      + destruct (insert_merge_touching_done m1 k v W Vk' Hn) as (m' & r & -> & W' & Ab). cbn [fst].
        exists (acc ++ [(k, v)]). split.
        * rewrite app_assoc. apply accepted_yes; [exact Ac|]. intros a Ha O. destruct (proj1 (grown_meets _ _ _ k G)) as ([k' v'] & He & O'); [exists a; auto|].
          apply (Hn k' v' He O').
        * apply (grown_step touch acc m1 m' k v r link_touch G Vk' W'); [|exact Ab].
          intros [k' v'] He O. destruct (Hn k' v' He O).
  Qed.
  (** ** The order of the insertions *)
  Lemma comp_member R l m a : components R l m -> In a (map fst l) -> exists e, In e m /\ inside a (fst e).
  Proof. intros (_ & J & _) Ha. destruct (proj2 (J a a Ha Ha) (joined_refl R _ a Ha)) as (e & He & Hi & _). exists e. auto. Qed.
  Lemma comp_covered R l m e p : WF m -> components R l m -> In e m -> covers (fst e) p ->
    exists a, In a (map fst l) /\ inside a (fst e) /\ covers a p.
  Proof.
    intros W C He Hp. pose proof C as (Po & _ & _). destruct (proj1 (Po p)) as (a & Ha & Ca); [exists e; auto|].
    destruct (comp_member R l m (fst a) C (in_map fst l a Ha)) as (e' & He' & Hi).
    assert (e' = e) as -> by (apply (wf_apart m e' e W He' He); exists p; auto). exists (fst a). split; [apply in_map, Ha|auto].
  Qed.
  Lemma members_same R l l' m m' : WF m -> WF m' -> Forall (fun e => valid (fst e)) l -> components R l m -> components R l' m' ->
    (forall k, In k (map fst l) <-> In k (map fst l')) ->
    forall e, In e m -> exists e', In e' m' /\ inside (fst e) (fst e').
  Proof.
    intros W W' Fv C C' S e He. apply valids_map in Fv. rewrite Forall_forall in Fv. pose proof C as (_ & Jo & _). pose proof C' as (_ & Jo' & _).
    pose proof (wf_valid m e W He) as (p & Hp). destruct (comp_covered R l m e p W C He Hp) as (a & Ha & Ia & Ca).
    assert (Ha' : In a (map fst l')) by (apply S, Ha). destruct (comp_member R l' m' a C' Ha') as (e' & He' & Ie').
    exists e'. split; [exact He'|]. intros q Hq. destruct (comp_covered R l m e q W C He Hq) as (b & Hb & Ib & Cb).
    assert (Hb' : In b (map fst l')) by (apply S, Hb).
    assert (J : joined R (map fst l') a b).
    { apply (joined_mono R (map fst l)); [intros k Hk; apply S, Hk|]. apply (Jo a b Ha Hb). exists e. auto. }
    apply (Jo' a b Ha' Hb') in J. destruct J as (e2 & He2 & I1 & I2).
    assert (e2 = e') as -> by (apply (in_both m' e2 e' a W'); auto). apply I2, Cb.
  Qed.
  Lemma wf_match m : forall m', WF m -> WF m' ->
    (forall e, In e m -> exists e', In e' m' /\ same_points (fst e) (fst e')) ->
    (forall e', In e' m' -> exists e, In e m /\ same_points (fst e') (fst e)) -> Forall2 same_points (map fst m) (map fst m').
  Proof.
    induction m as [|x m IH]; intros [|x' m'] W W' A B.
    - constructor.
    - destruct (B x' (or_introl eq_refl)) as (? & [] & _).
    - destruct (A x (or_introl eq_refl)) as (? & [] & _).
    - apply WF_cons in W, W'. destruct W as (Vx & W & Hx), W' as (Vx' & W' & Hx'). rewrite Forall_forall in Hx, Hx'.
      assert (SP : forall e e', elo e <= ehi e -> same_points (fst e) (fst e') -> elo e' <= ehi e' -> elo e = elo e' /\ ehi e = ehi e').
      { intros e e' V1 SP V2. assert (inside (fst e) (fst e') /\ inside (fst e') (fst e)) as [I1 I2] by (split; intros p Hp; apply SP, Hp).
        apply inside_rk in I1; [|apply valid_rk, V1]. apply inside_rk in I2; [|apply valid_rk, V2]. unfold elo, ehi in *. lia. }
      assert (E : same_points (fst x) (fst x')).
      { destruct (A x (or_introl eq_refl)) as (y' & [<-|Hy'] & S1); [exact S1|]. destruct (B x' (or_introl eq_refl)) as (y & [<-|Hy] & S2); [intros p; symmetry; apply S2|].
        exfalso. pose proof (Hx' y' Hy') as G1. pose proof (Hx y Hy) as G2. pose proof (WF_okv m y W Hy) as V1. pose proof (WF_okv m' y' W' Hy') as V2.
        pose proof (SP x y' Vx S1 V2). pose proof (SP x' y Vx' S2 V1). lia. }
      destruct (SP x x' Vx E Vx') as [E1 E2].
      constructor; [exact E|]. apply IH; [exact W|exact W'|..].
      + intros e He. destruct (A e (or_intror He)) as (e' & [<-|He'] & S); [|exists e'; auto]. exfalso.
        pose proof (WF_okv m e W He) as V1. pose proof (SP e x' V1 S Vx'). pose proof (Hx e He). lia.
      + intros e' He'. destruct (B e' (or_intror He')) as (e & [<-|He] & S); [|exists e; auto]. exfalso.
        pose proof (WF_okv m' e' W' He') as V1. pose proof (SP e' x V1 S Vx). pose proof (Hx' e' He'). lia.
  Qed.
  Lemma match_both R l l' m m' : WF m -> WF m' -> Forall (fun e => valid (fst e)) l -> components R l m -> components R l' m' ->
    (forall k, In k (map fst l) <-> In k (map fst l')) ->
    forall e, In e m -> exists e', In e' m' /\ same_points (fst e) (fst e').
  Proof.
    intros W W' Fv C C' S e He. destruct (members_same R l l' m m' W W' Fv C C' S e He) as (e' & He' & Ie). exists e'. split; [exact He'|].
    assert (S' : forall k, In k (map fst l') <-> In k (map fst l)) by (intros k; symmetry; apply S).
    assert (Fv' : Forall (fun e => valid (fst e)) l').
    { apply valids_map in Fv. rewrite Forall_forall in *. intros x Hx. apply Fv, S, in_map, Hx. }
    destruct (members_same R l' l m' m W' W Fv' C' C S' e' He') as (e2 & He2 & I2).
    assert (e2 = e) as -> by (apply (in_both m e2 e (fst e) W); auto; [apply (wf_valid m e W He)|intros q Hq; apply I2, Ie, Hq|intros q Hq; exact Hq]).
    intros p. split; [apply Ie|apply I2].
  Qed.
  Lemma comp_same R l l' m m' : WF m -> WF m' -> Forall (fun e => valid (fst e)) l -> components R l m -> components R l' m' ->
    (forall k, In k (map fst l) <-> In k (map fst l')) -> Forall2 same_points (map fst m) (map fst m').
  Proof.
    intros W W' Fv C C' S. apply wf_match; [exact W|exact W'|apply (match_both R l l' m m'); assumption|].
    apply (match_both R l' l m' m); auto.
    - apply valids_map in Fv. rewrite Forall_forall in *. intros x Hx. apply Fv, S, in_map, Hx.
    - intros k. symmetry. apply S.
  Qed.
  Lemma last_one (P : entry -> Prop) l1 x l2 l1' x' l2' : l1 ++ x :: l2 = l1' ++ x' :: l2' -> P x -> P x' ->
    Forall (fun y => ~ P y) l2 -> Forall (fun y => ~ P y) l2' -> x = x'.
  Proof.
    revert l1'. induction l1 as [|a l1 IH]; intros [|a' l1'] E Px Px' F F'; cbn in E; injection E as E1 E2; subst.
    - reflexivity.
    - rewrite Forall_app in F. destruct F as [_ F]. inversion F; contradiction.
    - rewrite Forall_app in F'. destruct F' as [_ F']. inversion F'; contradiction.
    - apply (IH l1' E2 Px Px' F F').
  Qed.
  Lemma comp_unique R l m m' : WF m -> WF m' -> Forall (fun e => valid (fst e)) l -> components R l m -> components R l m' -> same_entries m m'.
  Proof.
    intros W W' Fv C C'. pose proof (comp_same R l l m m' W W' Fv C C' (fun k => iff_refl _)) as F.
    pose proof C as (_ & _ & La). pose proof C' as (_ & _ & La'). clear C C' W W' Fv. unfold same_entries.
    revert m' F La'. induction m as [|e m IH]; intros [|e' m'] F La'; inversion F as [|? ? ? ? E1 E2]; subst; [constructor|].
    constructor.
    - split; [exact E1|]. destruct (La e (or_introl eq_refl)) as (l1 & x & l2 & E & Ix & Sx & F2). destruct (La' e' (or_introl eq_refl)) as (l1' & x' & l2' & E' & Ix' & Sx' & F2').
      rewrite <- Sx, <- Sx'. f_equal. assert (SI : forall y, inside y (fst e') <-> inside y (fst e)).
      { intros y. split; intros X p Hp; apply E1, X, Hp. }
      apply (last_one (fun y => inside (fst y) (fst e)) l1 x l2 l1' x' l2'); [congruence|exact Ix|apply SI, Ix'|exact F2|].
      eapply Forall_impl; [|exact F2']. intros y Ny X. apply Ny, SI, X.
    - apply IH; [intros y Hy; apply La; right; exact Hy|exact E2|intros y Hy; apply La'; right; exact Hy].
  Qed.
End Facts.
