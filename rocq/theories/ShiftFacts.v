(** * ShiftFacts: moving a whole map with [translate] (the proofs of C176). *)
From Coq Require Import List ZArith Bool Lia Permutation Sorting.
From Verif Require Import Base BTree UtilsModel IntervalModel NoditModel NoditOps InstancesModel Instances Spec FirstFitOps ShiftOps
  PointFacts IntervalFacts ListFacts NoditFacts NoditInv NoditQueries NoditMutations NoditMore IntervalProofs IntervalRelease FirstFitFacts.
Import ListNotations.
Open Scope Z_scope.

Lemma Forall2_in_r {A B} (R : A -> B -> Prop) l l' y : Forall2 R l l' -> In y l' -> exists x, In x l /\ R x y.
Proof. induction 1 as [|x y' l l' H F IH]; [intros []|]. intros [<-|Hi]; [exists x; cbn; auto|]. destruct (IH Hi) as (x' & Hx & Hr). exists x'. cbn. auto. Qed.
Lemma Forall2_in_l {A B} (R : A -> B -> Prop) l l' x : Forall2 R l l' -> In x l -> exists y, In y l' /\ R x y.
Proof. induction 1 as [|x' y' l l' H F IH]; [intros []|]. intros [<-|Hi]; [exists y'; cbn; auto|]. destruct (IH Hi) as (y & Hy & Hr). exists y. cbn. auto. Qed.

Section Facts.
  Context {lo hi : Z} `{T : IntType lo hi}.
  Notation int := (int lo hi).
  Context {K : Type} {IK : InclusiveInterval int K} {IL : IntervalLaws int K} {FI : FromInvalid int K}.
  Context {V : Type}.
  Implicit Types (m l : NoditMap K V) (b : build) (d p : int).

  Lemma before_int (x y : K) : valid x -> valid y -> (before x y <-> ival (iend x) < ival (istart y)).
  Proof.
    intros Vx Vy. apply valid_int in Vx, Vy. split.
    - intros B. specialize (B (iend x) (istart y) ltac:(apply covers_int; lia) ltac:(apply covers_int; lia)). apply plt_int in B. exact B.
    - intros L p q P1 P2. rewrite covers_int in P1, P2. apply plt_int. lia.
  Qed.
  Lemma WF_valid m e : WF m -> In e m -> valid (fst e).
  Proof. intros W Hi. pose proof (proj2 (ascending_WF m) W) as [_ F]. rewrite Forall_forall in F. apply F, in_map, Hi. Qed.
  Lemma moved_valid z (e e' : K * V) : moved z e e' -> valid (fst e) -> valid (fst e').
  Proof. intros (E1 & E2 & _) Ve. apply valid_int in Ve. apply valid_int. lia. Qed.
  Lemma moved_WF z m l : WF m -> Forall2 (moved z) m l -> WF l.
  Proof.
    intros W F. assert (Vm : forall e, In e m -> valid (fst e)) by (intros e; apply WF_valid, W). pose proof (proj2 (ascending_WF m) W) as [A _]. apply ascending_WF.
    clear W. unfold ascending in *. induction F as [|e e' m l He F IH]; [split; constructor|]. cbn [map] in *. inversion A as [|? ? A' Fa]; subst.
    destruct IH as [IH1 IH2]; [intros x Hx; apply Vm; right; exact Hx|exact A'|]. split; (constructor; [|assumption]) || (constructor; [assumption|]).
    - apply Forall_forall. intros k' Hk. apply in_map_iff in Hk. destruct Hk as (y & <- & Hy). destruct (Forall2_in_r _ _ _ _ F Hy) as (x & Hx & Hm).
      pose proof (Vm e (or_introl eq_refl)) as V1. pose proof (Vm x (or_intror Hx)) as V2. rewrite Forall_forall in Fa. specialize (Fa (fst x) (in_map fst _ _ Hx)).
      rewrite (before_int _ _ V1 V2) in Fa. apply before_int; [exact (moved_valid z e e' He V1)|exact (moved_valid z x y Hm V2)|]. destruct He as (X1 & X2 & _), Hm as (Y1 & Y2 & _). lia.
    - exact (moved_valid z e e' He (Vm e (or_introl eq_refl))).
  Qed.
  Lemma WF_loads m : WF m -> from_iter_strict m = Val (Ok m).
  Proof.
    intros W. pose proof (proj2 (ascending_WF m) W) as [A F]. destruct (loadable_ok m) as (m' & E & W' & P); [split; [exact F|apply ascending_disjoint, A]|].
    rewrite E. do 2 f_equal. apply WF_perm_eq; try assumption. intros e. split; apply Permutation_in; [apply Permutation_sym|]; exact P.
  Qed.
  Lemma translate_all_fits b d m : (forall e, In e m -> valid (fst e) /\ fits (ival d) e) -> exists l, translate_all b d m = Val l /\ Forall2 (moved (ival d)) m l.
  Proof.
    induction m as [|[k v] m IH]; intros H; [exists []; split; constructor|]. destruct IH as (l & E & F); [intros e He; apply H; right; exact He|].
    destruct (H (k, v) (or_introl eq_refl)) as [Vk [L1 L2]]. cbn [fst] in *. destruct (translate_fits k d Vk L1 L2) as (k' & E1 & E2 & S1 & S2 & _).
    exists ((k', v) :: l). split; [|constructor; [repeat split; cbn; assumption|exact F]]. cbn [translate_all]. replace (translate (sum b) k d) with (Val k') by (destruct b; symmetry; assumption). cbn [obind]. rewrite E. reflexivity.
  Qed.
  Lemma shift_fits b d m : WF m -> (forall e, In e m -> fits (ival d) e) -> exists m', shift b d m = Val (Ok m') /\ WF m' /\ Forall2 (moved (ival d)) m m'.
  Proof.
    intros W H. destruct (translate_all_fits b d m) as (l & E & F); [intros e He; split; [exact (WF_valid m e W He)|exact (H e He)]|].
    exists l. pose proof (moved_WF _ _ _ W F) as W'. split; [|auto]. unfold shift, into_iter. rewrite E. cbn [obind]. apply WF_loads, W'.
  Qed.
  Lemma moved_points z m l p p' v : Forall2 (moved z) m l -> ival p' = ival p + z -> (maps_to l p' v <-> maps_to m p v).
  Proof.
    intros F E. split.
    - intros (k' & Hi & Hc). destruct (Forall2_in_r _ _ _ _ F Hi) as ([k v'] & Hx & (X1 & X2 & X3)). cbn [fst snd] in *. subst v'. exists k. split; [exact Hx|]. rewrite covers_int in Hc. apply covers_int. lia.
    - intros (k & Hi & Hc). destruct (Forall2_in_l _ _ _ _ F Hi) as ([k' v'] & Hx & (X1 & X2 & X3)). cbn [fst snd] in *. subst v'. exists k'. split; [exact Hx|]. rewrite covers_int in Hc. apply covers_int. lia.
  Qed.
  Lemma shift_panics d m : WF m -> (exists e, In e m /\ ~ fits (ival d) e) -> shift Debug d m = Panic.
  Proof.
    intros W (e & He & Hn). unfold shift, into_iter. assert (X : translate_all Debug d m = Panic); [|rewrite X; reflexivity].
    assert (Vm : forall e, In e m -> valid (fst e)) by (intros x; apply WF_valid, W). clear W.
    induction m as [|[k v] m IH]; [destruct He|]. cbn [translate_all sum]. destruct He as [He|He].
    - subst e. rewrite (translate_overflows k d); [reflexivity|exact (Vm (k, v) (or_introl eq_refl))|exact Hn].
    - destruct (translate add_debug k d); [|reflexivity]. cbn [obind]. rewrite IH; [reflexivity|exact He|]. intros x Hx. apply Vm. right. exact Hx.
  Qed.

  (** *** wrapping *)
  Definition rolled d (e e' : K * V) : Prop := snd e' = snd e /\ translate add_release (fst e) d = Val (fst e').
  Lemma translate_all_release d m : lo <= 0 <= hi -> exists l, translate_all Release d m = Val l /\ Forall2 (rolled d) m l.
  Proof.
    intros L. induction m as [|[k v] m (l & E & F)]; [exists []; split; constructor|]. destruct (translate_release_val k d L) as (s & e & E' & _).
    exists ((ifrom (mkInterval s e), v) :: l). split; [|constructor; [split; [reflexivity|exact E']|exact F]]. cbn [translate_all sum]. rewrite E'. cbn [obind]. rewrite E. reflexivity.
  Qed.
  Lemma rolled_whole d e e' : lo <= 0 <= hi -> rolled d e e' -> valid (fst e) -> (valid (fst e') <-> unsplit (ival d) e).
  Proof.
    intros L [_ E] Ve. split.
    - intros V'. destruct (Z_le_dec lo 0); [|lia]. assert (D : unsplit (ival d) e \/ ~ unsplit (ival d) e) by (unfold unsplit; lia). destruct D as [D|D]; [exact D|].
      destruct (translate_release_apart (fst e) d L Ve D) as (k' & E' & N). rewrite E in E'. injection E' as <-. contradiction.
    - intros U. destruct (translate_release_together (fst e) d L Ve U) as (k' & E' & N & _). rewrite E in E'. injection E' as <-. exact N.
  Qed.
  Lemma rolled_points d e e' p p' : lo <= 0 <= hi -> rolled d e e' -> valid (fst e) -> unsplit (ival d) e -> ival p' = wrapped lo hi (ival p + ival d) -> (covers (fst e') p' <-> covers (fst e) p).
  Proof.
    intros L [_ E] Ve U Ep. destruct (translate_release_together (fst e) d L Ve U) as (k' & E' & V' & S1 & S2 & _). rewrite E in E'. injection E' as <-. rewrite !covers_int, S1, S2, Ep.
    apply valid_int in Ve. pose proof (int_range (istart (fst e))). pose proof (int_range (iend (fst e))). pose proof (int_range d). pose proof (int_range p). unfold unsplit in U. unfold wrapped.
    destruct (Z.ltb_spec (ival (istart (fst e)) + ival d) lo); destruct (Z.ltb_spec hi (ival (istart (fst e)) + ival d)); destruct (Z.ltb_spec (ival (iend (fst e)) + ival d) lo); destruct (Z.ltb_spec hi (ival (iend (fst e)) + ival d));
      destruct (Z.ltb_spec (ival p + ival d) lo); destruct (Z.ltb_spec hi (ival p + ival d)); lia.
  Qed.
  Lemma wrapped_onto d p' : lo <= 0 <= hi -> exists p, ival p' = wrapped lo hi (ival p + ival d).
  Proof.
    intros L. pose proof (int_range d). pose proof (int_range p'). destruct (at_int (lo := lo) (hi := hi) (wrapped lo hi (ival p' - ival d))) as (p & Ep).
    - unfold wrapped. destruct (Z.ltb_spec (ival p' - ival d) lo); [lia|]. destruct (Z.ltb_spec hi (ival p' - ival d)); lia.
    - exists p. rewrite Ep. unfold wrapped. destruct (Z.ltb_spec (ival p' - ival d) lo); [|destruct (Z.ltb_spec hi (ival p' - ival d))];
        match goal with |- context [?x <? lo] => destruct (Z.ltb_spec x lo); destruct (Z.ltb_spec hi x); lia end.
  Qed.
  Lemma rolled_apart d e1 e2 e1' e2' : lo <= 0 <= hi -> rolled d e1 e1' -> rolled d e2 e2' -> valid (fst e1) -> valid (fst e2) -> valid (fst e1') -> valid (fst e2') -> overlap (fst e1') (fst e2') -> overlap (fst e1) (fst e2).
  Proof.
    intros L R1 R2 V1 V2 V1' V2' (p' & C1 & C2). apply (rolled_whole d e1 e1' L R1 V1) in V1'. apply (rolled_whole d e2 e2' L R2 V2) in V2'. destruct (wrapped_onto d p' L) as (p & Ep).
    exists p. split; [apply (rolled_points d e1 e1' p p' L R1 V1 V1' Ep), C1|apply (rolled_points d e2 e2' p p' L R2 V2 V2' Ep), C2].
  Qed.
  Lemma apart_entries m : WF m -> ForallOrdPairs (fun e1 e2 => ~ overlap (fst e1) (fst e2)) m.
  Proof.
    intros W. pose proof (proj2 (ascending_WF m) W) as [A _]. pose proof (ascending_disjoint _ A) as D. clear - D. induction m as [|e m IH]; [constructor|]. inversion D as [|? ? X D']; subst.
    constructor; [exact (proj1 (Forall_map fst _ m) X)|apply IH, D'].
  Qed.
  Lemma rolled_loadable d m l : lo <= 0 <= hi -> WF m -> Forall2 (rolled d) m l -> Forall valid (map fst l) -> loadable l.
  Proof.
    intros L W F Fv. split; [exact Fv|]. pose proof (apart_entries m W) as A. assert (Vm : forall e, In e m -> valid (fst e)) by (intros e; apply WF_valid, W). clear W.
    induction F as [|e e' m l He F IH]; [constructor|]. cbn [map] in *. inversion A as [|? ? Fa A']; subst. inversion Fv as [|? ? Ve' Fv']; subst.
    constructor; [|apply IH; [exact Fv'|exact A'|intros x Hx; apply Vm; right; exact Hx]].
    apply Forall_forall. intros k' Hk O. rewrite Forall_forall in Fv'. pose proof (Fv' k' Hk) as Vk'. apply in_map_iff in Hk. destruct Hk as (y & <- & Hy). destruct (Forall2_in_r _ _ _ _ F Hy) as (x & Hx & Hm).
    rewrite Forall_forall in Fa. apply (Fa x Hx). exact (rolled_apart d e x e' y L He Hm (Vm e (or_introl eq_refl)) (Vm x (or_intror Hx)) Ve' Vk' O).
  Qed.
  Lemma rolled_map m l d p p' v : lo <= 0 <= hi -> WF m -> Forall2 (rolled d) m l -> (forall e, In e m -> unsplit (ival d) e) -> ival p' = wrapped lo hi (ival p + ival d) -> (maps_to l p' v <-> maps_to m p v).
  Proof.
    intros L W F U Ep. split.
    - intros (k' & Hi & Hc). destruct (Forall2_in_r _ _ _ _ F Hi) as ([k v'] & Hx & R). assert (v = v') as <- by exact (proj1 R). exists k. split; [exact Hx|].
      apply (rolled_points d _ _ p p' L R (WF_valid m _ W Hx) (U _ Hx) Ep). exact Hc.
    - intros (k & Hi & Hc). destruct (Forall2_in_l _ _ _ _ F Hi) as ([k' v'] & Hx & R). assert (v' = v) as -> by exact (proj1 R). exists k'. split; [exact Hx|].
      apply (rolled_points d _ _ p p' L R (WF_valid m _ W Hi) (U _ Hi) Ep). exact Hc.
  Qed.
  Lemma around_wrapped d p p' : lo <= 0 <= hi -> around (lo := lo) (hi := hi) (ival p + ival d) (ival p') -> ival p' = wrapped lo hi (ival p + ival d).
  Proof.
    intros L (n & E). rewrite <- wrap_add by exact L. pose proof (int_range p'). symmetry. rewrite E. apply wrap_shift. lia.
  Qed.
  Lemma shift_release d m : lo <= 0 <= hi -> WF m -> (forall e, In e m -> unsplit (ival d) e) ->
    exists m', shift Release d m = Val (Ok m') /\ WF m' /\ length m' = length m /\ forall p p' v, around (lo := lo) (hi := hi) (ival p + ival d) (ival p') -> (maps_to m' p' v <-> maps_to m p v).
  Proof.
    intros L W U. destruct (translate_all_release d m L) as (l & E & F). destruct (loadable_ok l) as (m' & E' & W' & P).
    - apply (rolled_loadable d m l L W F). apply Forall_forall. intros k Hk. apply in_map_iff in Hk. destruct Hk as (y & <- & Hy). destruct (Forall2_in_r _ _ _ _ F Hy) as (x & Hx & Hm).
      apply (rolled_whole d x y L Hm (WF_valid m x W Hx)), U, Hx.
    - exists m'. unfold shift, into_iter. rewrite E. cbn [obind]. split; [exact E'|]. split; [exact W'|]. split; [rewrite <- (Permutation_length P); symmetry; clear - F; induction F; cbn; congruence|].
      intros p p' v A. apply (around_wrapped d p p' L) in A. rewrite <- (rolled_map m l d p p' v L W F U A). unfold maps_to. split; intros (k & Hi & Hc); exists k; (split; [|exact Hc]); [apply (Permutation_in _ (Permutation_sym P)), Hi|apply (Permutation_in _ P), Hi].
  Qed.
  Lemma shift_release_panics d m : lo <= 0 <= hi -> WF m -> (exists e, In e m /\ ~ unsplit (ival d) e) -> shift Release d m = Panic.
  Proof.
    intros L W (e & He & Hn). destruct (translate_all_release d m L) as (l & E & F). unfold shift, into_iter. rewrite E. cbn [obind]. destruct (from_iter_strict l) as [[m'|v]|] eqn:X; [exfalso|exfalso|reflexivity].
    - assert (Hl : loadable l) by (apply from_iter_strict_Ok; eauto). destruct Hl as [Fv _]. destruct (Forall2_in_l _ _ _ _ F He) as (y & Hy & Hm). rewrite Forall_forall in Fv.
      apply Hn, (rolled_whole d e y L Hm (WF_valid m e W He)), Fv, in_map, Hy.
    - apply from_iter_strict_Err in X. destruct X as (l1 & k & l2 & -> & [Fv _] & Vk & k' & Hk' & O). apply Forall2_app_inv_r in F. destruct F as (m1 & m2 & F1 & F2 & ->).
      inversion F2 as [|x y m3 l3 Hx F3]; subst. apply in_map_iff in Hk'. destruct Hk' as (y' & <- & Hy'). destruct (Forall2_in_r _ _ _ _ F1 Hy') as (x' & Hx' & Hm').
      pose proof (apart_entries _ W) as A. apply FOP_app in A. destruct A as (_ & _ & A). apply (A x' x Hx' (or_introl eq_refl)).
      rewrite Forall_forall in Fv. refine (rolled_apart d x' x y' (k, v) L Hm' Hx _ _ (Fv _ (in_map fst _ _ Hy')) Vk O); apply (WF_valid _ _ W), in_app_iff; [left; exact Hx'|right; left; reflexivity].
  Qed.
  Lemma same_lookup m m' p p' : WF m -> WF m' -> (forall v, maps_to m' p' v <-> maps_to m p v) -> get_at_point m' p' = get_at_point m p.
  Proof.
    intros W W' E. destruct (get_at_point_cases m p W) as [(v & Hv & -> & _)|(N & -> & _)].
    - apply get_at_point_Some; [exact W'|]. apply E, Hv.
    - apply get_at_point_None; [exact W'|]. intros (k & v & Hi & Hc). assert (X : maps_to m p v) by (apply E; exists k; auto). destruct X as (k0 & X). apply N. exists k0, v. exact X.
  Qed.
  Lemma moved_back z z' m m' m'' : z' = - z -> Forall2 (moved z) m m' -> Forall2 (moved z') m' m'' ->
    Forall2 (fun e e' => istart (fst e') = istart (fst e) /\ iend (fst e') = iend (fst e) /\ snd e' = snd e) m m''.
  Proof.
    intros -> F. revert m''. induction F as [|e e' m m' (X1 & X2 & X3) F IH]; intros m'' G; inversion G as [|? e'' ? n'' (Y1 & Y2 & Y3) G']; subst; constructor; [|apply IH, G'].
    repeat split; [apply int_eq; lia|apply int_eq; lia|congruence].
  Qed.
  Lemma fits_dec_all z m : (forall e, In e m -> fits z e) \/ exists e, In e m /\ ~ fits z e.
  Proof.
    induction m as [|e m [IH|(x & Hx & Hn)]]; [left; intros e []| |right; exists x; cbn; auto].
    assert (D : fits z e \/ ~ fits z e) by (unfold fits; lia). destruct D as [D|D]; [left; intros x [<-|Hx]; auto|right; exists e; cbn; auto].
  Qed.
  Lemma unsplit_dec_all z m : (forall e, In e m -> unsplit z e) \/ exists e, In e m /\ ~ unsplit z e.
  Proof.
    induction m as [|e m [IH|(x & Hx & Hn)]]; [left; intros e []| |right; exists x; cbn; auto].
    assert (D : unsplit z e \/ ~ unsplit z e) by (unfold unsplit; lia). destruct D as [D|D]; [left; intros x [<-|Hx]; auto|right; exists e; cbn; auto].
  Qed.
End Facts.
