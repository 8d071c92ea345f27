(** * EffectCrashMore: the facts behind C163 for [ZosditMap] and [Gqdit]. *)
From Coq Require Import List Bool ZArith Lia.
From Verif Require Import Base BTree UtilsModel IntervalModel NoditModel NoditOps ZosditModel ZosditOps GqditModel GqditOps Spec TreeShape CrashModel
  PointFacts IntervalFacts NoditFacts NoditInv NoditMore NoditMutations TreeFacts TreeProofs ZosditFacts ZosditProofs GqditFacts GqditProofs CrashFacts CrashProofs CrashZosdit CrashGqdit
  EffectModel EffectOps EffectFacts EffectRight EffectZosditModel EffectZosditOps EffectZosditFacts EffectZosditRight
  EffectGqditModel EffectGqditOps EffectGqditFacts EffectGqditRight EffectCrashOps EffectCrashFacts.
Import ListNotations.
Open Scope nat_scope.

Lemma rop_ret {W A} (a : A) : right_or_panic (uret (W := W) a) a.
Proof. intros w. left. reflexivity. Qed.
Lemma rop_bind {W A B} (x : user W A) (f : A -> user W B) a b : right_or_panic x a -> right_or_panic (f a) b -> right_or_panic (ubind x f) b.
Proof. intros X Y w. unfold ubind. destruct (X w) as [E|E]; destruct (x w) as [o w1]; cbn in E; subst o; [apply Y|right; reflexivity]. Qed.

Section Zosdit.
  Context {W I : Type} `{PL : PointLaws I}.
  Context {K : Type} {IK : InclusiveInterval I K} {IL : IntervalLaws I K}.
  Context {V : Type} (veq : V -> V -> bool).
  Context (P : point_code W I) (RP : right_points P) (ik : interval_code W I K) (RK : right_intervals ik).
  Context (C : entry_code W I K V) (RC : entries_or_panic veq C).
  Let rF := proj1 RC. Let rC := proj1 (proj2 RC).
  Notation zchanging := (zchanging (W := W) (K := K) (V := V)).
  Definition zsims {A} (x : zchanging A) (c : nat -> ZosditMap K V * outcome A) : Prop := forall w, stops_as_z (fst (x w)) c.
  Lemma zsims_ret {A} z (a : A) : zsims (zret z (Val a)) (fun _ => (z, Val a)).
  Proof. intros w. exists 0. reflexivity. Qed.
  Lemma zsims_eq {A} (x : zchanging A) c c' : (forall n, c n = c' n) -> zsims x c -> zsims x c'.
  Proof. intros E X w. specialize (X w). unfold stops_as_z in *. destruct (snd (fst (x w))); destruct X as [n X]; exists n; intros; rewrite <- E; apply X. Qed.
  Lemma zsims_bind {A B} z (x : user W A) (f : A -> zchanging B) a c : answers x (Val a) -> zsims (f a) c -> zsims (zbind z x f) c.
  Proof. intros X Y w. unfold zbind. specialize (X w). destruct (x w) as [o w']. cbn in X. subst o. apply Y. Qed.
  Lemma zsims_panic {A B} z (x : user W A) (f : A -> zchanging B) c : answers x Panic -> (exists n, c n = (z, Panic)) -> zsims (zbind z x f) c.
  Proof. intros X Y w. unfold zbind. specialize (X w). destruct (x w) as [o w']. cbn in X. subst o. exact Y. Qed.
  Lemma zsims_ubind {A B} z (x : user W A) (f : A -> zchanging B) c g : usims x c -> (forall a n d, c n = Some (a, d) -> zsims (f a) (g a)) ->
    zsims (zbind z x f) (fun fuel => match c fuel with Some (a, fuel) => g a fuel | None => (z, Panic) end).
  Proof.
    intros X Y w. unfold zbind. specialize (X w). destruct (x w) as [[a|] w1]; cbn [fst] in *.
    - destruct X as [n X]. specialize (Y a _ _ (X 0) w1). unfold stops_as_z in *. destruct (snd (fst (f a w1))) as [b|]; destruct Y as [n' Y].
      + exists (n + n'). intros more. rewrite <- Nat.add_assoc, X. apply Y.
      + exists (n + n'). rewrite X. exact Y.
    - destruct X as [n X]. exists n. rewrite X. reflexivity.
  Qed.
  Lemma p_clone_all vs : right_or_panic (clone_all C vs) vs.
  Proof. induction vs as [|v vs IH]; [apply rop_ret|]. cbn [clone_all]. eapply rop_bind; [apply rC|]. eapply rop_bind; [exact IH|]. apply rop_ret. Qed.
  Lemma s_z_piece i vs : usims (z_piece_e C i vs) (fun fuel => match user_call fuel with None => None | Some fuel =>
    match user_call fuel with None => None | Some fuel => Some ((ifrom i, vs), fuel) end end).
  Proof.
    eapply usims_eq; [|apply usims_bind; [apply usims_call, rF|intros k n d _; apply usims_bind; [apply usims_call, p_clone_all|intros v' n' d' _; apply usims_ret, answers_ret]]].
    intros n. cbv beta. destruct (user_call n) as [f|]; [|reflexivity]. destruct (user_call f); reflexivity.
  Qed.
  Lemma s_give_out i vs : usims (give_out C (Some i) vs) (fun fuel => match user_calls (length vs) fuel with None => None | Some fuel => Some (map (fun v => (ifrom i, v)) vs, fuel) end).
  Proof.
    induction vs as [|v vs IH]; [exact (usims_ret _ _ (answers_ret _))|]. cbn [give_out]. eapply usims_abind; [apply answers_out|].
    eapply usims_eq; [|apply usims_bind; [apply usims_call, rF|intros k n d _; apply usims_bind; [exact IH|intros l n' d' _; apply usims_ret, answers_ret]]].
    intros n. cbn [length user_calls map]. cbv beta. destruct (user_call n) as [f|] eqn:E; [|reflexivity]. destruct (user_calls (length vs) f); reflexivity.
  Qed.
  Section Q.
    Context {Q : Type} {IQ : InclusiveInterval I Q} (iq : interval_code W I Q) (RQ : right_intervals iq).
    Context (k_overlaps : K -> Q -> user W bool) (RKO : right_overlaps k_overlaps).
    Lemma s_zcut_loop q post : forall n pre acc, zsims (zosdit_cut_loop_e P ik C iq k_overlaps Panic q n pre post acc) (zosdit_cut_loop_c q n pre post acc).
    Proof.
      induction post as [|[k vs] rest IH]; intros n pre acc; cbn [zosdit_cut_loop_e]; [apply zsims_ret|].
      pose proof (RKO k q) as X. destruct (overlaps k q) as [b|] eqn:Eo; [|apply (zsims_panic _ _ _ _ X); exists 0; cbn [zosdit_cut_loop_c]; rewrite Eo; reflexivity].
      eapply zsims_bind; [exact X|]. destruct b; [|eapply zsims_eq; [|apply zsims_ret]; intros x; cbn [zosdit_cut_loop_c]; rewrite Eo; reflexivity].
      clear X. pose proof (r_cut_interval P RP ik iq RK RQ k q) as X.
      destruct (cut_interval k q) as [r|] eqn:Ec; [|apply (zsims_panic _ _ _ _ X); exists 0; cbn [zosdit_cut_loop_c]; rewrite Eo, Ec; reflexivity].
      eapply zsims_bind; [exact X|]. clear X.
      set (tail := fun (n : nat) (pre : BTreeMap K (list V)) (fuel : nat) =>
        if Nat.ltb n (length vs) then (mkZosdit n (pre ++ rest), Panic)
        else match inside_cut r, vs with
             | None, _ :: _ => (mkZosdit (n - length vs) (pre ++ rest), Panic)
             | None, [] => zosdit_cut_loop_c q (n - length vs) pre rest acc fuel
             | Some i, _ => match user_calls (length vs) fuel with
                 | None => (mkZosdit (n - length vs) (pre ++ rest), Panic)
                 | Some fuel => zosdit_cut_loop_c q (n - length vs) pre rest (acc ++ map (fun v => (ifrom i, v)) vs) fuel end
             end).
      assert (Tail : forall n pre, zsims (zbind (mkZosdit n (pre ++ rest)) (uout (subtract Panic n (length vs))) (fun n =>
          zbind (mkZosdit n (pre ++ rest)) (give_out C (inside_cut r) vs) (fun u => zosdit_cut_loop_e P ik C iq k_overlaps Panic q n pre rest (acc ++ u)))) (tail n pre)).
      { clear n pre. intros n pre. unfold subtract, tail. destruct (Nat.ltb n (length vs)); [apply zsims_panic; [apply answers_out|exists 0; reflexivity]|]. eapply zsims_bind; [apply answers_out|].
        destruct (inside_cut r) as [i|].
        - eapply zsims_eq; [|apply zsims_ubind; [apply s_give_out|intros l n1 d1 X; apply IH]].
          intros x. cbv beta. destruct (user_calls (length vs) x); reflexivity.
        - destruct vs as [|v vs]; [|apply zsims_panic; [apply answers_out|exists 0; reflexivity]].
          eapply zsims_bind; [apply answers_ret|]. rewrite app_nil_r. apply IH. }
      assert (Two : forall n pre, zsims (z_after C (after_cut r) vs n pre rest (fun n pre =>
          zbind (mkZosdit n (pre ++ rest)) (uout (subtract Panic n (length vs))) (fun n =>
          zbind (mkZosdit n (pre ++ rest)) (give_out C (inside_cut r) vs) (fun u => zosdit_cut_loop_e P ik C iq k_overlaps Panic q n pre rest (acc ++ u)))))
        (fun fuel => match z_after_c (after_cut r) vs n pre fuel with (n, pre, None) => (mkZosdit n (pre ++ rest), Panic) | (n, pre, Some fuel) => tail n pre fuel end)).
      { clear n pre. intros n pre. unfold z_after, z_after_c. destruct (after_cut r) as [j|]; [|apply Tail].
        eapply zsims_eq; [|apply zsims_ubind; [apply s_z_piece|intros e n1 d1 X; apply Tail]].
        intros x. cbv beta. destruct (user_call x) as [f|]; [|reflexivity]. destruct (user_call f); reflexivity. }
      eapply zsims_eq with (c := fun fuel => match z_before_c (before_cut r) vs n pre fuel with (n, pre, None) => (mkZosdit n (pre ++ rest), Panic)
        | (n, pre, Some fuel) => match z_after_c (after_cut r) vs n pre fuel with (n, pre, None) => (mkZosdit n (pre ++ rest), Panic) | (n, pre, Some fuel) => tail n pre fuel end end).
      { intros x. cbn [zosdit_cut_loop_c]. rewrite Eo, Ec. reflexivity. }
      unfold z_before, z_before_c. destruct (before_cut r) as [i|]; [|apply Two].
      eapply zsims_eq; [|apply zsims_ubind; [apply s_z_piece|intros e n1 d1 X; apply Two]].
      intros x. cbv beta. destruct (user_call x) as [f|]; [|reflexivity]. destruct (user_call f); reflexivity.
    Qed.
    Lemma s_zcut below z t q : ZWF z -> entries t = z_inner z -> zsims (zosdit_cut_e P ik C iq k_overlaps below q (z_len z) t) (zosdit_cut_c q z).
    Proof.
      intros (Z & _ & L) E w. rewrite (zcut_below P ik C iq k_overlaps below Panic) by (rewrite E; exact L). revert w. change (zsims (zosdit_cut_e P ik C iq k_overlaps Panic q (z_len z) t) (zosdit_cut_c q z)).
      unfold zosdit_cut_e, zosdit_cut_c. replace (mkZosdit (z_len z) (entries t)) with z by (destruct z; cbn in *; congruence).
      pose proof (r_iip iq RQ q) as X. destruct (invalid_interval_panic q) as [u|]; [|apply (zsims_panic _ _ _ _ X); exists 0; reflexivity].
      eapply zsims_bind; [exact X|]. eapply zsims_bind; [apply (r_start iq RQ)|].
      eapply zsims_bind; [apply (r_upper _ _ (r_exclusive P RP ik RK _ _) _ (orderly_exclusive_Lt (istart q) _ Z) _ E)|]. apply s_zcut_loop.
    Qed.
  End Q.
End Zosdit.

Ltac flat_sets := unfold Gqdit, BTreeSet in *.
Section Gqdit.
  Context {W I : Type} `{PL : PointLaws I}.
  Context {K : Type} {IK : InclusiveInterval I K} {IL : IntervalLaws I K}.
  Context {D : Type} {OD : Ord D} {OL : OrdLaws D}.
  Context (P : point_code W I) (RP : right_points P) (ik : interval_code W I K) (RK : right_intervals ik).
  Context (from : Interval I -> user W K) (RF : forall i, right_or_panic (from i) (ifrom i)).
  Context (J : id_code W D) (RJ : ids_or_panic J) (shape : W -> list D -> tree D unit) (SF : faithful_sets shape).
  Context (overlaps_k : K -> K -> user W bool) (RO : right_overlaps overlaps_k).
  Implicit Types g : Gqdit K D.
  (** The same identifiers, without panics. *)
  Let J' : id_code W D := {| i_cmp := i_cmp J; i_eq := fun a b => uret (eqb a b); i_clone := fun d => uret d |}.
  Lemma J'_right : right_ids J'.
  Proof. intros d d'. split; [apply RJ|]. split; apply answers_ret. Qed.
  Lemma p_set_clone s : right_or_panic (set_clone_e J s) s.
  Proof. induction s as [|d s IH]; [apply rop_ret|]. cbn [set_clone_e]. eapply rop_bind; [apply (RJ d d)|]. eapply rop_bind; [exact IH|]. apply rop_ret. Qed.
  Lemma p_all_eq s : forall s', length s = length s' -> right_or_panic (all_eq_e J s s') (bset_eqb s s').
  Proof.
    induction s as [|d s IH]; intros [|d' s'] L; try discriminate L; [apply rop_ret|]. eapply rop_bind; [apply (RJ d d')|]. cbn [bset_eqb].
    destruct (eqb d d'); [apply IH; injection L; auto|apply rop_ret].
  Qed.
  Lemma p_set_eq s s' : right_or_panic (set_eq_e J s s') (bset_eqb s s').
  Proof.
    unfold set_eq_e. destruct (Nat.eqb_spec (length s) (length s')) as [L|L]; [apply p_all_eq, L|].
    destruct (bset_eqb s s') eqn:E; [apply eqb_length in E; contradiction|apply rop_ret].
  Qed.
  Lemma s_set_code : entries_or_panic bset_eqb (set_code from J).
  Proof. split; [exact RF|]. split; [exact p_set_clone|exact p_set_eq]. Qed.
  Definition upd_c (clones : bool) (update : list D -> list D) (s : list D) (fuel : nat) : option (list D * nat) :=
    match (if clones then user_call fuel else Some fuel) with None => None | Some fuel => Some (update s, fuel) end.
  Lemma s_extend_cloned ids s : is_set s -> usims (extend_cloned_e J shape ids s) (upd_c true (fun s => bset_extend s ids) s).
  Proof.
    intros Ss. eapply usims_eq; [|apply usims_bind; [apply usims_call, p_set_clone|]].
    2: { intros c n d X. apply usims_ret. exact (r_set_extend J' J'_right shape SF c s Ss). }
    intros n. unfold upd_c. cbv beta. destruct n; reflexivity.
  Qed.
  Lemma s_set_remove ids s : is_set ids -> usims (set_remove_e J shape ids s) (upd_c false (bset_retain (fun i => negb (bset_contains ids i))) s).
  Proof. intros Si. apply usims_ret. exact (r_set_remove J' J'_right shape SF ids s Si). Qed.

  Definition lift (c : nat -> Gqdit K D * outcome nat) (fuel : nat) : Gqdit K D * outcome (unit * nat) := let (g, o) := c fuel in (g, omap (fun f => (tt, f)) o).
  Lemma stops_lift r c : stops_as r (lift c) -> stops_as_g r c.
  Proof.
    unfold stops_as, stops_as_g, lift. destruct (snd r) as [[]|]; intros [n X]; exists n.
    - intros more. specialize (X more). destruct (c (n + more)) as [g [f|]]; [|discriminate]. injection X as <- <-. reflexivity.
    - destruct (c n) as [g [f|]]; [discriminate|]. injection X as <-. reflexivity.
  Qed.
  Lemma s_reinsert T clones update' update l : (forall i, faithful (T i)) -> (forall k s, In (k, s) l -> usims (update' s) (upd_c clones update s)) ->
    forall g, WF g -> msims (reinsert_e P ik from J overlaps_k T update' l g) (lift (reinsert_c clones update l g)).
  Proof.
    intros TF. induction l as [|[k s] l IH]; intros U g Wg; [apply msims_ret|]. cbn [reinsert_e].
    eapply msims_eq; [|apply msims_ubind; [apply (U k); left; reflexivity|intros s1 n1 d1 X1;
      apply (msims_then _ _ (insert_merge_touching_if_values_equal_c bset_eqb k s1 g) (fun g x fuel => match x with Ok _ => lift (reinsert_c clones update l g) fuel | Err _ => (g, Panic) end))]].
    - intros n. unfold lift. cbn [reinsert_c]. unfold upd_c. cbv beta. flat_sets. destruct (if clones then user_call n else Some n) as [f|]; [|reflexivity].
      destruct (insert_merge_touching_if_values_equal_c (V := list D) bset_eqb k (update s) g f) as [g1 [[[r|e] f1]|]]; reflexivity.
    - apply (s_merge_equal bset_eqb P RP ik RK _ s_set_code overlaps_k RO (T (S (length l))) (TF _) g k s1 Wg).
    - intros g1 x n d E. assert (W1 : WF g1). { pose proof (step_c_WF g (OpInsertMergeTouchingIfValuesEqual bset_eqb k s1) n Wg) as Y. cbn [step_c] in Y. flat_sets. rewrite E in Y. exact Y. }
      destruct x as [r|e]; [|intros w; exists 0; reflexivity]. apply IH; [intros k0 s0 Hi; apply (U k0); right; exact Hi|exact W1].
  Qed.
  Section Q.
    Context {Q : Type} {IQ : InclusiveInterval I Q} (iq : interval_code W I Q) (RQ : right_intervals iq) (k_overlaps : K -> Q -> user W bool) (RKO : right_overlaps k_overlaps).
    Lemma s_cut_update T clones update' update q g : (forall i, faithful (T i)) -> (forall s, is_set s -> usims (update' s) (upd_c clones update s)) -> WF g -> sets g -> valid q ->
      msims (cut_update_e P ik from J overlaps_k iq k_overlaps T update' q g) (lift (cut_update_c clones update q g)).
    Proof.
      intros TF U Wg Sg Vq. unfold cut_update_e.
      eapply msims_eq; [|apply (msims_then _ _ (cut_c q g) (fun g l => lift (reinsert_c clones update l g)))].
      - intros n. unfold lift, cut_update_c. flat_sets. destruct (cut_c q g n) as [g1 [[l f]|]]; reflexivity.
      - apply (s_cut bset_eqb P RP ik RK _ s_set_code iq RQ k_overlaps RKO g (T 0 0 g) q Wg (TF 0 0 g)).
      - intros g1 l n d E. apply cut_c_val in E. destruct (cut_full g q Wg Vq) as (g1' & l' & E' & W1 & _ & Hl & _). rewrite E in E'. injection E' as <- <-.
        apply s_reinsert; [exact TF| |exact W1]. intros k s Hi. apply U. destruct (Hl k s Hi) as (_ & k0 & Hk & _). apply (Sg k0 s Hk).
    Qed.
    Lemma s_cut_with T ids q g : (forall i, faithful (T i)) -> is_set ids -> WF g -> sets g ->
      msims (cut_with_identifiers_e P ik from J shape overlaps_k iq k_overlaps T ids q g) (lift (cut_with_identifiers_c ids q g)).
    Proof.
      intros TF Si Wg Sg. unfold cut_with_identifiers_e, cut_with_identifiers_c. destruct (valid_dec q) as [Vq|Nq].
      - eapply msims_bind; [rewrite <- (iip_valid _ Vq); apply r_iip, RQ|]. rewrite (iip_valid _ Vq). destruct (bset_is_empty ids); [apply msims_ret|].
        apply (s_cut_update T false (set_remove_e J shape ids)); [exact TF| |exact Wg|exact Sg|exact Vq]. intros s _. apply s_set_remove, Si.
      - rewrite (iip_invalid _ Nq). eapply msims_panic; [rewrite <- (iip_invalid _ Nq); apply r_iip, RQ|]. exists 0. reflexivity.
    Qed.
    Lemma s_cut_all T q g : (forall i, faithful (T i)) -> WF g -> sets g ->
      msims (cut_all_identifiers_e P ik from J overlaps_k iq k_overlaps T q g) (lift (cut_all_identifiers_c q g)).
    Proof.
      intros TF Wg Sg. unfold cut_all_identifiers_e, cut_all_identifiers_c. destruct (valid_dec q) as [Vq|Nq].
      - eapply msims_bind; [rewrite <- (iip_valid _ Vq); apply r_iip, RQ|]. rewrite (iip_valid _ Vq).
        apply (s_cut_update T false (fun _ => uret []) (fun _ => bset_empty)); [exact TF| |exact Wg|exact Sg|exact Vq]. intros s _. apply usims_ret, answers_ret.
      - rewrite (iip_invalid _ Nq). eapply msims_panic; [rewrite <- (iip_invalid _ Nq); apply r_iip, RQ|]. exists 0. reflexivity.
    Qed.
  End Q.
  Lemma s_gqdit_insert T ids q g : (forall i, faithful (T i)) -> WF g -> sets g ->
    msims (gqdit_insert_e P ik from J shape overlaps_k T ids q g) (lift (gqdit_insert_c ids q g)).
  Proof.
    intros TF Wg Sg. unfold gqdit_insert_e, gqdit_insert_c. destruct (valid_dec q) as [Vq|Nq].
    - eapply msims_bind; [rewrite <- (iip_valid _ Vq); apply r_iip, RK|]. rewrite (iip_valid _ Vq). destruct (bset_is_empty ids); [apply msims_ret|].
      apply (s_cut_update ik RK overlaps_k RO T true (extend_cloned_e J shape ids) (fun s => bset_extend s ids)); [exact TF| |exact Wg|exact Sg|exact Vq]. intros s Ss. apply s_extend_cloned, Ss.
    - rewrite (iip_invalid _ Nq). eapply msims_panic; [rewrite <- (iip_invalid _ Nq); apply r_iip, RK|]. exists 0. reflexivity.
  Qed.

  (** What calls leave is in order and has sets in it. *)
  Lemma partly_sets upd {Q} {IQ : InclusiveInterval I Q} (q : Q) g g' : (forall s, is_set s -> is_set (upd s)) -> sets g -> partly upd q g g' -> WF g' /\ sets g'.
  Proof.
    intros U Sg (W' & F & _). split; [exact W'|]. intros k s Hi.
    assert (M : maps_to g' (istart k) s). { exists k. split; [exact Hi|]. apply covers_rk. pose proof (WF_okv _ _ W' Hi) as V. unfold elo, ehi, lo, hi in *. cbn in V. lia. }
    destruct (F _ _ M) as [(k0 & H0' & _)|(_ & s0 & (k0 & H0' & _) & ->)]; [apply (Sg k0 s H0')|apply U, (Sg k0 s0 H0')].
  Qed.
  Lemma insert_c_sets ids k g f : WF g -> sets g -> WF (fst (gqdit_insert_c ids k g f)) /\ sets (fst (gqdit_insert_c ids k g f)).
  Proof. intros Wg Sg. exact (partly_sets _ _ _ _ (extend_set ids) Sg (insert_c_any ids k g f Wg)). Qed.
  Lemma s_append_loop T l : (forall j i, faithful (T j i)) -> forall g, WF g -> sets g -> msims (append_loop_e P ik from J shape overlaps_k T l g) (lift (append_loop_c l g)).
  Proof.
    intros TF. induction l as [|[k s] l IH]; intros g Wg Sg; [apply msims_ret|]. cbn [append_loop_e].
    eapply msims_eq; [|apply (msims_then _ _ (lift (gqdit_insert_c s k g)) (fun g _ => lift (append_loop_c l g)))].
    - intros n. unfold lift. cbn [append_loop_c]. flat_sets. destruct (gqdit_insert_c s k g n) as [g1 [f|]]; reflexivity.
    - apply s_gqdit_insert; [apply TF|exact Wg|exact Sg].
    - intros g1 a n d E. pose proof (insert_c_sets s k g n Wg Sg) as X. unfold lift in E. flat_sets. destruct (gqdit_insert_c s k g n) as [g2 [f|]]; [|discriminate]. injection E as -> _ _.
      apply IH; apply X.
  Qed.
  Lemma append_loop_c_sets l : forall g f, WF g -> sets g -> WF (fst (append_loop_c l g f)) /\ sets (fst (append_loop_c l g f)).
  Proof.
    induction l as [|[k s] l IH]; intros g f Wg Sg; cbn [append_loop_c]; [auto|]. pose proof (insert_c_sets s k g f Wg Sg) as X. flat_sets.
    destruct (gqdit_insert_c s k g f) as [g1 [f1|]]; [|exact X]. apply IH; apply X.
  Qed.
  Context (i_overlaps : Interval I -> K -> user W bool) (RIO : right_overlaps i_overlaps).
  Lemma s_append To T g other w : (forall m, entries (To m) = m) -> (forall j i, faithful (T j i)) -> WF g -> sets g -> WF other ->
    let '(g', _, o) := fst (append_e P ik from J shape overlaps_k i_overlaps To T g other w) in stops_as_g (g', o) (append_c g other).
  Proof.
    intros TF TF' Wg Sg Wo. unfold append_e, append_c. pose proof (r_ii P RP MIN MAX w) as X. destruct (ii_e P MIN MAX w) as [o w1]. cbn [fst] in X. subst o. change (ii MIN MAX) with (uu (I := I)).
    destruct (uu (I := I)) as [u|]; [|exists 0; reflexivity].
    pose proof (r_remove_overlapping P RP ik RK _ (r_crate_interval P RP) i_overlaps RIO other (To other) u Wo (TF other) w1) as X.
    flat_sets. destruct (remove_overlapping_e P ik (crate_interval P) i_overlaps u (To other) w1) as [[other1 o] w2]. cbn [fst] in X. rewrite <- X.
    destruct o as [l|]; [|exists 0; reflexivity].
    pose proof (s_append_loop T l TF' g Wg Sg w2) as Z. flat_sets. destruct (append_loop_e P ik from J shape overlaps_k T l g w2) as [[g1 o] w3]. cbn [fst] in *. apply stops_lift, Z.
  Qed.
  Lemma append_c_sets g other f : WF g -> sets g -> WF (fst (append_c g other f)) /\ sets (fst (append_c g other f)).
  Proof.
    intros Wg Sg. unfold append_c. destruct (uu (I := I)) as [u|]; [|auto]. destruct (remove_overlapping u other) as [o' [l|]]; [|auto]. apply append_loop_c_sets; assumption.
  Qed.
  Lemma s_new T : (forall i, faithful (T i)) -> right_or_panic (gqdit_new_e P ik from T) (gnew (K := K) (D := D)).
  Proof.
    intros TF. pose proof (new_gnew (K := K) (D := D)) as N. unfold gqdit_new in N. rewrite uu_val in N. pose proof (r_ii P RP MIN MAX) as X. change (ii MIN MAX) with (uu (I := I)) in X. rewrite uu_val in X. cbn [obind] in N. unfold gqdit_new_e. eapply rop_bind; [intros w; left; apply X|].
    eapply rop_bind; [apply RF|]. intros w.
    pose proof (r_insert_strict P RP ik RK (T 0) (TF 0) new (ifrom (mkInterval MIN MAX)) [] ltac:(apply reachable_WF; exists []; reflexivity) w) as Y.
    flat_sets. destruct (insert_strict_e P ik (T 0) (ifrom (mkInterval MIN MAX)) [] new w) as [[m o] w1]. cbn [fst] in Y. left.
    change (bset_empty (D := D)) with (@nil D) in N. rewrite <- Y in N. destruct o as [[x|x]|]; cbn in *; congruence.
  Qed.
  Lemma gnew_sets : WF (gnew (K := K) (D := D)) /\ sets (gnew (K := K) (D := D)).
  Proof. pose proof (gnew_GWF (K := K) (D := D)) as G. split; [apply GWF_WF, G|apply GWF_sets, G]. Qed.

  (** ** Histories *)
  Context (T : list nat -> nat -> BTreeMap K (list D) -> tree K (list D)) (TF : forall path, faithful (T path)).
  Notation gdo := (gcall_do P ik from J shape overlaps_k i_overlaps T).
  Notation gdos := (gcalls_do P ik from J shape overlaps_k i_overlaps T).
  Lemma stops_g_fst {S} (r : S * outcome unit) c : stops_as_g r c -> exists fuel, fst r = fst (c fuel).
  Proof. unfold stops_as_g. destruct (snd r); intros [n X]; [exists (n + 0)|exists n]; rewrite X; reflexivity. Qed.
  Lemma s_gcall c : gives_sets c -> forall path g w, WF g -> sets g -> gcrash c g (fst (gdo path c g w)) /\ WF (fst (gdo path c g w)) /\ sets (fst (gdo path c g w)).
  Proof.
    revert c. fix IH 1. intros c Sc path g w Wg Sg. destruct c as [ids k|ids q|q|cs].
    - cbn [gcall_do]. destruct (stops_g_fst _ _ (stops_lift _ _ (s_gqdit_insert (fun i => T (i :: path)) ids k g (fun i => TF _) Wg Sg w))) as [f X].
      flat_sets. destruct (gqdit_insert_e _ _ _ _ _ _ _ ids k g w) as [[g1 o] w1]. cbn [fst] in *. subst g1. split; [apply crash_insert|apply insert_c_sets; assumption].
    - cbn [gcall_do]. inversion Sc as [|? ? Si| |]; subst.
      destruct (stops_g_fst _ _ (stops_lift _ _ (s_cut_with ik RK overlaps_k RO (fun i => T (i :: path)) ids q g (fun i => TF _) Si Wg Sg w))) as [f X].
      flat_sets. destruct (cut_with_identifiers_e _ _ _ _ _ _ _ _ _ ids q g w) as [[g1 o] w1]. cbn [fst] in *. subst g1. split; [apply crash_cut|].
      exact (partly_sets _ _ _ _ (fun s => retain_set _ s) Sg (cut_with_c_any ids q g f Wg)).
    - cbn [gcall_do].
      destruct (stops_g_fst _ _ (stops_lift _ _ (s_cut_all ik RK overlaps_k RO (fun i => T (i :: path)) q g (fun i => TF _) Wg Sg w))) as [f X].
      flat_sets. destruct (cut_all_identifiers_e _ _ _ _ _ _ _ _ q g w) as [[g1 o] w1]. cbn [fst] in *. subst g1. split; [apply crash_all|].
      exact (partly_sets _ _ _ _ (fun _ _ => is_set_nil) Sg (cut_all_c_any q g f Wg)).
    - rewrite gcall_do_append. inversion Sc as [| | |? Fc]; subst. clear Sc.
      pose proof (s_new (fun i => T (0 :: i :: path)) (fun i => TF _) w) as N. destruct (gqdit_new_e _ _ _ _ w) as [o w1]. cbn [fst] in N. destruct N as [-> | ->].
      2: { cbn [fst]. split; [apply crash_no_other|auto]. }
      assert (Z : forall path g w, WF g -> sets g -> gcrashes cs g (fst (gdos cs path g w)) /\ WF (fst (gdos cs path g w)) /\ sets (fst (gdos cs path g w))).
      { clear Wg Sg. induction cs as [|c cs IHcs]; intros p0 g0 w0 W0 S0; [split; [apply crashes_nil|auto]|]. cbn [gcalls_do]. inversion Fc; subst.
        pose proof (IH c ltac:(assumption) (length cs :: p0) g0 w0 W0 S0) as (X & W3 & S3). destruct (gdo (length cs :: p0) c g0 w0) as [g3 w3]. cbn [fst] in *.
        destruct (IHcs ltac:(assumption) p0 g3 w3 W3 S3) as (Y & W4 & S4). split; [exact (crashes_cons _ _ _ _ _ X Y)|auto]. }
      destruct gnew_sets as [Wn Sn]. destruct (Z (1 :: path) gnew w1 Wn Sn) as (X & Wo & So). destruct (gdos cs (1 :: path) gnew w1) as [other w2]. cbn [fst] in *.
      pose proof (s_append (T (2 :: path) 0) (fun j i => T (j :: i :: 3 :: path)) g other w2 (TF _ 0) (fun j i => TF _) Wg Sg Wo) as A.
      flat_sets. destruct (append_e _ _ _ _ _ _ _ _ _ g _ w2) as [[[g1 other1] o] w3]. cbn [fst] in *. apply stops_g_fst in A. destruct A as [f A]. cbn [fst] in A. subst g1.
      split; [apply crash_append, X|apply append_c_sets; assumption].
  Qed.
  Lemma s_gcalls cs : Forall gives_sets cs -> forall path g w, WF g -> sets g -> gcrashes cs g (fst (gdos cs path g w)) /\ WF (fst (gdos cs path g w)) /\ sets (fst (gdos cs path g w)).
  Proof.
    induction 1 as [|c cs Sc Fc IHcs]; intros p0 g0 w0 W0 S0; [split; [apply crashes_nil|auto]|]. cbn [gcalls_do].
    pose proof (s_gcall c Sc (length cs :: p0) g0 w0 W0 S0) as (X & W3 & S3). destruct (gdo (length cs :: p0) c g0 w0) as [g3 w3]. cbn [fst] in *.
    destruct (IHcs p0 g3 w3 W3 S3) as (Y & W4 & S4). split; [exact (crashes_cons _ _ _ _ _ X Y)|auto].
  Qed.
  Lemma s_ghistory cs w : Forall gives_sets cs -> match fst (ghistory P ik from J shape overlaps_k i_overlaps T cs w) with Val g => gcrashes cs gnew g /\ WF g /\ sets g | Panic => True end.
  Proof.
    intros Fc. unfold ghistory. pose proof (s_new (fun i => T [i]) (fun i => TF _) w) as N. destruct (gqdit_new_e _ _ _ _ w) as [o w1]. cbn [fst] in N. destruct N as [-> | ->]; [|exact Logic.I].
    destruct gnew_sets as [Wn Sn]. pose proof (s_gcalls cs Fc [] gnew w1 Wn Sn) as X. destruct (gdos cs [] gnew w1) as [g1 w2]. exact X.
  Qed.
End Gqdit.

Section Left.
  Context {I : Type} `{PL : PointLaws I}.
  Context {K : Type} {IK : InclusiveInterval I K} {IL : IntervalLaws I K}.
  Context {D : Type} {OD : Ord D} {OL : OrdLaws D}.
  Lemma gcrashes_sets cs (g g' : Gqdit K D) : gcrashes cs g g' -> WF g -> sets g -> WF g' /\ sets g'.
  Proof.
    induction 1 as [g|c cs g g1 g2 X Y IH]; intros Wg Sg; [auto|]. assert (Z : WF g1 /\ sets g1); [|apply IH; apply Z].
    destruct X as [ids k g f|ids q g f|q g f|cs' g other f X|cs' g].
    - apply insert_c_sets; assumption.
    - exact (partly_sets _ _ _ _ (fun s => retain_set _ s) Sg (cut_with_c_any ids q g f Wg)).
    - exact (partly_sets _ _ _ _ (fun _ _ => is_set_nil) Sg (cut_all_c_any q g f Wg)).
    - apply append_c_sets; assumption.
    - auto.
  Qed.
End Left.
