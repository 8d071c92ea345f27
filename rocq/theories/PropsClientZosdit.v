(** * PropsClientZosdit: all implementations of ZosditMap that behave as described are
      indistinguishable (C132). *)
From Coq Require Import List ZArith Bool Lia.
From Verif Require Import Base BTree UtilsModel IntervalModel NoditModel ZosditModel ZosditOps ZosditAbs Spec CompleteOps CompleteZosditOps ClientZosditOps
  InstancesModel Instances PointFacts IntervalFacts ListFacts ZosditFacts ZosditMut ZosditProofs ZosditOnce ZosditSim CompleteProofs PropsZosdit PropsCompleteZosdit PropsClient.
Import ListNotations.
Open Scope nat_scope.

Section Props.
  Context {I : Type} `{PL : PointLaws I}.
  Context {K : Type} {IK : InclusiveInterval I K} {IL : IntervalLaws I K}.
  Context {V : Type}.
  Context (D : determined_by_points I K).
  Implicit Types (z : ZosditMap K V) (c : zcall I K V).

  Lemma hd_iff {A} (l : list A) x : hd_error l = Some x <-> exists l', l = x :: l'.
  Proof.
    destruct l as [|y l]; cbn; split; try discriminate; [intros (l' & E); discriminate|intros E; injection E as ->; eauto|].
    intros (l' & E). injection E as -> _. reflexivity.
  Qed.
  Lemma hd_rev_iff {A} (l : list A) x : hd_error (rev l) = Some x <-> exists l', l = l' ++ [x].
  Proof.
    rewrite hd_iff. split; intros (l' & E).
    - exists (rev l'). rewrite <- (rev_involutive l), E. reflexivity.
    - exists (rev l'). rewrite E, rev_app_distr. reflexivity.
  Qed.

  Definition okz (once : bool) z : Prop := zreachable z /\ (once = true -> stored_once z).
  Definition is_op c : option (zop I K V) :=
    match c with
    | ZCallRemoveLastValueAtPoint p => Some (ZRemoveLast p)
    | ZCallInsertStrictBack k v => Some (ZInsertStrictBack k v)
    | ZCallCut q => Some (ZCut q)
    | _ => None
    end.
  Lemma zperform_step c z : fst (zperform c z) = match is_op c with Some o => zstep z o | None => z end.
  Proof. destruct c; reflexivity. Qed.
  Lemma step_reachable z o : zreachable z -> zreachable (zstep z o).
  Proof. intros (os & ->). exists (os ++ [o]). unfold zrun. rewrite fold_left_app. reflexivity. Qed.
  Lemma okz_step once once' c z : okz once z ->
    (once' = true -> once = true /\ ~ match c with ZCallCut q => valid q /\ cut_reaches q (zosdit_iter z) /\ leaves_twin q (zosdit_iter z) | _ => False end) ->
    okz once' (fst (zperform c z)).
  Proof.
    intros [R S1] E. rewrite zperform_step. pose proof (zreachable_ZWF z R) as Wf. split.
    - destruct (is_op c); [apply step_reachable, R|exact R].
    - intros T. destruct (E T) as [T1 T2]. specialize (S1 T1).
      assert (X : forall o, not_cut o -> stored_once (zstep z o)).
      { intros o N. apply stored_once_ZD; [apply zreachable_ZWF, step_reachable, R|]. apply zstep_ZD; [exact Wf|apply stored_once_ZD; assumption|exact N]. }
      destruct c as [| | | | |p|p|k v|Q IQ q|Q IQ q|Q IQ q]; cbn [is_op]; try exact S1; try (apply X; exact Logic.I).
      cbn [zstep]. destruct (valid_dec q) as [Vq|N]; [|rewrite cut_invalid by exact N; exact S1].
      apply cut_once; [exact Wf|exact Vq|exact S1|]. intros X2. apply T2. split; [exact Vq|exact X2].
  Qed.
  Lemma len_step z n o n' : zreachable z -> zosdit_len z = length (zosdit_iter z) + n ->
    match o with
    | ZRemoveLast p => n' = match snd (remove_last_value_at_point p z) with Val (Some _) => S n | _ => n end
    | ZInsertStrictBack _ _ | ZCut _ => n' = n
    | _ => False
    end -> zosdit_len (zstep z o) = length (zosdit_iter (zstep z o)) + n'.
  Proof.
    intros R E H1. pose proof (removals_len [o] z n (zreachable_ZWF z R) E) as X. destruct o; try contradiction; subst n'; exact X.
  Qed.

  (** The described effect of a settled call is what the model does. *)
  Lemma zperform_iff once c z n L' n' a : okz once z -> settled once c -> zosdit_len z = length (zosdit_iter z) + n ->
    (zdocumented c (zosdit_iter z) n L' n' a <->
     (L', a) = seen (zperform c z) /\ zosdit_len (fst (zperform c z)) = length L' + n').
  Proof.
    intros [R S1] Se En. pose proof (zreachable_ZWF z R) as Wf.
    assert (Q0 : forall A (x y : A) (P : Prop), (P <-> x = y) -> (L' = zosdit_iter z /\ n' = n /\ P <-> (L', x) = (zosdit_iter z, y) /\ zosdit_len z = length L' + n')).
    { intros A x y P X. rewrite X, pair_iff. split; [intros (-> & -> & ->); auto|intros [[-> ->] Y]; repeat split; lia]. }
    destruct c as [| | | | |p|p|k v|Q IQ q|Q IQ q|Q IQ q]; cbn [zdocumented zanswer zperform settled] in *; unfold seen; cbn [fst snd].
    - apply Q0. rewrite En. reflexivity.
    - apply Q0. unfold zosdit_is_empty. change (z_len z) with (zosdit_len z). rewrite En.
      destruct (Nat.eqb_spec (length (zosdit_iter z) + n) 0) as [E|E]; destruct a; split; intros X; try reflexivity; try discriminate X.
      + split; [intros _; exact E|reflexivity].
      + exact (proj2 X E).
      + destruct (E (proj1 X eq_refl)).
      + split; [discriminate|]. intros Y. destruct (E Y).
    - apply Q0. reflexivity.
    - apply Q0. apply options. intros e. rewrite (proj1 (first_last z Wf)). apply hd_iff.
    - apply Q0. apply options. intros e. rewrite (proj1 (proj2 (first_last z Wf))). apply hd_rev_iff.
    - apply Q0. apply get_last_iff, Wf.
    - rewrite (C129_remove_last_value_at_point z p R (L', a)).
      assert (X := len_step z n (ZRemoveLast p) _ R En eq_refl). cbn [zstep] in X.
      assert (Y : zosdit_len (fst (remove_last_value_at_point p z)) = zosdit_len z).
      { unfold remove_last_value_at_point. destruct (snd (last_value_cursor z p)) as [|[k vs] r]; [reflexivity|].
        destruct (contains_point k p); [|reflexivity]. destruct (vec_pop vs) as [[w vs']|]; [|reflexivity]. destruct vs'; reflexivity. }
      unfold seen. rewrite pair_iff. split; intros [[-> ->] Z]; (split; [auto|lia]).
    - rewrite (C129_insert_strict_back D z k v R (match Se with or_introl X => or_intror (S1 X) | or_intror X => or_introl X end) (L', a)).
      assert (X := len_step z n (ZInsertStrictBack k v) n R En eq_refl). cbn [zstep] in X.
      unfold seen. rewrite pair_iff. split; [intros [[-> ->] ->]; auto|]. intros [[-> ->] Z]. split; [auto|lia].
    - apply Q0. apply (C129_queries z q (istart q) R).
    - apply Q0. apply (C129_queries z q (istart q) R).
    - rewrite (C129_cut D z q R (L', a)).
      assert (X := len_step z n (ZCut q) n R En eq_refl). cbn [zstep] in X.
      unfold seen. rewrite pair_iff. split; [intros [[-> ->] ->]; auto|]. intros [[-> ->] Z]. split; [auto|lia].
  Qed.

  Notation impl := (zimplementation (I := I) (K := K) (V := V)).
  Lemma zexecute_same (i j : impl) ei ri ej rj : zosdit_as_documented i ei ri -> zosdit_as_documented j ej rj ->
    forall R (p : zclient R) once s t z, zoccurs i ei once s -> zoccurs j ej once t -> careful i ei once s p -> okz once z ->
    ei s = zosdit_iter z -> ej t = zosdit_iter z -> zosdit_len z = length (zosdit_iter z) + ri s -> zosdit_len z = length (zosdit_iter z) + rj t ->
    zexecute i s p = zexecute j t p.
  Proof.
    intros (_ & _ & Di) (_ & _ & Dj) R p. induction p as [r|c next IH]; intros once s t z Os Ot Ca Ok Es Et Ls Lt; cbn [zexecute]; [reflexivity|].
    destruct Ca as (Se & once' & Tw & Ca).
    assert (Tw' : once' = true -> once = true /\ ~ makes_twin j ej c t).
    { intros X. destruct (Tw X) as [X1 X2]. split; [exact X1|]. intros Y. apply X2. destruct c; try exact Y. cbn [makes_twin] in *. rewrite Es. rewrite Et in Y. exact Y. }
    pose proof (Di once s c Os Se) as Hi. pose proof (Dj once t c Ot Se) as Hj.
    pose proof (zoccurs_after i ei once once' s c Os Se Tw) as Os'. pose proof (zoccurs_after j ej once once' t c Ot Se Tw') as Ot'.
    destruct (zdoes i c s) as [s' a], (zdoes j c t) as [t' b]. cbn [fst snd] in *.
    rewrite Es in Hi. rewrite Et in Hj. apply (zperform_iff once c z) in Hi, Hj; try assumption. destruct Hi as [Hi Li], Hj as [Hj Lj].
    unfold seen in Hi, Hj. injection Hi as Ei ->. injection Hj as Ej ->.
    apply (IH _ once' s' t' (fst (zperform c z))); try assumption.
    - apply (okz_step once); [exact Ok|]. intros X. destruct (Tw X) as [X1 X2]. split; [exact X1|]. intros Y. apply X2.
      destruct c; try exact Y. cbn [makes_twin]. rewrite Es. exact Y.
    - rewrite <- Ei. exact Li.
    - rewrite <- Ej. exact Lj.
  Qed.
  Lemma new_okz : okz true (z_new : ZosditMap K V).
  Proof. split; [exists []; reflexivity|]. intros _. apply stored_once_ZD; [apply zreachable_ZWF; exists []; reflexivity|constructor]. Qed.
  Lemma zoccurs_okz once z : zoccurs (zosdit : impl) zosdit_iter once z -> okz once z.
  Proof.
    induction 1 as [|once once' s c Os IH Se Tw]; [apply new_okz|]. apply (okz_step once once' c s IH).
    intros X. destruct (Tw X) as [X1 X2]. split; [exact X1|]. intros Y. apply X2. destruct c; exact Y.
  Qed.
  Definition excess z : nat := zosdit_len z - length (zosdit_iter z).
  Lemma excess_len z : zreachable z -> zosdit_len z = length (zosdit_iter z) + excess z.
  Proof. intros R. pose proof (proj1 (C36_len_at_least z R)). unfold excess. lia. Qed.
End Props.

Section Theorems.
  Context {I : Type} `{PL : PointLaws I}.
  Context {K : Type} {IK : InclusiveInterval I K} {IL : IntervalLaws I K}.
  Context {V : Type}.
  Notation impl := (zimplementation (I := I) (K := K) (V := V)).

  (** ** C132 *)
  (** No careful program can tell two implementations apart that both behave as described, ... *)
  Theorem C132_indistinguishable : determined_by_points I K ->
    forall (i j : impl) ei ri ej rj, zosdit_as_documented i ei ri -> zosdit_as_documented j ej rj ->
    forall R (p : zclient R), careful i ei true (zstart i) p -> zexecute i (zstart i) p = zexecute j (zstart j) p.
  Proof.
    intros D i j ei ri ej rj Hi Hj R p Ca.
    apply (zexecute_same D i j ei ri ej rj Hi Hj R p true (zstart i) (zstart j) z_new); try assumption; try apply new_okz; try apply zoccurs_start.
    - apply Hi.
    - apply Hj.
    - rewrite (proj1 (proj2 Hi)). reflexivity.
    - rewrite (proj1 (proj2 Hj)). reflexivity.
  Qed.
  (** ... the modelled ZosditMap being one of them. *)
  Theorem C132_zosdit_as_documented : determined_by_points I K ->
    zosdit_as_documented (zosdit : impl) zosdit_iter (fun z => zosdit_len z - length (zosdit_iter z)).
  Proof.
    intros D. split; [reflexivity|]. split; [reflexivity|]. intros once z c Oz Se.
    pose proof (zoccurs_okz once z Oz) as Ok. pose proof (excess_len z (proj1 Ok)) as En.
    apply (zperform_iff D once c z _ _ _ _ Ok Se En). split; [unfold seen; change (zdoes zosdit c z) with (zperform c z); destruct (zperform c z); reflexivity|].
    apply (excess_len (fst (zperform c z))). apply (okz_step once false c z Ok). discriminate.
  Qed.
  (** Conversely an implementation that careful programs cannot tell from the modelled
      ZosditMap behaves as described, its states being read through [iter] and [len]. *)
  Theorem C132_indistinguishable_only_if_documented : determined_by_points I K ->
    forall i : impl,
    (forall R (p : zclient R), careful (zosdit : impl) zosdit_iter true (zstart (zosdit : impl)) p ->
       zexecute i (zstart i) p = zexecute zosdit (zstart (zosdit : impl)) p) ->
    zosdit_as_documented i (fun s => snd (zdoes i ZCallIter s))
      (fun s => snd (zdoes i ZCallLen s) - length (snd (zdoes i ZCallIter s))).
  Proof.
    intros D i X. set (ents := fun s : zstate i => snd (zdoes i ZCallIter s)).
    assert (A1 : forall once s z, (forall R (p : zclient R), careful (zosdit : impl) zosdit_iter once z p -> zexecute i s p = zexecute zosdit z p) ->
      forall c, settled once c -> snd (zdoes i c s) = snd (zperform c z)).
    { intros once s z E c Se. specialize (E _ (ZMake _ c (fun a => ZStop _ a))). cbn [zexecute] in E. change (zdoes zosdit c z) with (zperform c z) in E.
      assert (C : careful (zosdit : impl) zosdit_iter once z (ZMake _ c (fun a => ZStop _ a))).
      { split; [exact Se|]. exists false. split; [discriminate|exact Logic.I]. }
      specialize (E C). destruct (zdoes i c s), (zperform c z). exact E. }
    assert (A2 : forall once s z, (forall R (p : zclient R), careful (zosdit : impl) zosdit_iter once z p -> zexecute i s p = zexecute zosdit z p) ->
      forall c once', settled once c -> (once' = true -> once = true /\ ~ makes_twin (zosdit : impl) zosdit_iter c z) ->
      forall R (p : zclient R), careful (zosdit : impl) zosdit_iter once' (fst (zperform c z)) p -> zexecute i (fst (zdoes i c s)) p = zexecute zosdit (fst (zperform c z)) p).
    { intros once s z E c once' Se Tw R p Cp. specialize (E _ (ZMake _ c (fun _ => p))). cbn [zexecute] in E. change (zdoes zosdit c z) with (zperform c z) in E.
      assert (C : careful (zosdit : impl) zosdit_iter once z (ZMake _ c (fun _ => p))).
      { split; [exact Se|]. exists once'. split; [exact Tw|exact Cp]. }
      specialize (E C). destruct (zdoes i c s), (zperform c z). exact E. }
    assert (Y : forall once s, zoccurs i ents once s -> exists z, zoccurs (zosdit : impl) zosdit_iter once z /\
      forall R (p : zclient R), careful (zosdit : impl) zosdit_iter once z p -> zexecute i s p = zexecute zosdit z p).
    { induction 1 as [|once once' s c Os (z & Oz & IH) Se Tw].
      - exists z_new. split; [exact (zoccurs_start (zosdit : impl) zosdit_iter)|exact X].
      - exists (fst (zperform c z)).
        assert (Tw' : once' = true -> once = true /\ ~ makes_twin (zosdit : impl) zosdit_iter c z).
        { intros T. destruct (Tw T) as [T1 T2]. split; [exact T1|]. intros M. apply T2. destruct c; try exact M. cbn [makes_twin] in *.
          unfold ents. rewrite (A1 once s z IH ZCallIter Logic.I). exact M. }
        split; [exact (zoccurs_after (zosdit : impl) zosdit_iter once once' z c Oz Se Tw')|]. apply (A2 once s z IH c once' Se Tw'). }
    destruct (Y true (zstart i) (zoccurs_start i ents)) as (z0 & _ & _). clear z0.
    split; [exact (A1 true (zstart i) z_new X ZCallIter Logic.I)|].
    split; [rewrite (A1 true (zstart i) z_new X ZCallIter Logic.I), (A1 true (zstart i) z_new X ZCallLen Logic.I); reflexivity|].
    intros once s c Os Se. destruct (Y once s Os) as (z & Oz & E). pose proof (zoccurs_okz once z Oz) as Ok.
    assert (E' := A2 once s z E c false Se (fun X => match Bool.diff_false_true X with end)).
    unfold ents. rewrite (A1 once s z E ZCallIter Logic.I), (A1 once s z E ZCallLen Logic.I), (A1 once s z E c Se),
      (A1 false _ _ E' ZCallIter Logic.I), (A1 false _ _ E' ZCallLen Logic.I). cbn [zperform snd].
    pose proof (excess_len z (proj1 Ok)) as En.
    apply (zperform_iff D once c z _ _ _ _ Ok Se En). split; [unfold seen; destruct (zperform c z); reflexivity|].
    apply (excess_len (fst (zperform c z))). apply (okz_step once false c z Ok). discriminate.
  Qed.
End Theorems.

(** The hypotheses are met, non-trivially: an implementation of its own that keeps the calls
    made so far and answers by replaying them behaves as described; *)
Definition zreplaying : zimplementation (I := u8) (K := Interval u8) (V := nat) :=
  {| zstate := list (zop u8 (Interval u8) nat); zstart := [];
     zdoes := fun c s =>
       (match is_op c with Some o => s ++ [o] | None => s end, snd (zperform c (zrun s))) |}.
Lemma zreplaying_documented : zosdit_as_documented zreplaying (fun s => zosdit_iter (zrun s)) (fun s => removed s).
Proof.
  assert (St : forall (s : list (zop u8 (Interval u8) nat)) c, zrun (fst (zdoes zreplaying c s)) = fst (zperform c (zrun s))).
  { intros s c. cbn [zdoes zreplaying fst]. rewrite zperform_step. destruct (is_op c) as [o|]; [|reflexivity]. unfold zrun. rewrite fold_left_app. reflexivity. }
  assert (Oc : forall once s, zoccurs zreplaying (fun s => zosdit_iter (zrun s)) once s -> okz once (zrun s)).
  { induction 1 as [|once once' s c Os IH Se Tw]; [apply new_okz|]. rewrite St. apply (okz_step once once' c (zrun s) IH).
    intros X. destruct (Tw X) as [X1 X2]. split; [exact X1|]. intros Y. apply X2. destruct c; exact Y. }
  split; [reflexivity|]. split; [reflexivity|]. intros once s c Os Se.
  apply (zperform_iff interval_determined once c (zrun s)); [exact (Oc once s Os)|exact Se|apply C63_len_partial|].
  split; [unfold seen; rewrite St; reflexivity|]. rewrite <- St. apply C63_len_partial.
Qed.
(** a program whose calls depend on earlier answers. *)
Definition ex_zclient : zclient (I := u8) (K := Interval u8) (V := nat) (list (Interval u8 * nat) * nat) :=
  ZMake _ (ZCallInsertStrictBack (4 --> 8 : Interval u8) 1) (fun _ =>
  ZMake _ (ZCallInsertStrictBack (8 --> 8 : Interval u8) 2) (fun _ =>
  ZMake _ (ZCallRemoveLastValueAtPoint '8) (fun o =>
    match o with
    | Val (Some v) =>
        ZMake _ (ZCallInsertStrictBack (8 --> 12 : Interval u8) (v + 5)) (fun _ =>
        ZMake _ ZCallIter (fun l =>
        ZMake _ ZCallLen (fun n => ZStop _ (l, n))))
    | _ => ZStop _ ([], 0)
    end))).
Example C132_example : determined_by_points u8 (Interval u8) /\
  zosdit_as_documented zreplaying (fun s => zosdit_iter (zrun s)) (fun s => removed s) /\
  careful zreplaying (fun s => zosdit_iter (zrun s)) true (zstart zreplaying) ex_zclient /\
  zexecute zreplaying (zstart zreplaying) ex_zclient = zexecute zosdit (zstart zosdit) ex_zclient /\
  zexecute zosdit (zstart zosdit) ex_zclient = ([(4 --> 8 : Interval u8, 1); (8 --> 12 : Interval u8, 7)], 3).
Proof.
  assert (Ca : careful zreplaying (fun s => zosdit_iter (zrun s)) true (zstart zreplaying) ex_zclient).
  { cbn [careful ex_zclient settled makes_twin]. split; [auto|]. exists true. split; [tauto|]. split; [auto|]. exists true. split; [tauto|]. split; [exact Logic.I|].
    exists true. split; [tauto|].
    replace (snd (zdoes zreplaying (ZCallRemoveLastValueAtPoint '8) _)) with (Val (Some 2)) by (vm_compute; reflexivity).
    cbn [careful settled makes_twin]. split; [auto|]. exists true. split; [tauto|]. split; [exact Logic.I|]. exists true. split; [tauto|]. split; [exact Logic.I|]. exists true. split; [tauto|exact Logic.I]. }
  split; [exact interval_determined|]. split; [exact zreplaying_documented|]. split; [exact Ca|]. split; [|vm_compute; reflexivity].
  exact (C132_indistinguishable interval_determined zreplaying zosdit _ _ _ _ zreplaying_documented (C132_zosdit_as_documented interval_determined) _ ex_zclient Ca).
Qed.

Print Assumptions C132_indistinguishable.
Print Assumptions C132_zosdit_as_documented.
Print Assumptions C132_indistinguishable_only_if_documented.
