(** * WalkFacts: walks stored in a ZosditMap (the proofs of C138). *)
From Coq Require Import List ZArith Bool Lia ZifyBool Sorting.Sorted.
From Verif Require Import Base BTree UtilsModel IntervalModel NoditModel ZosditModel Spec ZosditOps WalkOps
  PointFacts IntervalFacts ListFacts NoditFacts ZosditFacts ZosditMut ZosditProofs.
Import ListNotations.
Open Scope Z_scope.

Section Facts.
  Context {I : Type} `{PL : PointLaws I}.
  Context {K : Type} {IK : InclusiveInterval I K} {IL : IntervalLaws I K}.
  Context {V : Type}.
  Implicit Types (z : ZosditMap K V) (l w : list (K * V)) (e : K * V).

  Lemma some_or_none {A} (f : A -> bool) (l : list A) : (exists x, In x l /\ f x = true) \/ (forall x, In x l -> f x = false).
  Proof.
    induction l as [|a l IH]; [right; intros x []|]. destruct (f a) eqn:E; [left; exists a; split; [left; reflexivity|exact E]|].
    destruct IH as [(x & Hx & Ex)|N]; [left; exists x; split; [right; exact Hx|exact Ex]|right].
    intros x Hx. destruct Hx as [<-|Hx]; auto.
  Qed.

  Lemma meet_or_not (a b : K) : overlap a b \/ ~ overlap a b.
  Proof. rewrite overlap_rk. lia. Qed.

  Lemma gapless_tl e l : gapless (e :: l) -> gapless l.
  Proof. intros G w1 a b w2 E. apply (G (e :: w1) a b w2). rewrite E. reflexivity. Qed.

  (** The real line has no holes in a gapless walk. *)
  Lemma gapless_reach (l : list (K * V)) : forall n, ZS l -> gapless l -> (exists e, In e l /\ elo e <= n) -> (exists e, In e l /\ n < ehi e) ->
    exists e, In e l /\ elo e <= n < ehi e.
  Proof.
    induction l as [|e l IH]; intros n W G (a & Ha & La) (b & Hb & Lb); [destruct Ha|].
    apply ZS_cons in W. destruct W as (Ve & W & Hle). rewrite Forall_forall in Hle.
    destruct (Z_lt_le_dec n (ehi e)) as [L|L].
    - exists e. split; [left; reflexivity|]. destruct Ha as [<-|Ha]; [lia|]. specialize (Hle a Ha). lia.
    - destruct Hb as [<-|Hb]; [lia|]. destruct l as [|c l]; [destruct Hb|].
      assert (O : overlap (fst e) (fst c)) by (apply (G [] e c l); reflexivity).
      apply overlap_rk in O. destruct (IH n W (gapless_tl _ _ G)) as (x & Hx & Lx).
      + exists c. split; [left; reflexivity|]. zl.
      + exists b. split; assumption.
      + exists x. split; [right; exact Hx|exact Lx].
  Qed.

  Lemma iter_ZS z : ZWF z -> ZS (zosdit_iter z).
  Proof. intros (W & Hok & _). apply flatten_ZS; assumption. Qed.

  Lemma walk_position z p : ZWF z -> gapless (zosdit_iter z) ->
    (forall v, get_last_value_at_point z p = Some v <-> last_value (zosdit_iter z) p v) /\
    (get_last_value_at_point z p = None <-> no_value (zosdit_iter z) p).
  Proof.
    intros Wf G. pose proof (iter_ZS z Wf) as W.
    destruct (some_or_none (fun e => rk p <? ehi e) (zosdit_iter z)) as [(b & Hb & Lb)|N];
      [|apply get_last_char; [exact Wf|]; right; intros e He; specialize (N e He); cbn in N; lia].
    destruct (some_or_none (fun e => elo e <=? rk p) (zosdit_iter z)) as [(a & Ha & La)|N].
    - apply get_last_char; [exact Wf|]. left. apply (gapless_reach _ (rk p) W G); [exists a|exists b]; split; try assumption; lia.
    - assert (No : no_value (zosdit_iter z) p).
      { intros e He Hc. specialize (N e He). apply covers_rk in Hc. zl. }
      assert (E : get_last_value_at_point z p = None).
      { apply get_last_not_found; [exact Wf|]. intros [(e & He & Le)|X]; [specialize (N e He); cbn in N; lia|].
        specialize (X b Hb). cbn in Lb. lia. }
      rewrite E. split; [|split; [intros _; exact No|reflexivity]]. intros v. split; [discriminate|].
      intros L. exfalso. apply (last_not_none _ _ _ L No).
  Qed.

  Lemma ZS_in_order l1 l2 l3 e b : ZS (l1 ++ e :: l2 ++ b :: l3) -> ehi e <= elo b.
  Proof.
    intros W. apply ZS_app in W. destruct W as (_ & W & _). apply ZS_cons in W. destruct W as (_ & _ & F).
    rewrite Forall_forall in F. apply F, in_or_app. right. left. reflexivity.
  Qed.

  (** Where the walk pauses, the value before the pause is missed. *)
  Lemma pause_missed z w1 a b w2 : ZWF z -> zosdit_iter z = w1 ++ a :: b :: w2 -> ~ overlap (fst a) (fst b) ->
    (exists v, last_value (zosdit_iter z) (iend (fst a)) v) /\ ~ findable z (iend (fst a)) /\ ~ cuttable z (fst b).
  Proof.
    intros Wf E N. pose proof (iter_ZS z Wf) as W. rewrite E in W.
    pose proof (ZS_okv _ a W (in_elt _ _ _)) as Va.
    assert (Vb : elo b <= ehi b). { apply (ZS_okv _ b W). rewrite in_app_iff. right. right. left. reflexivity. }
    assert (L : ehi a < elo b).
    { pose proof (ZS_in_order w1 [] w2 a b W) as L. destruct (Z.eq_dec (ehi a) (elo b)) as [X|X]; [|lia].
      exfalso. apply N. apply overlap_rk. zl. }
    apply ZS_app in W. destruct W as (W1 & W2 & H12). apply ZS_cons in W2. destruct W2 as (_ & W2 & _). apply ZS_cons in W2. destruct W2 as (_ & W2 & Hb).
    rewrite Forall_forall in Hb.
    assert (Side : forall e, In e (flatten (z_inner z)) -> ehi e <= ehi a \/ elo b <= elo e).
    { intros e He. fold (zosdit_iter z) in He. rewrite E in He. apply in_app_or in He. destruct He as [He|He].
      - left. specialize (H12 e a He (or_introl eq_refl)). lia.
      - destruct He as [<-|He]; [left; lia|]. destruct He as [<-|He]; [right; lia|]. right. specialize (Hb e He). lia. }
    assert (Ha : In a (flatten (z_inner z))) by (fold (zosdit_iter z); rewrite E; apply in_elt).
    assert (Hbi : In b (flatten (z_inner z))).
    { fold (zosdit_iter z). rewrite E, in_app_iff. right. right. left. reflexivity. }
    assert (Ra : rk (iend (fst a)) = ehi a) by reflexivity.
    split; [|split].
    - exists (snd a), w1, (fst a), (b :: w2). rewrite E, <- surjective_pairing. split; [reflexivity|]. split; [apply covers_rk; zl|].
      intros e He Hc. apply covers_rk in Hc. destruct He as [<-|He]; [zl|]. specialize (Hb e He). zl.
    - intros [(e & He & Le)|X]; [destruct (Side e He); lia|]. specialize (X b Hbi). lia.
    - assert (Rb : lo (fst b) = elo b) by reflexivity.
      intros [(e & He & Le)|X]; [destruct (Side e He); lia|]. specialize (X a Ha). lia.
  Qed.

  Section Cut.
    Context {Q : Type} {IQ : InclusiveInterval I Q}.
    Implicit Type q : Q.
    Lemma walk_cut z q : ZWF z -> valid q -> gapless (zosdit_iter z) ->
      exists z' out, zosdit_cut q z = (z', Val out) /\
        (exists o, sub (fun e => overlap (fst e) q) (zosdit_iter z) o /\ Forall2 (yields q) o out) /\
        (exists ls, Forall2 (leaves q) (zosdit_iter z) ls /\ zosdit_iter z' = concat ls) /\
        (forall e p, In e (zosdit_iter z') -> covers (fst e) p -> ~ covers q p) /\
        (zosdit_len z' + length (zosdit_iter z) = zosdit_len z + length (zosdit_iter z'))%nat.
    Proof.
      intros Wf Vq G. pose proof (iter_ZS z Wf) as W.
      assert (Yes : cuttable z q -> exists z' out, zosdit_cut q z = (z', Val out) /\
        (exists o, sub (fun e => overlap (fst e) q) (zosdit_iter z) o /\ Forall2 (yields q) o out) /\
        (exists ls, Forall2 (leaves q) (zosdit_iter z) ls /\ zosdit_iter z' = concat ls) /\
        (forall e p, In e (zosdit_iter z') -> covers (fst e) p -> ~ covers q p) /\
        (zosdit_len z' + length (zosdit_iter z) = zosdit_len z + length (zosdit_iter z'))%nat).
      { intros C. destruct (cut_done z q Wf Vq C) as (z' & out & E & Wf' & Ho & Hl & Hn & N). exists z', out. repeat (split; [assumption|]). split; [|exact N].
        rewrite Forall_forall in Hn. intros e p He Hp Hq. apply (Hn e He). apply covers_rk in Hp. apply covers_rk in Hq.
        split; eapply Z.le_trans; try apply Hp; apply Hq. }
      pose proof Vq as Vq0. apply valid_rk in Vq0.
      destruct (some_or_none (fun e => ehi e <? lo q) (zosdit_iter z)) as [(a & Ha & La)|N];
        [|apply Yes; right; intros e He; specialize (N e He); cbn in N; lia].
      destruct (some_or_none (fun e => lo q <=? ehi e) (zosdit_iter z)) as [(b & Hb & Lb)|N].
      - apply Yes. left. pose proof (ZS_okv _ a W Ha) as Va.
        destruct (gapless_reach _ (lo q - 1) W G) as (e & He & Le); [exists a; split; [assumption|lia]|exists b; split; [assumption|lia]|].
        exists e. split; [exact He|lia].
      - assert (C : ~ cuttable z q).
        { intros [(e & He & Le)|X]; [specialize (N e He); cbn in N; lia|]. specialize (X a Ha). cbn in La. lia. }
        assert (No : Forall (fun e => ~ meets (lo q) (hi q) e) (zosdit_iter z)).
        { rewrite Forall_forall. intros e He. specialize (N e He). unfold meets. cbn in N. lia. }
        exists z, []. split; [apply cut_not_done; assumption|].
        assert (No' : forall e, In e (zosdit_iter z) -> ~ overlap (fst e) q).
        { intros e He Ho. specialize (N e He). cbn in N. apply overlap_rk in Ho. zl. }
        split; [exists []; split; [|constructor]|split; [apply Forall2_leaves_whole; [assumption|apply W|exact No]|split; [|reflexivity]]].
        + clear -No'. induction (zosdit_iter z) as [|e l IH]; constructor; [apply No'; left; reflexivity|].
          apply IH. intros e' He'. apply No'. right. exact He'.
        + intros e p He Hp Hq. apply (No' e He). exists p. split; assumption.
    Qed.
  End Cut.

  (** ** Recording a walk *)
  Lemma extend_records l : forall z z', extend_strict_back l z = Val (Ok z') ->
    fold_left zstep (map record l) z = z' /\
    forall w1 e w2, l = w1 ++ e :: w2 ->
      insert_strict_back (fst e) (snd e) (fold_left zstep (map record w1) z) = (fold_left zstep (map record (w1 ++ [e])) z, Val (Ok tt)).
  Proof.
    induction l as [|[k v] l IH]; intros z z' E.
    - cbn in E. injection E as <-. split; [reflexivity|]. intros w1 e w2 X. destruct w1; discriminate.
    - cbn in E. destruct (insert_strict_back k v z) as [z1 [[[]|]|]] eqn:E1; try discriminate.
      destruct (IH z1 z' E) as [A B]. cbn [map fold_left]. unfold record at 2. cbn [zstep fst snd]. rewrite E1. cbn [fst].
      split; [exact A|]. intros w1 e w2 X. destruct w1 as [|c w1]; injection X as X1 X2; subst.
      + cbn. rewrite E1. reflexivity.
      + specialize (B w1 e w2 eq_refl). cbn [app map fold_left]. unfold record at 2 4. cbn [zstep fst snd]. rewrite E1. exact B.
  Qed.

  Lemma walk_ZS w : walk w -> ZS w.
  Proof. intros [A B]. apply sorted_ZS; assumption. Qed.

  Lemma walk_bulk w : walk w -> exists z, from_iter_strict_back w = Val (Ok z) /\ Forall2 same_entry w (zosdit_iter z) /\ zosdit_len z = length w.
  Proof.
    intros Hw. destruct (rebuild w [] z_new new_ZWF new_ZD (walk_ZS w Hw) (Forall2_nil _)) as (z' & E & F & N).
    exists z'. split; [exact E|]. split; [exact F|]. exact N.
  Qed.

  Lemma same_entry_up_to (a b c d : K * V) : same_entry a b -> same_entry c d -> up_to (fst b) (fst d) -> up_to (fst a) (fst c).
  Proof. intros [S1 _] [S2 _] U x y Hx Hy. apply U; [apply S1, Hx|apply S2, Hy]. Qed.

  Lemma same_entries_walk w l : Forall2 same_entry w l -> walk l -> walk w.
  Proof.
    intros F [Vl S]. induction F as [|a b w l E F IH]; [split; constructor|]. cbn in Vl, S.
    inversion_clear Vl as [|? ? Vb Vl']. apply SS_cons in S. destruct S as [S Sb]. destruct (IH Vl' S) as [Vw Sw]. split; cbn; constructor; try assumption.
    - destruct Vb as [p Hp]. exists p. apply (proj1 E), Hp.
    - clear -Sb E F. induction F as [|c d w l E' F IH]; [constructor|]. cbn in Sb |- *. inversion_clear Sb. constructor; [|auto].
      apply (same_entry_up_to a b c d); assumption.
  Qed.

  Lemma iter_walk z : ZWF z -> walk (zosdit_iter z).
  Proof. intros Wf. destruct (iter_sorted z Wf) as (A & B & _). split; assumption. Qed.

  (** ** Stepping back *)
  Lemma last_found z l k v : ZWF z -> zosdit_iter z = l ++ [(k, v)] -> get_last_value_at_point z (iend k) = Some v.
  Proof.
    intros Wf E. pose proof (iter_ZS z Wf) as W. rewrite E in W.
    assert (Vk : lo k <= hi k) by (apply (ZS_okv _ (k, v) W), in_elt).
    apply ZS_app in W. destruct W as (_ & _ & H12).
    assert (F : findable z (iend k)).
    { right. intros e He. fold (zosdit_iter z) in He. rewrite E in He. apply in_app_or in He. destruct He as [He|[<-|[]]].
      - specialize (H12 e (k, v) He (or_introl eq_refl)). unfold elo, ehi, lo, hi in *. cbn in *. lia.
      - unfold ehi, hi. cbn. lia. }
    apply (proj1 (get_last_char z (iend k) Wf F)). exists l, k, []. split; [exact E|]. split; [apply covers_rk; unfold lo, hi in *; lia|]. intros e [].
  Qed.
End Facts.
