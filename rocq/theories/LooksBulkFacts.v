(** * LooksBulkFacts: lemmas for [contains_interval], [gaps_trimmed] (C154), the
      bulk constructors and [append] (C155). *)
From Coq Require Import List ZArith Bool Arith Lia ZifyBool.
From Verif Require Import Base BTree UtilsModel IntervalModel NoditModel NoditOps Spec TreeShape SearchOps LooksOps LooksBulkOps
  PointFacts IntervalFacts ListFacts NoditFacts NoditInv NoditQueries NoditGaps NoditMutations TraceFacts TreeFacts TreeProofs SearchFacts NoditSize CostFacts LooksFacts.
Import ListNotations.
Open Scope nat_scope.

Section Nodit.
  Context {I : Type} `{PL : PointLaws I}.
  Context {K : Type} {IK : InclusiveInterval I K} {IL : IntervalLaws I K}.
  Context {V : Type}.
  Implicit Types (m : NoditMap K V) (p : I) (t : tree K V) (k : K) (v : V).

  Section Q.
    Context {Q : Type} {IQ : InclusiveInterval I Q}.
    Implicit Type q : Q.
    Lemma l_trimmed_same m q d t l : WF m -> btree true d t -> entries t = m -> overlapping m q = Val l ->
      fst (l_gaps_trimmed t q) = gaps_trimmed m q /\ looks_at 8 (len m) (map fst l) (snd (l_gaps_trimmed t q)).
    Proof.
      intros W B E O. destruct (l_end_gap_same m (istart q) d t W B E) as [A1 F1]. destruct (l_end_gap_same m (iend q) d t W B E) as [A2 F2].
      destruct (l_overlapping_all_same m q d t l W B E O) as [A3 F3]. unfold l_gaps_trimmed, gaps_trimmed.
      destruct (invalid_interval_panic q) as [u|] eqn:X; [|exfalso; unfold overlapping in O; rewrite X in O; discriminate]. cbn [obind].
      rewrite !fst_lbind, !snd_lbind, A1, A2, A3. cbn [lret fst snd]. rewrite app_nil_r. split.
      - destruct (end_gap m (istart q)) as [sg|]; cbn [obind]; [|reflexivity]. destruct (end_gap m (iend q)) as [eg|]; cbn [obind]; [|reflexivity].
        destruct sg as [s|], eg as [e|]; cbn [obind]; rewrite ?O; try reflexivity; destruct (eqb (ivl_start s) (ivl_start e)); rewrite ?O; reflexivity.
      - exact (looks_app 3 5 _ [] _ _ _ F1 (looks_app 3 2 _ [] _ _ _ F2 F3)).
    Qed.

    (** Everything between the first of [x] and the end of any of them is covered. *)
    Definition unbroken (x : list (K * V)) : Prop :=
      match x with
      | [] => True
      | e0 :: _ => forall e z, In e x -> (elo e0 <= z <= ehi e)%Z -> exists e', In e' x /\ (elo e' <= z <= ehi e')%Z
      end.
    Lemma l_inner_same n (l : list (K * V)) gs : WF l -> inner_gaps l = Val gs ->
      fst (l_inner_gap l) = Val (match gs with [] => false | _ => true end) /\
      exists x y r, l = x ++ y ++ r /\ length y <= 1 /\ (l <> [] -> x <> []) /\ unbroken x /\ looks_at 0 n (map fst (x ++ y)) (snd (l_inner_gap l)).
    Proof.
      revert gs. induction l as [|a l IH]; intros gs W E.
      - injection E as <-. split; [reflexivity|]. exists [], [], []. split; [reflexivity|]. split; [cbn; lia|]. split; [intros X; exact X|]. split; [exact Logic.I|apply looks_nil].
      - apply WF_cons in W as W'. destruct W' as (Va & Wl & Ha). cbn [l_inner_gap]. rewrite fst_lbind, snd_lbind. cbn [fst snd l_walk map].
        destruct l as [|b l].
        + injection E as <-. split; [reflexivity|]. exists [a], [], []. split; [reflexivity|]. split; [cbn; lia|]. split; [intros _; discriminate|]. split.
          * intros e z [<-|[]] Hz. exists a. split; [left; reflexivity|exact Hz].
          * exact (looks_walk n [a]).
        + assert (E' : inner_gaps (a :: b :: l) = (let? u := unwrap (up (iend (fst a))) in let? d := unwrap (down (istart (fst b))) in
            let? gs := inner_gaps (b :: l) in Val (if is_valid (ifrom (mkInterval u d) : K) then (ifrom (mkInterval u d) : K) :: gs else gs))) by reflexivity.
          rewrite E' in E. clear E'. destruct (unwrap (up (iend (fst a)))) as [u|] eqn:Eu; [|discriminate]. cbn [obind] in *.
          destruct (unwrap (down (istart (fst b)))) as [dn|] eqn:Ed; [|discriminate]. cbn [obind] in *.
          destruct (inner_gaps (b :: l)) as [gs'|] eqn:Eg; [|discriminate]. cbn [obind] in E.
          destruct (is_valid (ifrom (mkInterval u dn) : K)) eqn:Eg2; injection E as <-.
          * rewrite fst_lbind, snd_lbind. cbn [lret fst snd]. split; [reflexivity|]. exists [a], [b], l. split; [reflexivity|]. split; [cbn; lia|]. split; [intros _; discriminate|]. split.
            -- intros e z [<-|[]] Hz. exists a. split; [left; reflexivity|exact Hz].
            -- exact (looks_walk n [a; b]).
          * destruct (IH gs' Wl eq_refl) as (A & x & y & r & El & Ly & Nx & Ux & F). split; [exact A|].
            exists (a :: x), y, r. split; [cbn; rewrite El; reflexivity|]. split; [exact Ly|]. split; [intros _; discriminate|].
            assert (X : exists x', x = b :: x').
            { specialize (Nx ltac:(discriminate)). destruct x as [|b' x']; [contradiction|]. injection El as <- _. eauto. }
            destruct X as (x' & ->). split.
            -- intros e z He Hz. destruct (Z_le_gt_dec z (ehi a)) as [L|L]; [exists a; split; [left; reflexivity|lia]|].
               destruct He as [<-|He]; [lia|].
               assert (Tc : elo b = (ehi a + 1)%Z).
               { inversion Ha as [|? ? Hb _]; subst.
                 assert (U : rk u = (ehi a + 1)%Z). { destruct (up (iend (fst a))) as [u'|] eqn:Eu'; [|discriminate]. injection Eu as ->. apply up_rk in Eu'. unfold ehi, hi. lia. }
                 assert (Dn : rk dn = (elo b - 1)%Z). { destruct (down (istart (fst b))) as [u'|] eqn:Eu'; [|discriminate]. injection Ed as ->. apply down_rk in Eu'. unfold elo, lo. lia. }
                 destruct (Z_le_gt_dec (rk u) (rk dn)) as [G|G]; [|lia]. exfalso.
                 assert (Vg : valid (ifrom (mkInterval u dn) : K)).
                 { apply valid_rk. rewrite from_lo, from_hi; unfold lo, hi; cbn; lia. }
                 apply is_valid_true in Vg. congruence. }
               destruct (Ux e z He ltac:(lia)) as (e' & He' & Hz'). exists e'. split; [right; exact He'|exact Hz'].
            -- exact (looks_app 0 0 n [fst a] _ _ _ (looks_walk n [a]) F).
    Qed.
    (** [contains_interval] looks no further than one entry beyond the first point
        of the query that is not covered. *)
    Lemma l_contains_same m q d t : WF m -> valid q -> btree true d t -> entries t = m ->
      fst (l_contains_interval t q) = map_contains_interval m q /\
      exists x y r, overlapping m q = Val (x ++ y ++ r) /\ length y <= 1 /\
      (forall e p, In e x -> covers q p -> ple p (iend (fst e)) -> covered m p) /\
      looks_at 8 (len m) (map fst (x ++ y)) (snd (l_contains_interval t q)).
    Proof.
      intros W Vq B E. destruct (l_end_gap_same m (istart q) d t W B E) as [A1 F1]. destruct (l_end_gap_same m (iend q) d t W B E) as [A2 F2].
      destruct (l_overlapping_same m q d t W B E) as [A3 F3]. clear E B.
      unfold l_contains_interval, map_contains_interval, gaps_untrimmed. rewrite (iip_valid _ Vq). cbn [obind].
      rewrite !fst_lbind, !snd_lbind, A1, A2, A3. apply valid_rk in Vq as Vq'.
      destruct (split_overlap m q W Vq) as (A & M & C & -> & HA & HM & HC & _).
      rewrite (overlapping_split q A M C Vq W HA HM HC).
      pose proof (end_gap_start q A M C Vq' W HA HM HC) as HS. pose proof (end_gap_end q A M C Vq' W HA HM HC) as HE.
      assert (HE' : exists eg, end_gap (A ++ M ++ C) (iend q) = Val eg).
      { destruct HE as [(_ & g & Eg & _)|(M' & y & _ & HE)]; [eexists; exact Eg|].
        destruct (hi q <=? ehi y)%Z; [eexists; exact HE|]. destruct HE as (g & Eg & _). eexists. exact Eg. }
      destruct HE' as (eg & EE). rewrite EE in *. clear HE.
      assert (WM : WF M). { apply WF_app in W. destruct W as (_ & W & _). apply WF_app in W. apply W. }
      destruct (inner_gaps_total M WM) as (gs & Egs).
      assert (FF := looks_app 3 5 _ [] [] _ _ F1 (looks_app 3 2 _ [] [] _ _ F2 F3)).
      assert (SG : (exists g, end_gap (A ++ M ++ C) (istart q) = Val (Some g)) \/ (end_gap (A ++ M ++ C) (istart q) = Val None /\ exists e M', M = e :: M' /\ (elo e <= lo q)%Z)).
      { destruct M as [|e M']; [left; destruct HS as (g & Eg & _); eauto|]. destruct (elo e <=? lo q)%Z eqn:L; [right|left; destruct HS as (g & Eg & _); eauto].
        split; [exact HS|]. exists e, M'. split; [reflexivity|lia]. }
      clear HS. destruct SG as [(g & ->)|(-> & e & M' & EM & Le)]; cbn [lret fst snd obind].
      - split.
        + destruct eg as [x|]; [destruct (eqb (ivl_start g) (ivl_start x))|]; cbn [obind]; rewrite Egs; cbn; reflexivity.
        + exists [], [], M. split; [reflexivity|]. split; [cbn; lia|]. split; [intros ? ? []|]. rewrite (app_nil_r (snd (l_overlapping t q))). exact FF.
      - rewrite fst_lbind, snd_lbind. destruct (l_inner_same (len (A ++ M ++ C)) M gs WM Egs) as (A4 & x & y & r & EMx & Ly & Nx & Ux & F4). rewrite A4. cbn [lret fst snd obind].
        split; [destruct eg; cbn [obind]; rewrite Egs; destruct gs; reflexivity|]. exists x, y, r. split; [rewrite EMx; reflexivity|]. split; [exact Ly|]. split.
        + intros e1 p He1 Hc Hp. assert (X : exists x', x = e :: x').
          { specialize (Nx ltac:(rewrite EM; discriminate)). destruct x as [|b' x']; [contradiction|]. rewrite EM in EMx. injection EMx as <- _. eauto. }
          destruct X as (x' & ->). apply covers_rk in Hc. apply ple_rk in Hp. assert (Hz : (elo e <= rk p <= ehi e1)%Z) by (split; [lia|exact Hp]). destruct (Ux e1 (rk p) He1 Hz) as ([k v] & He' & Hz').
          exists k, v. split; [|apply covers_rk; exact Hz']. apply in_or_app. right. apply in_or_app. left. rewrite EMx. apply in_or_app. left. exact He'.
        + rewrite (app_nil_r (snd (l_inner_gap M))). exact (looks_app 3 5 _ [] _ _ _ F1 (looks_app 3 2 _ [] _ _ _ F2 (looks_app 2 0 _ [] _ _ _ F3 F4))).
    Qed.
  End Q.

  Lemma l_strict_same (T : shapes K V) k v m : good_shapes T -> WF m ->
    fst (l_insert_strict T k v m) = insert_strict k v m /\ exists w, length w <= 1 /\ looks_at 3 (len m) w (snd (l_insert_strict T k v m)).
  Proof.
    intros GT W. unfold l_insert_strict, insert_strict. destruct (invalid_interval_panic k) as [u|] eqn:Ek.
    2: { split; [reflexivity|]. exists []. split; [cbn; lia|]. apply (looks_le 0); [lia|apply looks_nil]. }
    destruct (GT 0 m) as (E0 & d0 & B0), (GT 1 m) as (E1 & d1 & B1). destruct (l_overlaps_same m k d0 (T 0 m) W B0 E0) as [A F].
    rewrite fst_lbind, snd_lbind, A. set (w := match overlapping m k with Val (e :: _) => [fst e] | _ => [] end) in *.
    assert (Lw : length w <= 1) by (unfold w; destruct (overlapping m k) as [[|]|]; cbn; lia).
    destruct (map_overlaps m k) as [[|]|]; cbn [lret fst snd]; rewrite ?app_nil_r.
    1, 3: split; [reflexivity|]; exists w; split; [exact Lw|apply (looks_le 2); [lia|exact F]].
    destruct (l_insert_same m k v d1 (T 1 m) W B1 E1) as [A2 F2]. rewrite fst_lbind, snd_lbind, A2. cbn [lret fst snd]. rewrite app_nil_r. split; [reflexivity|].
    exists (w ++ []). split; [rewrite app_nil_r; exact Lw|exact (looks_app 2 1 _ _ _ _ _ F F2)].
  Qed.
  Lemma l_extend_same (T : nat -> shapes K V) l : forall m N, (forall i, good_shapes (T i)) -> WF m -> len m + length l <= N ->
    fst (l_extend_strict T l m) = extend_strict l m /\ exists w, length w <= length l /\ looks_at (3 * length l) N w (snd (l_extend_strict T l m)).
  Proof.
    induction l as [|[k v] l IH]; intros m N GT W LN.
    - split; [reflexivity|]. exists []. split; [cbn; lia|apply looks_nil].
    - cbn [l_extend_strict extend_strict length] in *. destruct (l_strict_same (T (length l)) k v m (GT _) W) as (A & w & Lw & F).
      rewrite fst_lbind, snd_lbind, A. pose proof (step_WF m (OpInsertStrict k v) W) as W1. cbn [step] in W1.
      assert (L1 : len (fst (insert_strict k v m)) <= S (len m)).
      { unfold len. destruct (valid_dec k) as [Vk|Nk]; [|unfold insert_strict; rewrite (iip_invalid _ Nk); cbn [fst]; lia].
        destruct (overlap_dec m k W Vk) as [Ho|Hn]; [rewrite (insert_strict_refused m k v W Vk Ho); cbn [fst]; lia|].
        destruct (insert_strict_done m k v W Vk Hn) as (a & b & -> & -> & _). cbn [fst]. rewrite !app_length. cbn [length]. lia. }
      apply (looks_mono _ _ N) in F; [|lia]. destruct (insert_strict k v m) as [m1 [[x|x]|]]; cbn [fst snd lret] in *; rewrite ?app_nil_r.
      2, 3: split; [reflexivity|]; exists w; split; [lia|]; apply (looks_le 3); [lia|exact F].
      destruct (IH m1 N GT W1 ltac:(lia)) as (A2 & w2 & Lw2 & F2). split; [exact A2|]. exists (w ++ w2). split; [rewrite app_length; lia|].
      replace (3 * S (length l)) with (3 + 3 * length l) by lia. exact (looks_app _ _ _ _ _ _ _ F F2).
  Qed.
End Nodit.
