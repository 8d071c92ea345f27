(** * ZosditSim: ZosditMap histories refine sequences of entries. *)
From Coq Require Import List ZArith Bool Lia ZifyBool Sorting.Sorted.
From Verif Require Import Base BTree UtilsModel IntervalModel NoditModel ZosditModel ZosditOps ZosditAbs Spec
  PointFacts IntervalFacts ListFacts NoditFacts ZosditFacts ZosditMut ZosditProofs NoditSetProofs ZosditOnce.
Import ListNotations.
Open Scope Z_scope.

Section Sim.
  Context {I : Type} {OI : Ord I} {DI : DiscreteFinite I} {PL : PointLaws I}.
  Context {K : Type} {IK : InclusiveInterval I K} {IL : IntervalLaws I K}.
  Context {V : Type}.
  Implicit Types (z : ZosditMap K V) (L : list (K * V)).

  Lemma insert_places z k v : ZWF z -> ZD (z_inner z) -> valid k -> (forall e, In e (zosdit_iter z) -> zero_overlap (fst e) k) ->
    places k v (zosdit_iter z) (zosdit_iter (fst (insert_strict_back k v z))).
  Proof.
    intros Wf D Vk H. destruct (proj2 (insert_back_spec z k v Wf Vk) H) as (z' & l1 & k' & l2 & E & _ & E1 & E2 & S & _ & U & _ & N).
    rewrite E. cbn [fst]. exists l1, k', l2. repeat (split; [assumption|]). apply N. right. exact D.
  Qed.
  Lemma extend_places l : forall z z', ZWF z -> ZD (z_inner z) -> extend_strict_back l z = Val (Ok z') ->
    places_all l (zosdit_iter z) (zosdit_iter z').
  Proof.
    induction l as [|[k v] l IH]; intros z z' Wf D E.
    - injection E as <-. constructor.
    - cbn [extend_strict_back] in E.
      destruct (valid_dec k) as [Vk|N].
      2:{ exfalso. revert E. unfold insert_strict_back. rewrite iip_invalid by exact N. discriminate. }
      pose proof (insert_ZWF z k v Wf) as Wf'. pose proof (zstep_ZD z (ZInsertStrictBack k v) Wf D Logic.I) as D'. cbn [zstep] in D'.
      pose proof (insert_places z k v Wf D Vk) as P.
      destruct (insert_strict_back k v z) as [z1 [[u|]|]] eqn:Ei; try discriminate. cbn [fst] in *.
      econstructor; [|apply IH; eassumption]. apply P.
      intros e He. pose proof (proj1 (insert_back_spec z k v Wf Vk)) as R. rewrite Ei in R.
      pose proof (iter_okv z e Wf He) as Ve. apply valid_rk in Vk. apply zero_overlap_rk; [exact Ve|exact Vk|].
      destruct (Z_le_gt_dec (hi (fst e)) (lo k)) as [G1|G1]; [left; exact G1|]. destruct (Z_le_gt_dec (hi k) (lo (fst e))) as [G2|G2]; [right; exact G2|exfalso].
      assert (X : (z1, Val (Ok u)) = (z, Val (Err v))); [|discriminate]. apply R. intros F. specialize (F e He). apply zero_overlap_rk in F; [lia|exact Ve|exact Vk].
  Qed.

  Lemma last_split (P : K * V -> Prop) l1 l2 l3 l4 a b : l1 ++ a :: l2 = l3 ++ b :: l4 -> P a -> P b ->
    (forall e, In e l2 -> ~ P e) -> (forall e, In e l4 -> ~ P e) -> l1 = l3 /\ a = b /\ l2 = l4.
  Proof.
    revert l3. induction l1 as [|x l1 IH]; intros [|y l3] E Pa Pb N N'; cbn [app] in E.
    - injection E as -> ->. auto.
    - injection E as -> E. exfalso. apply (N b); [rewrite E; apply in_or_app; right; left; reflexivity|exact Pb].
    - injection E as -> E. exfalso. apply (N' a); [rewrite <- E; apply in_or_app; right; left; reflexivity|exact Pa].
    - injection E as -> E. destruct (IH l3 E Pa Pb N N') as (-> & -> & ->). auto.
  Qed.

  Lemma fills_sim z l l' : ZWF z -> (forall es, l' = map Some es <-> l = map Some es) ->
    fills l (zosdit_iter z) (zosdit_iter (match zosdit_deserialize l' with Val (Ok z') => z' | _ => z end)).
  Proof.
    intros Wf H. split.
    - intros es E O. apply H in E. destruct (proj2 (from_iter_Ok es) O) as (z' & Ez).
      rewrite (proj2 (deserialize_Ok_from_iter l' z') (ex_intro _ es (conj E Ez))).
      apply (extend_places es z_new z' new_ZWF new_ZD Ez).
    - intros N. destruct (zosdit_deserialize l') as [[z'|]|] eqn:E; try reflexivity. exfalso. apply N.
      apply deserialize_Ok_from_iter in E. destruct E as (es & -> & E). exists es. split; [apply H; reflexivity|]. apply from_iter_Ok. exists z'. exact E.
  Qed.
  Lemma step_sim z o : ZWF z -> ZD (z_inner z) -> zastep o (zosdit_iter z) (zosdit_iter (zstep z o)).
  Proof.
    intros Wf D. destruct o as [|k v|p|Q IQ q|l|l]; cbn [zstep zastep].
    - reflexivity.
    - split.
      + intros [Vk H]. apply insert_places; assumption.
      + intros N. destruct (valid_dec k) as [Vk|Nv].
        * rewrite (proj1 (insert_back_spec z k v Wf Vk)); [reflexivity|]. intros H. apply N. auto.
        * unfold insert_strict_back. rewrite iip_invalid by exact Nv. reflexivity.
    - split.
      + intros l1 e l2 E R C N. apply (point_reached_spec z p Wf) in R.
        destruct (remove_last_cases z p Wf) as [(l3 & l4 & k & w & z' & _ & E' & E1 & E2 & Hk & H2 & _)|(_ & _ & F)].
        * rewrite E'. cbn [fst]. change (flatten (z_inner z)) with (zosdit_iter z) in E1. rewrite E in E1.
          destruct (last_split (fun e => covers (fst e) p) l1 l2 l3 l4 e (k, w) E1 C) as (-> & _ & ->); [apply covers_rk, Hk|exact N| |exact E2].
          rewrite Forall_forall in H2. intros x Hx X. apply covers_rk in X. specialize (H2 x Hx). unfold elo in H2. lia.
        * exfalso. specialize (F R). rewrite Forall_forall in F. change (flatten (z_inner z)) with (zosdit_iter z) in F. apply (F e).
          -- rewrite E. apply in_or_app. right. left. reflexivity.
          -- apply covers_rk in C. exact C.
      + intros X. destruct (remove_last_cases z p Wf) as [(l3 & l4 & k & w & z' & _ & E' & E1 & E2 & Hk & H2 & _ & _ & _ & R)|(_ & E & _)].
        * exfalso. destruct X as [X|X]; [apply X, (point_reached_spec z p Wf), R|]. apply (X (k, w)); [|apply covers_rk, Hk].
          unfold zosdit_iter. rewrite E1. apply in_or_app. right. left. reflexivity.
        * rewrite E. reflexivity.
    - split.
      + intros [Vq C]. apply (cut_reaches_spec q z Wf Vq) in C. destruct (cut_done z q Wf Vq C) as (z' & out & E & _ & _ & X & _). rewrite E. exact X.
      + intros N. destruct (valid_dec q) as [Vq|Nv]; [|rewrite cut_invalid by exact Nv; reflexivity].
        rewrite (cut_not_done z q Wf Vq); [reflexivity|]. intros C. apply N. split; [exact Vq|]. apply (cut_reaches_spec q z Wf Vq), C.
    - assert (E : from_iter_strict_back l = match zosdit_deserialize (map Some l) with Val (Ok z') => Val (Ok z') | _ => from_iter_strict_back l end).
      { destruct (zosdit_deserialize (map Some l)) as [[z'|]|] eqn:E; try reflexivity. apply deserialize_Ok_from_iter in E. destruct E as (es & E & <-).
        f_equal. clear - E. revert es E. induction l as [|a l IH]; intros [|b es] E; try discriminate; [reflexivity|]. injection E as -> E. f_equal. apply IH, E. }
      assert (G : match from_iter_strict_back l with Val (Ok z') => z' | _ => z end = match zosdit_deserialize (map Some l) with Val (Ok z') => z' | _ => z end).
      { destruct (zosdit_deserialize (map Some l)) as [[z'|e]|] eqn:E'; [rewrite E; reflexivity|..];
        (destruct (from_iter_strict_back l) as [[z''|]|] eqn:E''; try reflexivity;
         assert (X : zosdit_deserialize (map Some l) = Val (Ok z'')) by (apply deserialize_Ok_from_iter; exists l; auto); congruence). }
      rewrite G. apply fills_sim; [exact Wf|tauto].
    - apply fills_sim; [exact Wf|tauto].
  Qed.

  Lemma run_sim (os : list (zop I K V)) : twinless os -> zarun os (zosdit_iter (zrun os)).
  Proof.
    induction os as [|o os IH] using rev_ind; intros T; [constructor|].
    assert (T' : twinless os).
    { intros os1 o' os2 E. apply (T os1 o' (os2 ++ [o])). rewrite E, <- app_assoc. reflexivity. }
    rewrite zrun_snoc. econstructor; [apply IH, T'|]. apply step_sim; [apply zrun_ZWF|]. apply (stored_once_ZD _ (zrun_ZWF os)), twinless_once, T'.
  Qed.

  (** ** What a history describes is determined *)
  Notation alike := (Forall2 same_entry).
  Lemma same_sym (a b : K) : same_points a b -> same_points b a.
  Proof. intros S p. symmetry. apply S. Qed.
  Lemma alike_in L M e : alike L M -> In e M -> exists e', In e' L /\ same_entry e' e.
  Proof.
    intros F. induction F as [|a b L M S F IH]; intros [].
    - subst. exists a. split; [left; reflexivity|exact S].
    - destruct (IH H) as (e' & He & S'). exists e'. split; [right; exact He|exact S'].
  Qed.
  Lemma alike_in_l L M e : alike L M -> In e L -> exists e', In e' M /\ same_entry e e'.
  Proof.
    intros F. induction F as [|a b L M S F IH]; intros [].
    - subst. exists b. split; [left; reflexivity|exact S].
    - destruct (IH H) as (e' & He & S'). exists e'. split; [right; exact He|exact S'].
  Qed.
  Lemma singular_same {A B} {IA : InclusiveInterval I A} {IB : InclusiveInterval I B} (a : A) (b : B) : same_points a b -> singular a -> singular b.
  Proof. intros S [(p & Hp) H]. split; [exists p; apply S, Hp|]. intros x y X Y. apply H; apply S; assumption. Qed.
  Lemma zero_same (a b k : K) : same_points a b -> zero_overlap a k -> zero_overlap b k.
  Proof.
    intros S (H1 & H2 & H3). split; [|split].
    - intros x y X1 X2 Y1 Y2. apply H1; try assumption; apply S; assumption.
    - intros [X (x & y & X1 & X2 & X3)]. apply H2. split; [apply (singular_same b a (same_sym a b S)), X|].
      exists x, y. split; [exact X1|]. split; [exact X2|]. intros p Hp. apply X3, S, Hp.
    - intros [X (x & y & X1 & X2 & X3)]. apply H3. split; [exact X|]. exists x, y. split; [apply S, X1|]. split; [apply S, X2|exact X3].
  Qed.
  Lemma all_zero_alike L M k : alike L M -> (forall e, In e L -> zero_overlap (fst e) k) <-> (forall e, In e M -> zero_overlap (fst e) k).
  Proof.
    intros F. split; intros H e He.
    - destruct (alike_in L M e F He) as (e' & He' & S & _). apply (zero_same (fst e') (fst e)); [exact S|apply H, He'].
    - destruct (alike_in_l L M e F He) as (e' & He' & S & _). apply (zero_same (fst e') (fst e)); [apply same_sym, S|apply H, He'].
  Qed.
  Lemma reached_alike L M p : alike L M -> point_reached L p <-> point_reached M p.
  Proof.
    intros F. split; (intros [(e & x & He & A & B & C)|H]; [left|right]).
    - destruct (alike_in_l L M e F He) as (e' & He' & S & _). exists e', x. split; [exact He'|]. split; [apply S, A|]. split; [apply S, B|exact C].
    - intros e x He X. destruct (alike_in L M e F He) as (e' & He' & S & _). apply (H e' x He'), S, X.
    - destruct (alike_in L M e F He) as (e' & He' & S & _). exists e', x. split; [exact He'|]. split; [apply S, A|]. split; [apply S, B|exact C].
    - intros e x He X. destruct (alike_in_l L M e F He) as (e' & He' & S & _). apply (H e' x He'), S, X.
  Qed.
  Lemma no_value_alike L M p : alike L M -> no_value M p -> no_value L p.
  Proof. intros F N e He X. destruct (alike_in_l L M e F He) as (e' & He' & S & _). apply (N e' He'), S, X. Qed.
  Lemma cut_reaches_alike {Q} {IQ : InclusiveInterval I Q} (q : Q) L M : alike L M -> cut_reaches q L <-> cut_reaches q M.
  Proof.
    intros F. split; (intros [(e & x & He & (p & A1 & A2) & B & C)|H]; [left|right]).
    - destruct (alike_in_l L M e F He) as (e' & He' & S & _). exists e', x. split; [exact He'|]. split; [exists p; split; [apply S, A1|exact A2]|]. split; [apply S, B|exact C].
    - intros e He X. destruct (alike_in L M e F He) as (e' & He' & S & _). apply (H e' He'). intros x y Hx Hy. apply X; [apply S, Hx|exact Hy].
    - destruct (alike_in L M e F He) as (e' & He' & S & _). exists e', x. split; [exact He'|]. split; [exists p; split; [apply S, A1|exact A2]|]. split; [apply S, B|exact C].
    - intros e He X. destruct (alike_in_l L M e F He) as (e' & He' & S & _). apply (H e' He'). intros x y Hx Hy. apply X; [apply S, Hx|exact Hy].
  Qed.

  Lemma places_det k v L M L' M' : alike L M -> places k v L L' -> places k v M M' -> alike L' M'.
  Proof.
    intros F (l1 & k1 & l2 & -> & -> & S1 & U1 & N1) (m1 & k2 & m2 & -> & -> & S2 & U2 & N2).
    assert (Sk : same_entry (k1, v) (k2, v)) by (split; [intros p; cbn [fst]; rewrite (S1 p); symmetry; apply S2|reflexivity]).
    revert m1 F U2. induction l1 as [|a l1 IH]; intros [|b m1] F U2; cbn [app] in *.
    - constructor; assumption.
    - exfalso. inversion F as [|x y l l' S F' E1 E2]; subst. apply (N1 x (or_introl eq_refl)). intros p r Hp Hr.
      apply (U2 b (or_introl eq_refl)); [apply S, Hp|exact Hr].
    - exfalso. inversion F as [|x y l l' S F' E1 E2]; subst. apply (N2 y (or_introl eq_refl)). intros p r Hp Hr.
      apply (U1 a (or_introl eq_refl)); [apply S, Hp|exact Hr].
    - inversion F as [|x y l l' S F' E1 E2]; subst. constructor; [exact S|]. apply IH; [|exact F'|]; intros e He; [apply U1|apply U2]; right; exact He.
  Qed.
  Lemma places_all_det es : forall L M L' M', alike L M -> places_all es L L' -> places_all es M M' -> alike L' M'.
  Proof.
    induction es as [|[k v] es IH]; intros L M L' M' F P Q.
    - inversion P; subst. inversion Q; subst. exact F.
    - inversion P; subst. inversion Q; subst. eapply IH; [|eassumption..]. eapply places_det; eassumption.
  Qed.
  Lemma overlap_dec {Q} {IQ : InclusiveInterval I Q} (k : K) (q : Q) : overlap k q \/ ~ overlap k q.
  Proof. rewrite overlap_rk. lia. Qed.
  Lemma leaves_det {Q} {IQ : InclusiveInterval I Q} (q : Q) (a b : K * V) (l m : list (K * V)) : same_entry a b -> leaves q a l -> leaves q b m -> alike l m.
  Proof.
    intros [S E] (R1 & V1 & _) (R2 & V2 & _).
    assert (F : Forall2 same_points (map fst l) (map fst m)).
    { apply (runs_unique (fun p => covers (fst a) p /\ ~ covers q p) (fun p => covers (fst b) p /\ ~ covers q p)); [|exact R1|exact R2].
      intros p. rewrite (S p). tauto. }
    clear R1 R2. revert m F V2. induction l as [|x l IH]; intros [|y m] F V2; cbn [map] in F; inversion F; subst; constructor.
    - split; [assumption|]. rewrite (V1 x (or_introl eq_refl)), (V2 y (or_introl eq_refl)). exact E.
    - apply IH; [intros e He; apply V1; right; exact He|assumption|intros e He; apply V2; right; exact He].
  Qed.
  Lemma leaves_all_det {Q} {IQ : InclusiveInterval I Q} (q : Q) L M ls ms : alike L M -> Forall2 (leaves q) L ls -> Forall2 (leaves q) M ms -> alike (concat ls) (concat ms).
  Proof.
    intros F. revert ls ms. induction F as [|a b L M S F IH]; intros ls ms P R; inversion P; subst; inversion R; subst; cbn [concat]; [constructor|].
    apply Forall2_app; [eapply leaves_det; eassumption|apply IH; assumption].
  Qed.
  Lemma findable_dec z p : findable z p \/ ~ findable z p.
  Proof.
    unfold findable.
    assert (D1 : forall e : K * V, {elo e <= rk p < ehi e} + {~ elo e <= rk p < ehi e}).
    { intros e. destruct (Z_le_gt_dec (elo e) (rk p)), (Z_lt_le_dec (rk p) (ehi e)); [left|right|right|right]; lia. }
    assert (D2 : forall e : K * V, {ehi e <= rk p} + {~ ehi e <= rk p}).
    { intros e. destruct (Z_le_gt_dec (ehi e) (rk p)); [left|right]; lia. }
    destruct (Exists_dec _ (flatten (z_inner z)) D1) as [E|E].
    - left. left. apply Exists_exists in E. exact E.
    - destruct (Forall_dec _ D2 (flatten (z_inner z))) as [F|F].
      + left. right. apply Forall_forall, F.
      + right. intros [X|X]; [apply E, Exists_exists, X|apply F, Forall_forall, X].
  Qed.

  Lemma fills_det l L M L' M' : alike L M -> fills l L L' -> fills l M M' ->
    (exists es, l = map Some es /\ zero_overlapping (map fst es)) \/ ~ (exists es, l = map Some es /\ zero_overlapping (map fst es)) -> alike L' M'.
  Proof.
    intros F [A B] [A' B'] [(es & E & O)|N].
    - apply (places_all_det es [] []); [constructor|apply A; assumption|apply A'; assumption].
    - rewrite (B N), (B' N). exact F.
  Qed.
  Lemma loads_dec (l : list (option (K * V))) : (exists es, l = map Some es /\ zero_overlapping (map fst es)) \/ ~ (exists es, l = map Some es /\ zero_overlapping (map fst es)).
  Proof.
    destruct (zosdit_deserialize l) as [[z|]|] eqn:E.
    1:{ left. apply deserialize_Ok_from_iter in E. destruct E as (es & E & X). exists es. split; [exact E|]. apply from_iter_Ok. exists z. exact X. }
    all: right; intros (es & El & O); apply from_iter_Ok in O; destruct O as (z & O);
      rewrite (proj2 (deserialize_Ok_from_iter l z) (ex_intro _ es (conj El O))) in E; discriminate.
  Qed.

  Lemma step_det z o L L' : ZWF z -> ZD (z_inner z) -> alike L (zosdit_iter z) -> zastep o L L' -> alike L' (zosdit_iter (zstep z o)).
  Proof.
    intros Wf D F St. pose proof (step_sim z o Wf D) as Sz. set (M := zosdit_iter z) in *. set (M' := zosdit_iter (zstep z o)) in *.
    destruct o as [|k v|p|Q IQ q|l|l]; cbn [zastep] in *.
    - rewrite St, Sz. constructor.
    - destruct St as [A B], Sz as [A' B'].
      assert (Dec : (valid k /\ forall e, In e M -> zero_overlap (fst e) k) \/ ~ (valid k /\ forall e, In e M -> zero_overlap (fst e) k)).
      { destruct (valid_dec k) as [Vk|N]; [|right; tauto]. destruct (zero_overlap_decides k z Wf Vk) as (b & _ & Hb). fold M in Hb.
        destruct b; [left; split; [exact Vk|apply Hb; reflexivity]|right; intros [_ X]; apply Hb in X; discriminate]. }
      pose proof (all_zero_alike L M k F) as Z.
      destruct Dec as [X|N].
      + apply (places_det k v L M); [exact F|apply A; tauto|apply A'; exact X].
      + rewrite B by tauto. rewrite B' by exact N. exact F.
    - destruct St as [A B], Sz as [A' B']. pose proof (reached_alike L M p F) as Z.
      destruct (remove_last_cases z p Wf) as [(l3 & l4 & k & w & z' & _ & E' & E1 & E2 & Hk & H2 & _ & _ & _ & R)|(_ & _ & N)].
      + apply (point_reached_spec z p Wf) in R. change (flatten (z_inner z)) with M in E1.
        assert (N4 : no_value l4 p).
        { rewrite Forall_forall in H2. intros x Hx X. apply covers_rk in X. specialize (H2 x Hx). unfold elo in H2. lia. }
        rewrite (A' l3 (k, w) l4 E1 R (proj2 (covers_rk k p) Hk) N4).
        rewrite E1 in F. apply Forall2_app_inv_r in F. destruct F as (l1 & l2' & F1 & F2 & ->).
        inversion F2 as [|e y l2 m S F2' X1 X2]; subst.
        rewrite (A l1 e l2); [apply Forall2_app; assumption|reflexivity|apply Z, R|apply S, covers_rk, Hk|apply (no_value_alike l2 l4 p F2' N4)].
      + assert (X : ~ point_reached M p \/ no_value M p).
        { destruct (findable_dec z p) as [Y|Y]; [right|left; intros G; apply Y, (point_reached_spec z p Wf), G].
          specialize (N Y). rewrite Forall_forall in N. intros e He G. apply (N e He). apply covers_rk in G. exact G. }
        rewrite B'; [|exact X]. rewrite B; [exact F|]. destruct X as [X|X]; [left; tauto|right; apply (no_value_alike L M p F X)].
    - destruct St as [A B], Sz as [A' B']. pose proof (cut_reaches_alike q L M F) as Z.
      assert (Dec : (valid q /\ cut_reaches q M) \/ ~ (valid q /\ cut_reaches q M)).
      { destruct (valid_dec q) as [Vq|N]; [|right; tauto]. unfold M. rewrite (cut_reaches_spec q z Wf Vq).
        destruct (cuttable_dec z q) as [X|X]; [left; auto|right; tauto]. }
      destruct Dec as [X|N].
      + destruct A as (ls & P & ->); [tauto|]. destruct A' as (ms & P' & ->); [exact X|]. apply (leaves_all_det q L M); assumption.
      + rewrite B by tauto. rewrite B' by exact N. exact F.
    - apply (fills_det (map Some l) L M L' M' F St Sz (loads_dec (map Some l))).
    - apply (fills_det l L M L' M' F St Sz (loads_dec l)).
  Qed.
  Lemma run_det (os : list (zop I K V)) : twinless os -> forall L, zarun os L -> alike L (zosdit_iter (zrun os)).
  Proof.
    induction os as [|o os IH] using rev_ind; intros T L R.
    - inversion R as [|os o L0 L1 R' S E]; [constructor|]. destruct os; discriminate.
    - assert (T' : twinless os).
      { intros os1 o' os2 E. apply (T os1 o' (os2 ++ [o])). rewrite E, <- app_assoc. reflexivity. }
      inversion R as [E|os' o' L0 L1 R' S E]; [destruct os; discriminate|]. apply app_inj_tail in E. destruct E as [-> ->].
      rewrite zrun_snoc. apply (step_det (zrun os) o L0 L); [apply zrun_ZWF| |apply IH; assumption|exact S].
      apply (stored_once_ZD _ (zrun_ZWF os)), twinless_once, T'.
  Qed.
End Sim.
