(** * PropsZosditWorld: programs that build, clone and compare ZosditMaps (C156). *)
From Coq Require Import List ZArith Bool Lia.
From Verif Require Import Base BTree UtilsModel IntervalModel NoditModel ZosditModel ZosditOps ZosditAbs Spec CompleteOps CompleteZosditOps ClientZosditOps ZosditWorldOps
  InstancesModel Instances PointFacts IntervalFacts ListFacts ZosditFacts ZosditMut ZosditProofs ZosditOnce ZosditSim CompleteProofs EqModel EqFacts PropsEq PropsZosdit PropsCompleteZosdit PropsClient PropsClientZosdit PropsWorld.
Import ListNotations.
Open Scope nat_scope.

Section Props.
  Context {I : Type} `{PL : PointLaws I}.
  Context {K : Type} {IK : InclusiveInterval I K} {IL : IntervalLaws I K} {V : Type}.
  Context (DP : determined_by_points I K).
  Implicit Types (z : ZosditMap K V) (c : zcall I K V).
  Notation impl := (zosdits (I := I) (K := K) (V := V)).

  Lemma zassign_same {X} (f : nat -> X) x a : zassign f x a x = a.
  Proof. unfold zassign. rewrite Nat.eqb_refl. reflexivity. Qed.
  Lemma zassign_other {X} (f : nat -> X) x y a : x <> y -> zassign f x a y = f y.
  Proof. intros N. unfold zassign. destruct (Nat.eqb_spec x y); [contradiction|reflexivity]. Qed.

  (** A state that reads like [z]. *)
  Definition like {S} (e : S -> list (K * V)) (r : S -> nat) (once : bool) (s : S) z : Prop :=
    okz once z /\ e s = zosdit_iter z /\ zosdit_len z = length (zosdit_iter z) + r s.
  Lemma built_okz l z : from_iter_strict_back l = Val (Ok z) -> okz true z /\ zosdit_len z = length (zosdit_iter z) + 0.
  Proof.
    intros E. assert (R : z = zrun [ZFromIter l]) by (cbn; rewrite E; reflexivity).
    assert (Rz : zreachable (I := I) z) by (exists [ZFromIter l]; exact R). split; [split; [exact Rz|]|].
    - intros _. apply stored_once_ZD; [apply zreachable_ZWF, Rz|]. rewrite R. apply zrun_ZD. constructor; [exact Logic.I|constructor].
    - rewrite R at 1. rewrite removed_len, <- R. unfold removed. cbn. rewrite E. reflexivity.
  Qed.
  Lemma like_step S (e : S -> list (K * V)) r once once' c (s s' : S) a z :
    like e r once s z -> settled once c -> zdocumented c (e s) (r s) (e s') (r s') a ->
    (once' = true -> once = true /\ ~ match c with ZCallCut q => valid q /\ cut_reaches q (zosdit_iter z) /\ leaves_twin q (zosdit_iter z) | _ => False end) ->
    like e r once' s' (fst (zperform c z)) /\ a = snd (zperform c z).
  Proof.
    intros (Ok & E & L) Se Doc Tw. rewrite E in Doc. apply (zperform_iff DP once c z) in Doc; [|assumption..].
    destruct Doc as [Doc L']. unfold seen in Doc. injection Doc as E' ->. split; [|reflexivity].
    split; [apply (okz_step once); assumption|]. split; [exact E'|]. rewrite <- E'. exact L'.
  Qed.

  Lemma wexecute_same (i j : impl) ei ri ej rj : zosdits_as_described i ei ri -> zosdits_as_described j ej rj ->
    forall R (p : zprogram R) b f f', (forall x, woccurs i ei (b x) (f x)) -> (forall x, woccurs j ej (b x) (f' x)) ->
    (forall x, exists z, like ei ri (b x) (f x) z /\ like ej rj (b x) (f' x) z) ->
    wcareful i ei ri b f p -> wexecute i f p = wexecute j f' p.
  Proof.
    intros ((Si & Ni) & Bi & Di & Ci & Qi) ((Sj & Nj) & Bj & Dj & Cj & Qj) R p.
    induction p as [r|x next IH|x l next IH|x c next IH|x y next IH|x y next IH]; intros b f f' Of Of' E Ca; cbn [wexecute wcareful] in *.
    - reflexivity.
    - apply (IH (zassign b x true)); [| | |exact Ca]; intros y; unfold zassign; destruct (Nat.eqb x y); auto using woccurs_start.
      exists z_new. split; (split; [apply new_okz|]); [rewrite Si, Ni|rewrite Sj, Nj]; (split; reflexivity).
    - destruct (Bi l) as [Xi Zi], (Bj l) as [Xj Zj]. apply (proj1 (C129_bulk_constructors DP l)) in Xi, Xj.
      destruct (w_build i l) as [[s|v]|] eqn:Ei, (w_build j l) as [[t|w]|] eqn:Ej; destruct (from_iter_strict_back l) as [[z|u]|] eqn:Em; cbn in Xi, Xj; try discriminate; cbn [zassign_built worked] in *.
      + injection Xi as Xi. injection Xj as Xj. destruct (built_okz l z Em) as [Ok L].
        apply (IH _ (zassign b x true)); [| | |exact Ca]; intros y; unfold zassign; destruct (Nat.eqb x y); auto.
        * exact (woccurs_built i ei l s Ei).
        * exact (woccurs_built j ej l t Ej).
        * exists z. split; (split; [exact Ok|]); (split; [assumption|]); [rewrite (Zi s eq_refl)|rewrite (Zj t eq_refl)]; exact L.
      + injection Xi as ->. injection Xj as ->. apply (IH _ b); assumption.
      + apply (IH _ b); assumption.
    - destruct Ca as (Se & o & Tw & Ca). destruct (E x) as (z & Ls & Lt).
      assert (Tz : o = true -> b x = true /\ ~ match c with ZCallCut q => valid q /\ cut_reaches q (zosdit_iter z) /\ leaves_twin q (zosdit_iter z) | _ => False end).
      { intros X. destruct (Tw X) as [X1 X2]. split; [exact X1|]. intros Y. apply X2. destruct c; try exact Y. cbn [makes_twin]. rewrite (proj1 (proj2 Ls)). exact Y. }
      assert (Tw' : o = true -> b x = true /\ ~ makes_twin (w_methods j) ej c (f' x)).
      { intros X. destruct (Tz X) as [X1 X2]. split; [exact X1|]. intros Y. apply X2. destruct c; try exact Y. cbn [makes_twin] in Y. rewrite (proj1 (proj2 Lt)) in Y. exact Y. }
      pose proof (Di (b x) (f x) c (Of x) Se) as Hi. pose proof (Dj (b x) (f' x) c (Of' x) Se) as Hj.
      pose proof (woccurs_after i ei (b x) o (f x) c (Of x) Se Tw) as Os. pose proof (woccurs_after j ej (b x) o (f' x) c (Of' x) Se Tw') as Ot.
      destruct (w_does i c (f x)) as [s a], (w_does j c (f' x)) as [t a']. cbn [fst snd] in *.
      destruct (like_step _ ei ri (b x) o c (f x) s a z Ls Se Hi Tz) as [Ls' ->]. destruct (like_step _ ej rj (b x) o c (f' x) t a' z Lt Se Hj Tz) as [Lt' ->].
      apply (IH _ (zassign b x o)); [| | |exact Ca]; intros y; unfold zassign; destruct (Nat.eqb x y); eauto.
    - destruct (Ci (b y) (f y) (Of y)) as [X1 X2], (Cj (b y) (f' y) (Of' y)) as [Y1 Y2].
      apply (IH (zassign b x (b y))); [| | |exact Ca]; intros w; unfold zassign; destruct (Nat.eqb x w); auto using woccurs_copy.
      destruct (E y) as (z & Ls & Lt). exists z. unfold like in *. rewrite X1, X2, Y1, Y2. auto.
    - destruct Ca as [Se Ca]. assert (S : w_same i (f x) (f y) = w_same j (f' x) (f' y)); [|rewrite <- S; apply (IH _ b); assumption].
      destruct (E x) as (z & (_ & A1 & A2) & (_ & A3 & A4)), (E y) as (z' & (_ & B1 & B2) & (_ & B3 & B4)).
      destruct (Qi _ _ _ _ (Of x) (Of y)) as [U1 U2], (Qj _ _ _ _ (Of' x) (Of' y)) as [W1 W2].
      assert (EQ : ei (f x) = ei (f y) /\ ri (f x) = ri (f y) <-> ej (f' x) = ej (f' y) /\ rj (f' x) = rj (f' y)).
      { rewrite A1, A3, B1, B3. split; intros [Z1 Z2]; (split; [exact Z1|]); rewrite Z1 in *; lia. }
      apply eq_true_iff_eq. destruct Se as [[Z1 Z2]|N].
      + split; intros Z; [apply U1 in Z; apply EQ in Z; apply W2|apply W1 in Z; apply EQ in Z; apply U2]; try assumption; apply Z.
      + split; intros Z; exfalso; apply N; [apply U1, Z|apply EQ, W1, Z].
  Qed.

  (** ** The model *)
  Context (keq : K -> K -> bool) (veq : V -> V -> bool) (KE : forall k k', keq k k' = true <-> k = k') (VE : forall v v', veq v v' = true <-> v = v').
  Notation M := (model_zosdits (I := I) (K := K) (V := V) keq veq).
  Lemma woccurs_okz once z : woccurs M zosdit_iter once z -> okz once z.
  Proof.
    induction 1 as [|l s E|once once' s c Os IH Se Tw|once s Os IH].
    - apply new_okz.
    - apply (built_okz l s E).
    - apply (okz_step once once' c s IH). intros X. destruct (Tw X) as [X1 X2]. split; [exact X1|]. intros Y. apply X2. destruct c; exact Y.
    - exact IH.
  Qed.
  Lemma okz_same once once' z z' : okz once z -> okz once' z' ->
    (zosdit_eqb keq veq z z' = true -> zosdit_iter z = zosdit_iter z' /\ excess z = excess z') /\
    (once = true -> once' = true -> zosdit_iter z = zosdit_iter z' -> excess z = excess z' -> zosdit_eqb keq veq z z' = true).
  Proof.
    intros [R O] [R' O']. split.
    - intros E. apply (C82_equal_maps_have_equal_entries_partial keq veq z z' KE VE) in E. destruct E as [E1 E2]. unfold excess. rewrite E1, E2. auto.
    - intros T T' E X. apply (C82_zosdit_equality_stored_once_partial keq veq z z' KE VE R R' (O T) (O' T')). split; [exact E|].
      pose proof (excess_len z R). pose proof (excess_len z' R'). rewrite E, X in *. lia.
  Qed.
  Lemma model_described : zosdits_as_described M zosdit_iter excess.
  Proof.
    split; [split; reflexivity|]. split; [|split; [|split]].
    - intros l. split; [apply (C129_bulk_constructors DP l); reflexivity|]. intros s E. destruct (built_okz l s E) as [_ L]. unfold excess. lia.
    - intros once s c Os Se. pose proof (woccurs_okz once s Os) as Ok. pose proof (excess_len s (proj1 Ok)) as En.
      apply (zperform_iff DP once c s _ _ _ _ Ok Se En). split; [unfold seen; change (w_does M c s) with (zperform c s); destruct (zperform c s); reflexivity|].
      apply (excess_len (fst (zperform c s))). apply (okz_step once false c s Ok). discriminate.
    - intros once s _. split; reflexivity.
    - intros once once' s t Os Ot. apply okz_same; apply woccurs_okz; assumption.
  Qed.

  (** ** The converse *)
  Notation mcareful := (wcareful M zosdit_iter excess).
  Definition puts (i : impl) (x : nat) (s : w_state i) (T : forall R, zprogram R -> zprogram R) : Prop :=
    forall R (p : zprogram R) f, exists f', f' x = s /\ (forall y, y < x -> f' y = f y) /\ wexecute i f (T R p) = wexecute i f' p.
  Definition mputs (x : nat) (once : bool) z (T : forall R, zprogram R -> zprogram R) : Prop :=
    forall R (p : zprogram R) b (f : nat -> ZosditMap K V), exists b' f', b' x = once /\ f' x = z /\ (forall y, y < x -> b' y = b y /\ f' y = f y) /\
      wexecute M f (T R p) = wexecute M f' p /\ (mcareful b' f' p -> mcareful b f (T R p)).
  Context (i : impl) (X : forall R (p : zprogram R), mcareful (fun _ => true) (fun _ => w_start M) p -> wrun i p = wrun M p).
  Implicit Types s t : w_state i.
  (** A program puts [s] into a variable of the implementation and [z] into one of the model. *)
  Definition pair once s z : Prop := forall x, exists T, puts i x s T /\ mputs x once z T.

  Lemma pair_run once s z R (p : zprogram R) : pair once s z -> (forall b f', b 0 = once -> f' 0 = z -> mcareful b f' p) ->
    exists f f', f 0 = s /\ f' 0 = z /\ wexecute i f p = wexecute M f' p.
  Proof.
    intros P Ca. destruct (P 0) as (T & H1 & H2). destruct (H1 R p (fun _ => w_start i)) as (f & E1 & _ & E2).
    destruct (H2 R p (fun _ => true) (fun _ => w_start M)) as (b & f' & B & E1' & _ & E2' & C). exists f, f'. split; [exact E1|]. split; [exact E1'|].
    rewrite <- E2, <- E2'. apply X, C, Ca; assumption.
  Qed.
  Lemma pair_run2 once s z once' t z' R (p : zprogram R) : pair once s z -> pair once' t z' ->
    (forall b f', b 0 = once -> f' 0 = z -> b 1 = once' -> f' 1 = z' -> mcareful b f' p) ->
    exists f f', f 0 = s /\ f' 0 = z /\ f 1 = t /\ f' 1 = z' /\ wexecute i f p = wexecute M f' p.
  Proof.
    intros P P2 Ca. destruct (P2 1) as (T & H1 & H2). destruct (P 0) as (T0 & H3 & H4).
    destruct (H3 R (T R p) (fun _ => w_start i)) as (f & E1 & _ & E2). destruct (H4 R (T R p) (fun _ => true) (fun _ => w_start M)) as (b & f' & B & E1' & _ & E2' & C).
    destruct (H1 R p f) as (f1 & F1 & F2 & F3). destruct (H2 R p b f') as (b1 & f1' & B1 & F1' & F2' & F3' & C').
    destruct (F2' 0 ltac:(lia)) as [G1 G2]. exists f1, f1'. rewrite F2, G2 by lia. do 4 (split; [assumption|]). rewrite <- F3, <- F3', <- E2, <- E2'.
    apply X, C, C', Ca; congruence.
  Qed.
  Lemma pair_ask once s z c : pair once s z -> settled once c -> snd (w_does i c s) = snd (zperform c z).
  Proof.
    intros P Se. destruct (pair_run once s z _ (WCall _ 0 c (fun a => WStop _ a)) P) as (f & f' & E & E' & Z).
    - intros b f' E E'. cbn [wcareful]. rewrite E. split; [exact Se|]. exists false. split; [discriminate|exact Logic.I].
    - cbn [wexecute] in Z. rewrite E, E' in Z. change (w_does M c z) with (zperform c z) in Z. destruct (w_does i c s), (zperform c z). exact Z.
  Qed.
  Lemma build_same l : worked (w_build i l) = worked (from_iter_strict_back l).
  Proof. exact (X _ (WBuild _ 0 l (fun a => WStop _ a)) Logic.I). Qed.
  Lemma pair_same once s z once' t z' : pair once s z -> pair once' t z' ->
    ((once = true /\ once' = true) \/ ~ (zosdit_iter z = zosdit_iter z' /\ excess z = excess z')) -> w_same i s t = zosdit_eqb keq veq z z'.
  Proof.
    intros P P2 Se. destruct (pair_run2 once s z once' t z' _ (WSame _ 0 1 (fun a => WStop _ a)) P P2) as (f & f' & E0 & E0' & E1 & E1' & Z).
    - intros b f' E0 E0' E1 E1'. cbn [wcareful]. rewrite E0, E0', E1, E1'. split; [exact Se|exact Logic.I].
    - cbn [wexecute] in Z. rewrite E0, E0', E1, E1' in Z. exact Z.
  Qed.

  Lemma pair_new : pair true (w_start i) z_new.
  Proof.
    intros x. exists (fun R p => WNew R x p). split.
    - intros R p f. cbn [wexecute]. eexists. split; [|split; [|reflexivity]]; [apply zassign_same|]. intros y Hy. apply zassign_other. lia.
    - intros R p b f. cbn [wexecute wcareful]. exists (zassign b x true), (zassign f x z_new). rewrite !zassign_same. do 2 (split; [reflexivity|]).
      split; [intros y Hy; rewrite !zassign_other by lia; auto|]. split; [reflexivity|exact (fun C => C)].
  Qed.
  Lemma pair_built l s z : w_build i l = Val (Ok s) -> from_iter_strict_back l = Val (Ok z) -> pair true s z.
  Proof.
    intros Ei Em x. exists (fun R p => WBuild R x l (fun _ => p)). split.
    - intros R p f. cbn [wexecute]. rewrite Ei. cbn [zassign_built worked]. eexists. split; [|split; [|reflexivity]]; [apply zassign_same|]. intros y Hy. apply zassign_other. lia.
    - intros R p b f. cbn [wexecute wcareful]. change (w_build M l) with (from_iter_strict_back l). rewrite Em. cbn [zassign_built worked].
      exists (zassign b x true), (zassign f x z). rewrite !zassign_same. do 2 (split; [reflexivity|]).
      split; [intros y Hy; rewrite !zassign_other by lia; auto|]. split; [reflexivity|exact (fun C => C)].
  Qed.
  Lemma pair_after once once' s z c : pair once s z -> settled once c -> (once' = true -> once = true /\ ~ makes_twin (w_methods M) zosdit_iter c z) ->
    pair once' (fst (w_does i c s)) (fst (zperform c z)).
  Proof.
    intros P Se Tw x. destruct (P x) as (T & H1 & H2). exists (fun R p => T R (WCall R x c (fun _ => p))). split.
    - intros R p f. destruct (H1 R (WCall R x c (fun _ => p)) f) as (f1 & E1 & L1 & ->). cbn [wexecute]. rewrite E1.
      destruct (w_does i c s) as [u a]. cbn [fst]. eexists. split; [|split; [|reflexivity]]; [apply zassign_same|].
      intros y Hy. rewrite zassign_other by lia. apply L1, Hy.
    - intros R p b f. destruct (H2 R (WCall R x c (fun _ => p)) b f) as (b1 & f1 & B1 & E1 & L1 & -> & C1). cbn [wexecute wcareful] in *. rewrite E1, B1 in *.
      change (w_does M c z) with (zperform c z) in *. exists (zassign b1 x once'), (zassign f1 x (fst (zperform c z))). rewrite !zassign_same.
      do 2 (split; [reflexivity|]). split; [intros y Hy; rewrite !zassign_other by lia; apply L1, Hy|].
      split; [destruct (zperform c z); reflexivity|]. intros C. apply C1. split; [exact Se|]. exists once'. split; [exact Tw|exact C].
  Qed.
  Lemma pair_copy once s z : pair once s z -> pair once (w_copy i s) z.
  Proof.
    intros P x. destruct (P x) as (T & H1 & H2). exists (fun R p => T R (WCopy R x x p)). split.
    - intros R p f. destruct (H1 R (WCopy R x x p) f) as (f1 & E1 & L1 & ->). cbn [wexecute]. rewrite E1.
      eexists. split; [|split; [|reflexivity]]; [apply zassign_same|]. intros y Hy. rewrite zassign_other by lia. apply L1, Hy.
    - intros R p b f. destruct (H2 R (WCopy R x x p) b f) as (b1 & f1 & B1 & E1 & L1 & -> & C1). cbn [wexecute wcareful] in *. rewrite E1, B1 in *.
      exists (zassign b1 x once), (zassign f1 x z). rewrite !zassign_same.
      do 2 (split; [reflexivity|]). split; [intros y Hy; rewrite !zassign_other by lia; apply L1, Hy|].
      split; [reflexivity|exact C1].
  Qed.
  Lemma pair_entries once s z : pair once s z -> asked_entries i s = zosdit_iter z.
  Proof. intros P. exact (pair_ask once s z ZCallIter P Logic.I). Qed.
  Lemma pair_removed once s z : pair once s z -> asked_removed i s = excess z.
  Proof. intros P. unfold asked_removed. rewrite (pair_entries once s z P), (pair_ask once s z ZCallLen P Logic.I). reflexivity. Qed.
  Lemma occurs_pair once s : woccurs i (asked_entries i) once s -> exists z, okz once z /\ pair once s z.
  Proof.
    intros O. cut (exists z, woccurs M zosdit_iter once z /\ pair once s z); [intros (z & Oz & P); exists z; split; [apply woccurs_okz, Oz|exact P]|].
    induction O as [|l s E|once once' s c _ (z & Oz & P) Se Tw|once s _ (z & Oz & P)].
    - exists z_new. split; [apply (woccurs_start M)|apply pair_new].
    - pose proof (build_same l) as W. rewrite E in W. destruct (from_iter_strict_back l) as [[z|]|] eqn:Em; try discriminate.
      exists z. split; [exact (woccurs_built M zosdit_iter l z Em)|apply (pair_built l); assumption].
    - assert (Tw' : once' = true -> once = true /\ ~ makes_twin (w_methods M) zosdit_iter c z).
      { intros T. destruct (Tw T) as [T1 T2]. split; [exact T1|]. intros Y. apply T2. destruct c; try exact Y. cbn [makes_twin] in *. rewrite (pair_entries once s z P). exact Y. }
      exists (fst (zperform c z)). split; [exact (woccurs_after M zosdit_iter once once' z c Oz Se Tw')|apply (pair_after once); assumption].
    - exists z. split; [exact Oz|apply pair_copy, P].
  Qed.
  Lemma entries_dec (l l' : list (K * V)) : l = l' \/ l <> l'.
  Proof.
    revert l'. induction l as [|[k v] l IH]; intros [|[k' v'] l']; try (right; discriminate); [left; reflexivity|].
    destruct (keq k k') eqn:Ek; [apply KE in Ek; subst k'|right; intros [= -> _ _]; rewrite (proj2 (KE k' k') eq_refl) in Ek; discriminate].
    destruct (veq v v') eqn:Ev; [apply VE in Ev; subst v'|right; intros [= -> _]; rewrite (proj2 (VE v' v') eq_refl) in Ev; discriminate].
    destruct (IH l') as [->|N]; [left; reflexivity|right; intros [= ->]; contradiction].
  Qed.
  Lemma only_described : zosdits_as_described i (asked_entries i) (asked_removed i).
  Proof.
    split; [|split; [|split; [|split]]].
    - rewrite (pair_entries _ _ _ pair_new), (pair_removed _ _ _ pair_new). split; reflexivity.
    - intros l. pose proof (build_same l) as W. destruct (w_build i l) as [[s|v]|] eqn:Ei, (from_iter_strict_back l) as [[z|w]|] eqn:Em; try discriminate.
      + pose proof (pair_built l s z Ei Em) as P. split.
        * apply (proj1 (C129_bulk_constructors DP l)). rewrite Em. cbn. rewrite (pair_entries _ _ _ P). reflexivity.
        * intros s' [= <-]. rewrite (pair_removed _ _ _ P). destruct (built_okz l z Em) as [_ L]. unfold excess. lia.
      + injection W as ->. split; [|discriminate]. apply (proj1 (C129_bulk_constructors DP l)). rewrite Em. reflexivity.
      + split; [|discriminate]. apply (proj1 (C129_bulk_constructors DP l)). rewrite Em. reflexivity.
    - intros once s c O Se. destruct (occurs_pair once s O) as (z & Ok & P).
      assert (P' : pair false (fst (w_does i c s)) (fst (zperform c z))) by (apply (pair_after once); [exact P|exact Se|discriminate]).
      rewrite (pair_entries _ _ _ P), (pair_removed _ _ _ P), (pair_entries _ _ _ P'), (pair_removed _ _ _ P'), (pair_ask once s z c P Se).
      apply (zperform_iff DP once c z _ _ _ _ Ok Se (excess_len z (proj1 Ok))). split; [unfold seen; destruct (zperform c z); reflexivity|].
      apply (excess_len (fst (zperform c z))). apply (okz_step once false c z Ok). discriminate.
    - intros once s O. destruct (occurs_pair once s O) as (z & Ok & P). pose proof (pair_copy _ _ _ P) as P'.
      rewrite (pair_entries _ _ _ P), (pair_removed _ _ _ P), (pair_entries _ _ _ P'), (pair_removed _ _ _ P'). auto.
    - intros once once' s t Os Ot. destruct (occurs_pair once s Os) as (z & Ok & P), (occurs_pair once' t Ot) as (z' & Ok' & P').
      rewrite (pair_entries _ _ _ P), (pair_removed _ _ _ P), (pair_entries _ _ _ P'), (pair_removed _ _ _ P').
      destruct (okz_same once once' z z' Ok Ok') as [S1 S2]. split.
      + assert (De : (zosdit_iter z = zosdit_iter z' /\ excess z = excess z') \/ ~ (zosdit_iter z = zosdit_iter z' /\ excess z = excess z')).
        { destruct (entries_dec (zosdit_iter z) (zosdit_iter z')), (Nat.eq_dec (excess z) (excess z')); tauto. }
        destruct De as [Y|N]; [intros _; exact Y|]. rewrite (pair_same once s z once' t z' P P' (or_intror N)). exact S1.
      + intros T T'. rewrite (pair_same once s z once' t z' P P' (or_introl (conj T T'))). apply S2; assumption.
  Qed.
End Props.

Section Theorems.
  Context {I : Type} `{PL : PointLaws I}.
  Context {K : Type} {IK : InclusiveInterval I K} {IL : IntervalLaws I K} {V : Type}.
  Context (keq : K -> K -> bool) (veq : V -> V -> bool).
  Notation impl := (zosdits (I := I) (K := K) (V := V)).

  (** ** C156 *)
  (** The modelled ZosditMaps are as described. *)
  Theorem C156_zosdits_as_described : determined_by_points I K ->
    (forall k k', keq k k' = true <-> k = k') -> (forall v v', veq v v' = true <-> v = v') ->
    zosdits_as_described (model_zosdits (I := I) keq veq) zosdit_iter (fun z => zosdit_len z - length (zosdit_iter z)).
  Proof. exact (fun DP KE VE => model_described DP keq veq KE VE). Qed.
  (** That determines what every careful program does. *)
  Theorem C156_indistinguishable : determined_by_points I K ->
    forall (i j : impl) ei ri ej rj, zosdits_as_described i ei ri -> zosdits_as_described j ej rj ->
    forall R (p : zprogram R), wcareful i ei ri (fun _ => true) (fun _ => w_start i) p -> wrun i p = wrun j p.
  Proof.
    intros DP i j ei ri ej rj Hi Hj R p Ca. apply (wexecute_same DP i j ei ri ej rj Hi Hj R p (fun _ => true)); try (intros x; constructor); [|exact Ca].
    intros x. exists z_new. destruct Hi as [[E1 E2] _], Hj as [[F1 F2] _]. split; (split; [apply new_okz|]); [rewrite E1, E2|rewrite F1, F2]; split; reflexivity.
  Qed.
  (** A program that never cuts is careful, whatever else it does. *)
  Theorem C156_never_cuts_careful : forall (i : impl) e r R (p : zprogram R), never_cuts p -> wcareful i e r (fun _ => true) (fun _ => w_start i) p.
  Proof.
    clear keq veq. intros i e r R p. cut (forall b f, (forall x, b x = true) -> never_cuts p -> wcareful i e r b f p); [intros X N; apply X; [reflexivity|exact N]|].
    assert (As : forall b x, (forall y, b y = true) -> forall y, zassign b x true y = true) by (intros b x B y; unfold zassign; destruct (Nat.eqb x y); auto).
    induction p as [a|x next IH|x l next IH|x c next IH|x y next IH|x y next IH]; intros b f B N; cbn [wcareful never_cuts] in *.
    - exact Logic.I.
    - apply IH; [apply As, B|exact N].
    - apply IH; [|apply N]. destruct (w_build i l) as [[s|v]|]; cbn [zassign_built]; [apply As, B|exact B|exact B].
    - split; [destruct c; try exact Logic.I; left; apply B|]. exists true. split; [intros _; split; [apply B|destruct c; tauto]|]. apply IH; [apply As, B|apply N].
    - rewrite B. apply IH; [apply As, B|exact N].
    - split; [left; auto|]. apply IH; [exact B|apply N].
  Qed.
  (** Conversely ZosditMaps that no careful program can tell from the modelled ones are as
      described, read through [iter] and [len]. *)
  Theorem C156_indistinguishable_only_if_described : determined_by_points I K ->
    (forall k k', keq k k' = true <-> k = k') -> (forall v v', veq v v' = true <-> v = v') ->
    forall i : impl,
    (forall R (p : zprogram R),
       wcareful (model_zosdits keq veq) zosdit_iter (fun z => zosdit_len z - length (zosdit_iter z)) (fun _ => true) (fun _ => z_new) p ->
       wrun i p = wrun (model_zosdits keq veq) p) ->
    zosdits_as_described i (asked_entries i) (asked_removed i).
  Proof. exact (fun DP KE VE i X => only_described DP keq veq KE VE i X). Qed.
End Theorems.

(** The hypotheses are met, non-trivially: ZosditMaps of another kind, each the list of the
    calls made so far, answering by replaying them and comparing what [iter] and [len] give, are
    as described; *)
Definition replayed : zosdits (I := u8) (K := Interval u8) (V := nat) :=
  {| w_methods := zreplaying;
     w_build := fun l =>
       match from_iter_strict_back l with
       | Val (Ok _) => Val (Ok [ZFromIter l])
       | Val (Err v) => Val (Err v)
       | Panic => Panic
       end;
     w_copy := fun s => s ++ [];
     w_same := fun s t : list (zop u8 (Interval u8) nat) =>
       bt_eqb ieq Nat.eqb (zosdit_iter (zrun s)) (zosdit_iter (zrun t)) && Nat.eqb (removed s) (removed t) |}.
Lemma replayed_described : zosdits_as_described replayed (fun s => zosdit_iter (zrun s)) (fun s => removed s).
Proof.
  assert (St : forall (s : list (zop u8 (Interval u8) nat)) c, zrun (fst (w_does replayed c s)) = fst (zperform c (zrun s))).
  { intros s c. change (w_does replayed c s) with (zdoes zreplaying c s). cbn [zdoes zreplaying fst]. rewrite zperform_step. destruct (is_op c) as [o|]; [|reflexivity]. unfold zrun. rewrite fold_left_app. reflexivity. }
  assert (Bu : forall l (s : list (zop u8 (Interval u8) nat)), w_build replayed l = Val (Ok s) -> s = [ZFromIter l] /\ exists z, from_iter_strict_back l = Val (Ok z) /\ zrun s = z).
  { intros l s. cbn [w_build replayed]. destruct (from_iter_strict_back l) as [[z|v]|] eqn:E; try discriminate. intros [= <-]. split; [reflexivity|]. exists z. split; [reflexivity|]. cbn. rewrite E. reflexivity. }
  assert (Oc : forall once s, woccurs replayed (fun s => zosdit_iter (zrun s)) once s -> okz once (zrun s)).
  { induction 1 as [|l s E|once once' s c Os IH Se Tw|once s Os IH].
    - apply new_okz.
    - destruct (Bu l s E) as (_ & z & E' & ->). apply (built_okz l z E').
    - rewrite St. apply (okz_step once once' c (zrun s) IH). intros X. destruct (Tw X) as [X1 X2]. split; [exact X1|]. intros Y. apply X2. destruct c; exact Y.
    - cbn [w_copy replayed]. rewrite app_nil_r. exact IH. }
  split; [split; reflexivity|]. split; [|split; [|split]].
  - intros l. split.
    + apply (proj1 (C129_bulk_constructors interval_determined l)). cbn [w_build replayed]. destruct (from_iter_strict_back l) as [[z|v]|] eqn:E; try reflexivity. cbn. rewrite E. reflexivity.
    + intros s E. destruct (Bu l s E) as (-> & z & E' & _). unfold removed. cbn. rewrite E'. reflexivity.
  - intros once s c Os Se. apply (zperform_iff interval_determined once c (zrun s)); [exact (Oc once s Os)|exact Se|apply C63_len_partial|].
    split; [unfold seen; rewrite St; reflexivity|]. rewrite <- St. apply C63_len_partial.
  - intros once s _. cbn [w_copy replayed]. rewrite app_nil_r. split; reflexivity.
  - intros once once' s t _ _. cbn [w_same replayed]. rewrite andb_true_iff, Nat.eqb_eq, (bt_eqb_eq ieq Nat.eqb); [|exact ieq_eq|exact Nat.eqb_eq]. auto.
Qed.
(** a program that builds, clones and compares: a value removed makes a difference, ... *)
Definition ex_zprogram : zprogram (I := u8) (K := Interval u8) (V := nat) (list bool * outcome (result unit nat) * list (Interval u8 * nat)) :=
  WBuild _ 0 [(4 --> 8 : Interval u8, 1); (8 --> 8 : Interval u8, 2); (8 --> 9 : Interval u8, 3)] (fun _ =>
  WBuild _ 1 [(8 --> 9 : Interval u8, 3); (7 --> 8 : Interval u8, 4); (8 --> 10 : Interval u8, 5)] (fun e =>
  WCall _ 1 (ZCallInsertStrictBack (8 --> 8 : Interval u8) 2) (fun _ =>
  WCall _ 1 (ZCallInsertStrictBack (4 --> 8 : Interval u8) 1) (fun _ =>
  WCall _ 1 (ZCallInsertStrictBack (8 --> 9 : Interval u8) 3) (fun _ =>
  WSame _ 0 1 (fun a =>
  WCopy _ 2 1 (
  WCall _ 1 (ZCallRemoveLastValueAtPoint '9) (fun _ =>
  WCall _ 1 (ZCallInsertStrictBack (8 --> 9 : Interval u8) 3) (fun _ =>
  WSame _ 0 1 (fun b =>
  WSame _ 0 2 (fun c =>
  WCall _ 1 ZCallIter (fun l => WStop _ ([a; b; c], e, l))))))))))))).
(** and one that is not careful: the maps are equal for the one and not for the other. *)
Definition ex_careless : zprogram (I := u8) (K := Interval u8) (V := nat) bool :=
  WBuild _ 0 [(0 --> 0 : Interval u8, 1); (0 --> 4 : Interval u8, 2)] (fun _ =>
  WCall _ 0 (ZCallCut (1 --> 3 : Interval u8)) (fun _ =>
  WBuild _ 1 [(0 --> 0 : Interval u8, 1); (0 --> 0 : Interval u8, 2); (4 --> 4 : Interval u8, 2)] (fun _ =>
  WSame _ 0 1 (fun a => WStop _ a)))).
Example C156_example : determined_by_points u8 (Interval u8) /\ (forall a b : Interval u8, ieq a b = true <-> a = b) /\
  zosdits_as_described replayed (fun s => zosdit_iter (zrun s)) (fun s => removed s) /\
  wcareful replayed (fun s => zosdit_iter (zrun s)) (fun s => removed s) (fun _ => true) (fun _ => w_start replayed) ex_zprogram /\
  wrun replayed ex_zprogram = wrun (model_zosdits ieq Nat.eqb) ex_zprogram /\
  wrun (model_zosdits ieq Nat.eqb) ex_zprogram =
    ([true; false; true], Val (Err 5), [(4 --> 8 : Interval u8, 1); (8 --> 8 : Interval u8, 2); (8 --> 9 : Interval u8, 3)]) /\
  wrun replayed ex_careless = true /\ wrun (model_zosdits ieq Nat.eqb) ex_careless = false.
Proof.
  assert (Ca : wcareful replayed (fun s => zosdit_iter (zrun s)) (fun s => removed s) (fun _ => true) (fun _ => w_start replayed) ex_zprogram).
  { apply C156_never_cuts_careful. cbn. repeat split; exact Logic.I. }
  split; [exact interval_determined|]. split; [exact ieq_eq|]. split; [exact replayed_described|]. split; [exact Ca|].
  split; [|split; [vm_compute; reflexivity|split; vm_compute; reflexivity]].
  exact (C156_indistinguishable interval_determined replayed (model_zosdits ieq Nat.eqb) _ _ _ _ replayed_described
    (C156_zosdits_as_described _ _ interval_determined ieq_eq Nat.eqb_eq) _ ex_zprogram Ca).
Qed.

Print Assumptions C156_zosdits_as_described.
Print Assumptions C156_indistinguishable.
Print Assumptions C156_never_cuts_careful.
Print Assumptions C156_indistinguishable_only_if_described.
