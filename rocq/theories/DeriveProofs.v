(** * DeriveProofs: clones of whole maps (C117). *)
From Coq Require Import List ZArith Bool Lia.
From Verif Require Import Base BTree UtilsModel IntervalModel NoditModel NoditOps NoditSetModel NoditSetOps ZosditModel ZosditOps GqditModel EqModel CloneModel CloneOps DeriveModel
  Spec NoditNatural NoditSetFacts ZosditFacts CloneFacts CloneZosdit CloneZosditExact.
Import ListNotations.

Section Entries.
  Context {K W : Type} (kclone : W -> K -> K * W).
  Hypothesis keys : forall w k, kclone w k = (k, w).
  Context {X : Type} (xclone : W -> X -> X * W).

  Lemma bt_clone_keys (l : BTreeMap K X) : forall w, map fst (fst (bt_clone kclone xclone w l)) = map fst l.
  Proof.
    induction l as [|[k x] l IH]; intros w; [reflexivity|]. cbn [bt_clone]. rewrite keys. destruct (xclone w x) as [x' w1].
    specialize (IH w1). destruct (bt_clone kclone xclone w1 l) as [l' w2]. cbn in *. rewrite IH. reflexivity.
  Qed.
  Lemma bt_clone_values (l : BTreeMap K X) : forall w,
    (map snd (fst (bt_clone kclone xclone w l)), snd (bt_clone kclone xclone w l)) = clone_all xclone w (map snd l).
  Proof.
    induction l as [|[k x] l IH]; intros w; [reflexivity|]. cbn [bt_clone map clone_all snd]. rewrite keys. destruct (xclone w x) as [x' w1].
    specialize (IH w1). destruct (bt_clone kclone xclone w1 l) as [l' w2]. cbn [fst snd] in *. rewrite <- IH. reflexivity.
  Qed.
  Lemma bt_clone_obs {Y} (g : X -> Y) (l : BTreeMap K X) : (forall w x, g (fst (xclone w x)) = g x) -> forall w,
    mapv g (fst (bt_clone kclone xclone w l)) = mapv g l.
  Proof.
    intros Hg. induction l as [|[k x] l IH]; intros w; [reflexivity|]. cbn [bt_clone]. rewrite keys. pose proof (Hg w x) as E. destruct (xclone w x) as [x' w1].
    specialize (IH w1). destruct (bt_clone kclone xclone w1 l) as [l' w2]. cbn [fst] in *. change (mapv g ((k, x') :: l')) with ((k, g x') :: mapv g l').
    change (mapv g ((k, x) :: l)) with ((k, g x) :: mapv g l). rewrite IH, E. reflexivity.
  Qed.
  Lemma bt_clone_faithful (l : BTreeMap K X) : (forall w x, fst (xclone w x) = x) -> forall w, fst (bt_clone kclone xclone w l) = l.
  Proof.
    intros Hg. induction l as [|[k x] l IH]; intros w; [reflexivity|]. cbn [bt_clone]. rewrite keys. pose proof (Hg w x) as E. destruct (xclone w x) as [x' w1].
    specialize (IH w1). destruct (bt_clone kclone xclone w1 l) as [l' w2]. cbn [fst] in *. rewrite IH, E. reflexivity.
  Qed.
  Lemma bt_clone_eqb keq (xeq : X -> X -> bool) (l : BTreeMap K X) : (forall k, keq k k = true) -> (forall w x, xeq (fst (xclone w x)) x = true) ->
    forall w, bt_eqb keq xeq (fst (bt_clone kclone xclone w l)) l = true.
  Proof.
    intros Hk Hx. unfold bt_eqb. induction l as [|[k x] l IH]; intros w; [reflexivity|]. cbn [bt_clone]. rewrite keys. pose proof (Hx w x) as E. destruct (xclone w x) as [x' w1].
    specialize (IH w1). destruct (bt_clone kclone xclone w1 l) as [l' w2]. cbn [fst snd length Nat.eqb combine forallb] in *. rewrite E, Hk. cbn. exact IH.
  Qed.
End Entries.

Section Containers.
  Context {I : Type} {OI : Ord I} {DI : DiscreteFinite I}.
  Context {K : Type} {IK : InclusiveInterval I K}.
  Context {V D W : Type} (kclone : W -> K -> K * W) (vclone : W -> V -> V * W) (dclone : W -> D -> D * W).
  Hypothesis keys : forall w k, kclone w k = (k, w).

  Lemma clone_all_faithful {X} (xclone : W -> X -> X * W) : (forall w x, fst (xclone w x) = x) -> forall l w, fst (clone_all xclone w l) = l.
  Proof.
    intros Hx. induction l as [|x l IH]; intros w; [reflexivity|]. cbn [clone_all]. specialize (Hx w x). destruct (xclone w x) as [x' w1].
    specialize (IH w1). destruct (clone_all xclone w1 l). cbn [fst] in *. congruence.
  Qed.
  Lemma clone_all_eqb {X} (xclone : W -> X -> X * W) (xeq : X -> X -> bool) : (forall w x, xeq (fst (xclone w x)) x = true) ->
    forall w l, vec_eqb xeq (fst (clone_all xclone w l)) l = true.
  Proof.
    intros Hx w l. revert w. induction l as [|x l IH]; intros w; [reflexivity|]. cbn [clone_all]. specialize (Hx w x). destruct (xclone w x) as [x' w1].
    specialize (IH w1). destruct (clone_all xclone w1 l). cbn [fst vec_eqb] in *. rewrite Hx, IH. reflexivity.
  Qed.

  Lemma zclone_iter (z : ZosditMap K V) w :
    map fst (zosdit_iter (fst (zosdit_clone kclone vclone w z))) = map fst (zosdit_iter z) /\
    (map snd (zosdit_iter (fst (zosdit_clone kclone vclone w z))), snd (zosdit_clone kclone vclone w z)) = clone_all vclone w (map snd (zosdit_iter z)) /\
    zosdit_len (fst (zosdit_clone kclone vclone w z)) = zosdit_len z.
  Proof.
    unfold zosdit_clone, zosdit_iter. destruct z as [n l]. cbn [z_inner z_len].
    assert (G : forall w, map fst (flatten (fst (bt_clone kclone (clone_all vclone) w l))) = map fst (flatten l) /\
      (map snd (flatten (fst (bt_clone kclone (clone_all vclone) w l))), snd (bt_clone kclone (clone_all vclone) w l)) = clone_all vclone w (map snd (flatten l))).
    { induction l as [|[k vs] l IH]; intros u; [auto|]. cbn [bt_clone]. rewrite keys, map_snd_flatten_cons, clone_all_app.
      assert (L : length (fst (clone_all vclone u vs)) = length vs).
      { clear. revert u. induction vs as [|v vs IH]; intros u; [reflexivity|]. cbn [clone_all]. destruct (vclone u v) as [v' u1]. specialize (IH u1). destruct (clone_all vclone u1 vs). cbn in *. lia. }
      destruct (clone_all vclone u vs) as [vs' u1]. cbn [fst] in L. destruct (IH u1) as [IH1 IH2]. destruct (bt_clone kclone (clone_all vclone) u1 l) as [l' u2]. cbn [fst snd] in *. split.
      - rewrite !flatten_cons, !map_app, !map_map, IH1. cbn. f_equal. clear - L. revert vs' L. induction vs as [|v vs IH]; intros [|v' vs'] L; try discriminate; [reflexivity|]. cbn. f_equal. apply IH. cbn in L. lia.
      - rewrite map_snd_flatten_cons, <- IH2. reflexivity. }
    destruct (G w) as [G1 G2]. destruct (bt_clone kclone (clone_all vclone) w l) as [l' u]. cbn [fst snd z_inner z_len] in *. repeat split; assumption.
  Qed.
  Lemma zclone_obs {X} (g : V -> X) (z : ZosditMap K V) w : (forall w v, g (fst (vclone w v)) = g v) -> zmap g (fst (zosdit_clone kclone vclone w z)) = zmap g z.
  Proof.
    intros Hg. unfold zosdit_clone. pose proof (bt_clone_obs kclone keys (clone_all vclone) (map g) (z_inner z) (fun w vs => clone_all_obs g vclone Hg vs w) w) as E.
    destruct (bt_clone kclone (clone_all vclone) w (z_inner z)) as [l' u]. unfold zmap. cbn [fst z_len z_inner] in *. rewrite E. reflexivity.
  Qed.

  (** Calls on the clone and on the original agree so far as [g] can tell. *)
  Lemma fold_image {X} (g : V -> X) (os : list (op I K V)) os' : Forall2 (op_image g) os os' -> forall m m' : NoditMap K V, mapv g m = mapv g m' ->
    mapv g (fold_left step os m) = mapv g (fold_left step os m').
  Proof.
    intros HF. induction HF as [|o o' os os' Ho HF IH]; intros m m' E; [exact E|]. cbn [fold_left]. apply IH. rewrite <- !(step_image g _ o o' Ho), E. reflexivity.
  Qed.
  Lemma zfold_image {X} (g : V -> X) (os : list (zop I K V)) os' : Forall2 (zop_image g) os os' -> forall z z' : ZosditMap K V, zmap g z = zmap g z' ->
    zmap g (fold_left zstep os z) = zmap g (fold_left zstep os z').
  Proof.
    intros HF. induction HF as [|o o' os os' Ho HF IH]; intros z z' E; [exact E|]. cbn [fold_left]. apply IH.
    pose proof (zstep_w_obs g (id_clone (W := unit)) (fun _ _ => eq_refl) (z, tt) o o' Ho) as E1. pose proof (zstep_w_obs g (id_clone (W := unit)) (fun _ _ => eq_refl) (z', tt) o o' Ho) as E2.
    rewrite zstep_id in E1, E2. cbn [fst] in E1, E2. rewrite <- E1, <- E2, E. reflexivity.
  Qed.
End Containers.
Section Together.
  Context {I : Type} {OI : Ord I} {DI : DiscreteFinite I}.
  Context {K : Type} {IK : InclusiveInterval I K}.
  Context {V D W : Type} (kclone : W -> K -> K * W) (vclone : W -> V -> V * W) (dclone : W -> D -> D * W).
  Hypothesis keys : forall w k, kclone w k = (k, w).
  Lemma clone_faithful : (forall w v, fst (vclone w v) = v) -> forall w,
    (forall m, fst (nodit_clone kclone vclone w m) = m) /\ (forall z, fst (zosdit_clone kclone vclone w z) = z).
  Proof.
    intros F w. split; [intros m; apply (bt_clone_faithful kclone keys vclone m F)|]. intros [n l]. unfold zosdit_clone. cbn [z_inner z_len].
    pose proof (bt_clone_faithful kclone keys (clone_all vclone) l (fun w vs => clone_all_faithful vclone F vs w) w) as E.
    destruct (bt_clone kclone (clone_all vclone) w l) as [l' u]. cbn [fst] in *. rewrite E. reflexivity.
  Qed.
  Lemma bt_clone_copies {X} (xclone : W -> X -> X * W) : (forall w x, xclone w x = (x, w)) -> forall (l : BTreeMap K X) w, bt_clone kclone xclone w l = (l, w).
  Proof. intros F. induction l as [|[k x] l IH]; intros w; [reflexivity|]. cbn [bt_clone]. rewrite keys, F, IH. reflexivity. Qed.
  Lemma clone_set_gqdit : (forall w d, dclone w d = (d, w)) -> forall w,
    (forall s, set_clone kclone w s = (s, w)) /\ (forall g, gqdit_clone kclone dclone w g = (g, w)).
  Proof.
    intros F w. split; intros x; apply bt_clone_copies; [reflexivity|]. intros u l. revert u. induction l as [|d l IH]; intros u; [reflexivity|].
    cbn [clone_all]. rewrite F, IH. reflexivity.
  Qed.
  Lemma zclone_calls {X} (g : V -> X) w (z : ZosditMap K V) os os' : (forall w v, g (fst (vclone w v)) = g v) -> Forall2 (zop_image g) os os' ->
    let z1 := fold_left zstep os (fst (zosdit_clone kclone vclone w z)) in let z2 := fold_left zstep os z in
    map (image g) (zosdit_iter z1) = map (image g) (zosdit_iter z2) /\ zosdit_len z1 = zosdit_len z2.
  Proof.
    intros F HF. cbv zeta. pose proof (zfold_image g os os' HF _ _ (zclone_obs kclone vclone keys g z w F)) as E. unfold zosdit_iter, zosdit_len. rewrite <- !flatten_map. split.
    - exact (f_equal (fun z => flatten (z_inner z)) E).
    - exact (f_equal (fun z => z_len z) E).
  Qed.
  Lemma clone_equal keq (veq : V -> V -> bool) : (forall k, keq k k = true) -> (forall w v, veq (fst (vclone w v)) v = true) -> forall w,
    (forall m, nodit_eqb keq veq (fst (nodit_clone kclone vclone w m)) m = true) /\
    (forall z, zosdit_eqb keq veq (fst (zosdit_clone kclone vclone w z)) z = true).
  Proof.
    intros Hk Hv w. split; [intros m; exact (bt_clone_eqb kclone keys vclone keq veq m Hk Hv w)|]. intros [n l]. unfold zosdit_eqb, zosdit_clone. cbn [z_inner z_len].
    pose proof (bt_clone_eqb kclone keys (clone_all vclone) keq (vec_eqb veq) l Hk (fun w vs => clone_all_eqb vclone veq Hv w vs) w) as E.
    destruct (bt_clone kclone (clone_all vclone) w l) as [l' u]. cbn [fst z_inner z_len] in *. rewrite E, Nat.eqb_refl. reflexivity.
  Qed.
End Together.
