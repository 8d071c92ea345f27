(** * PropsEffectDerive: C167, the derived [Clone], [PartialEq] and [Hash], and [Gqdit]'s
      serde methods, with user code of any kind. *)
From Coq Require Import List ZArith Bool Arith Lia.
From Verif Require Import Base BTree UtilsModel IntervalModel NoditModel NoditSetModel NoditOps ZosditModel GqditModel GqditOps InstancesModel Instances Spec TreeShape
  NoditFacts NoditInv GqditFacts EqModel CloneModel DeriveModel EffectModel EffectOps EffectFacts EffectRight EffectGqditModel EffectBulkModel EffectCrashOps EffectTraceOps
  EffectTraceFacts EffectLazyFacts EffectDeriveModel EffectDeriveFacts LooksMoreFacts PropsGqdit PropsEffectCrash PropsEffectTrace PropsEffectBulk PropsEffectTraceMore.
Import ListNotations.
Open Scope nat_scope.

(** ** User code of any kind *)
Section Any.
  Context {W K V D : Type} (kclone : K -> user W K) (keq : K -> K -> user W bool) (vclone : V -> user W V) (veq : V -> V -> user W bool) (J : id_code W D).
  Implicit Types (w : W).
  Notation says eq b := (fun x y => returns (fun xy => eq (fst xy) (snd xy)) (x, y) b).
  (** The clone consists of what [clone] returned for the keys and values, in order; a
      panic is one of theirs. *)
  Theorem C167_any_clone : forall (m : NoditMap K V) w,
    match nodit_clone_e kclone vclone m w with
    | (Val m', _) => Forall2 (clones_entry kclone (returns vclone)) (iter m) (iter m')
    | (Panic, _) => exists e w, In e (iter m) /\ (fst (kclone (fst e) w) = Panic \/ fst (vclone (snd e) w) = Panic)
    end.
  Proof.
    intros m w. pose proof (bt_clone_any kclone vclone (returns vclone) (fun v => exists w, fst (vclone v w) = Panic)) as H.
    assert (HX : forall x w, match vclone x w with (Val x', _) => returns vclone x x' | (Panic, _) => exists w, fst (vclone x w) = Panic end).
    { intros x w0. destruct (vclone x w0) as [[x'|] w1] eqn:E; [exists w0, w1; exact E|exists w0; rewrite E; reflexivity]. }
    specialize (H HX m w). unfold nodit_clone_e. destruct (bt_clone_e kclone vclone m w) as [[m'|] w']; [exact H|].
    destruct H as (e & He & [(w0 & P)|(w0 & P)]); exists e, w0; (split; [exact He|]); [left|right]; exact P.
  Qed.
  Theorem C167_any_set_clone : forall (s : NoditSet K) w,
    match nodit_set_clone_e kclone s w with
    | (Val s', _) => Forall2 (returns kclone) (set_iter s) (set_iter s')
    | (Panic, _) => exists k w, In k (set_iter s) /\ fst (kclone k w) = Panic
    end.
  Proof.
    intros s w. pose proof (bt_clone_any kclone (uret (W := W) (A := unit)) (fun _ _ => True) (fun _ => False) (fun x w => Logic.I) s w) as H. unfold nodit_set_clone_e.
    destruct (bt_clone_e kclone uret s w) as [[s'|] w'].
    - unfold set_iter, iter. induction H as [|a b l l' [R _] _ IH]; constructor; [exact R|exact IH].
    - destruct H as (e & He & [(w0 & P)|[]]). exists (fst e), w0. split; [apply in_map, He|exact P].
  Qed.
  Theorem C167_any_zosdit_clone : forall (z : ZosditMap K V) w,
    match zosdit_clone_e kclone vclone z w with
    | (Val z', _) => Forall2 (clones_entry kclone (clones vclone)) (z_inner z) (z_inner z') /\ zosdit_len z' = zosdit_len z
    | (Panic, _) => exists k vs w, In (k, vs) (z_inner z) /\ (fst (kclone k w) = Panic \/ exists v, In v vs /\ fst (vclone v w) = Panic)
    end.
  Proof.
    intros z w. pose proof (bt_clone_any kclone (vec_clone_e vclone) (clones vclone) (fun vs => exists v w, In v vs /\ fst (vclone v w) = Panic) (fun x w => vec_clone_any vclone x w) (z_inner z) w) as H.
    unfold zosdit_clone_e, ubind. destruct (bt_clone_e kclone (vec_clone_e vclone) (z_inner z) w) as [[l|] w']; [split; [exact H|reflexivity]|].
    destruct H as ([k vs] & He & [(w0 & P)|(v & w0 & Hv & P)]); exists k, vs, w0; (split; [exact He|]); [left; exact P|right; exists v; split; assumption].
  Qed.
  Theorem C167_any_gqdit_clone : forall (g : Gqdit K D) w,
    match gqdit_clone_e kclone J g w with
    | (Val g', _) => Forall2 (clones_entry kclone (clones (i_clone J))) g g'
    | (Panic, _) => exists k s w, In (k, s) g /\ (fst (kclone k w) = Panic \/ exists d, In d s /\ fst (i_clone J d w) = Panic)
    end.
  Proof.
    intros g w. pose proof (bt_clone_any kclone (set_clone_e J) (clones (i_clone J)) (fun vs => exists v w, In v vs /\ fst (i_clone J v w) = Panic) (fun x w => vec_clone_any (i_clone J) x w) g w) as H.
    unfold gqdit_clone_e. destruct (bt_clone_e kclone (set_clone_e J) g w) as [[l|] w']; [exact H|].
    destruct H as ([k vs] & He & [(w0 & P)|(v & w0 & Hv & P)]); exists k, vs, w0; (split; [exact He|]); [left; exact P|right; exists v; split; assumption].
  Qed.
  (** [true] only if all corresponding keys and values were found equal, [false] only if two
      were found different or there are more on one side; a panic is one of theirs. *)
  Theorem C167_any_eq : forall (m m' : NoditMap K V) w,
    match nodit_eq_e keq veq m m' w with
    | (Val true, _) => Forall2 (fun e e' => says keq true (fst e) (fst e') /\ says veq true (snd e) (snd e')) (iter m) (iter m')
    | (Val false, _) => len m <> len m' \/ exists e e', In (e, e') (combine (iter m) (iter m')) /\ (says keq false (fst e) (fst e') \/ says veq false (snd e) (snd e'))
    | (Panic, _) => exists e e' w, In (e, e') (combine (iter m) (iter m')) /\ (fst (keq (fst e) (fst e') w) = Panic \/ fst (veq (snd e) (snd e') w) = Panic)
    end.
  Proof.
    intros m m' w. assert (HX : forall x y w, match veq x y w with (Val true, _) => says veq true x y | (Val false, _) => says veq false x y | (Panic, _) => exists w, fst (veq x y w) = Panic end).
    { intros x y w0. destruct (veq x y w0) as [[[]|] w1] eqn:E; [exists w0, w1; exact E|exists w0, w1; exact E|exists w0; rewrite E; reflexivity]. }
    pose proof (bt_eq_any keq veq _ _ _ HX m m' w) as H. unfold nodit_eq_e. destruct (bt_eq_e keq veq m m' w) as [[[]|] w']; [exact H|exact H|].
    destruct H as (a & b & Hi & [(w0 & P)|(w0 & P)]); exists a, b, w0; (split; [exact Hi|]); [left|right]; exact P.
  Qed.
  Theorem C167_any_zosdit_eq : forall (z z' : ZosditMap K V) w,
    match zosdit_eq_e keq veq z z' w with
    | (Val true, _) => zosdit_len z = zosdit_len z' /\ Forall2 (fun e e' => says keq true (fst e) (fst e') /\ Forall2 (says veq true) (snd e) (snd e')) (z_inner z) (z_inner z')
    | (Val false, _) => zosdit_len z <> zosdit_len z' \/ length (z_inner z) <> length (z_inner z') \/
        exists e e', In (e, e') (combine (z_inner z) (z_inner z')) /\
          (says keq false (fst e) (fst e') \/ length (snd e) <> length (snd e') \/ exists v v', In (v, v') (combine (snd e) (snd e')) /\ says veq false v v')
    | (Panic, _) => exists e e' w, In (e, e') (combine (z_inner z) (z_inner z')) /\
        (fst (keq (fst e) (fst e') w) = Panic \/ exists v v', In (v, v') (combine (snd e) (snd e')) /\ fst (veq v v' w) = Panic)
    end.
  Proof.
    intros z z' w. unfold zosdit_eq_e, zosdit_len. destruct (Nat.eqb_spec (z_len z) (z_len z')) as [L|L]; [|left; exact L].
    pose proof (bt_eq_any keq (vec_eq_e veq) _ _ _ (fun x y w => vec_eq_any veq x y w) (z_inner z) (z_inner z') w) as H.
    destruct (bt_eq_e keq (vec_eq_e veq) (z_inner z) (z_inner z') w) as [[[]|] w']; [split; [exact L|exact H]|right; exact H|].
    destruct H as (a & b & Hi & [(w0 & P)|(v & v' & w0 & Hv & P)]); exists a, b, w0; (split; [exact Hi|]); [left; exact P|right; exists v, v'; split; assumption].
  Qed.
  Theorem C167_any_set_eq : forall (s s' : NoditSet K) w,
    match nodit_set_eq_e keq s s' w with
    | (Val true, _) => Forall2 (says keq true) (set_iter s) (set_iter s')
    | (Val false, _) => length (set_iter s) <> length (set_iter s') \/ exists k k', In (k, k') (combine (set_iter s) (set_iter s')) /\ says keq false k k'
    | (Panic, _) => exists k k' w, In (k, k') (combine (set_iter s) (set_iter s')) /\ fst (keq k k' w) = Panic
    end.
  Proof.
    intros s s' w. pose proof (bt_eq_any keq (fun _ _ : unit => uret true) (fun _ _ => True) (fun _ _ => False) (fun _ _ => False) (fun _ _ _ => Logic.I) s s' w) as H. unfold nodit_set_eq_e.
    assert (C : forall a b, In (a, b) (combine s s') -> In (fst a, fst b) (combine (set_iter s) (set_iter s'))).
    { unfold set_iter, iter. clear H. revert s'. induction s as [|x s IH]; intros [|y s'] a b Hi; try destruct Hi as [Hi|Hi]; [destruct Hi..|injection Hi as -> ->; left; reflexivity|right; exact (IH s' a b Hi)]. }
    unfold set_iter, iter in *. rewrite !map_length. destruct (bt_eq_e keq (fun _ _ => uret true) s s' w) as [[[]|] w'].
    - clear C. induction H as [|a b l l' [R _] _ IH]; constructor; [exact R|exact IH].
    - destruct H as [N|(a & b & Hi & [R|[]])]; [left; exact N|right; exists (fst a), (fst b); split; [exact (C a b Hi)|exact R]].
    - destruct H as (a & b & Hi & [(w0 & R)|[]]). exists (fst a), (fst b), w0. split; [exact (C a b Hi)|exact R].
  Qed.
  Theorem C167_any_gqdit_eq : forall (g g' : Gqdit K D) w,
    match gqdit_eq_e keq J g g' w with
    | (Val true, _) => Forall2 (fun e e' => says keq true (fst e) (fst e') /\ Forall2 (says (i_eq J) true) (snd e) (snd e')) g g'
    | (Val false, _) => length g <> length g' \/ exists e e', In (e, e') (combine g g') /\
        (says keq false (fst e) (fst e') \/ length (snd e) <> length (snd e') \/ exists d d', In (d, d') (combine (snd e) (snd e')) /\ says (i_eq J) false d d')
    | (Panic, _) => exists e e' w, In (e, e') (combine g g') /\
        (fst (keq (fst e) (fst e') w) = Panic \/ exists d d', In (d, d') (combine (snd e) (snd e')) /\ fst (i_eq J d d' w) = Panic)
    end.
  Proof.
    intros g g' w. pose proof (bt_eq_any keq (set_eq_e J) _ _ _ (fun x y w => vec_eq_any (i_eq J) x y w) g g' w) as H. unfold gqdit_eq_e.
    destruct (bt_eq_e keq (set_eq_e J) g g' w) as [[[]|] w']; [exact H|exact H|].
    destruct H as (a & b & Hi & [(w0 & P)|(v & v' & w0 & Hv & P)]); exists a, b, w0; (split; [exact Hi|]); [left; exact P|right; exists v, v'; split; assumption].
  Qed.
  (** Nothing is asked about maps of different lengths. *)
  Theorem C167_different_lengths : forall w,
    (forall m m' : NoditMap K V, len m <> len m' -> nodit_eq_e keq veq m m' w = (Val false, w)) /\
    (forall s s' : NoditSet K, length (set_iter s) <> length (set_iter s') -> nodit_set_eq_e keq s s' w = (Val false, w)) /\
    (forall z z' : ZosditMap K V, zosdit_len z <> zosdit_len z' -> zosdit_eq_e keq veq z z' w = (Val false, w)) /\
    (forall g g' : Gqdit K D, length g <> length g' -> gqdit_eq_e keq J g g' w = (Val false, w)).
  Proof.
    intros w. unfold nodit_eq_e, nodit_set_eq_e, zosdit_eq_e, gqdit_eq_e, bt_eq_e, zosdit_len. split; [|split; [|split]].
    - intros m m' N. apply Nat.eqb_neq in N. unfold len in N. rewrite N. reflexivity.
    - intros s s' N. unfold set_iter, iter in N. rewrite !map_length in N. apply Nat.eqb_neq in N. rewrite N. reflexivity.
    - intros z z' N. apply Nat.eqb_neq in N. rewrite N. reflexivity.
    - intros g g' N. apply Nat.eqb_neq in N. rewrite (N : Nat.eqb (@length (K * list D) g) (@length (K * list D) g') = false). reflexivity.
  Qed.
  (** With code that does not panic the clones are those of C117. *)
  Theorem C167_clone_is_C117 : forall (kc : W -> K -> K * W) (vc : W -> V -> V * W) (dc : W -> D -> D * W) w,
    (forall m, nodit_clone_e (fun k w => calm (kc w k)) (fun v w => calm (vc w v)) m w = calm (nodit_clone kc vc w m)) /\
    (forall s, nodit_set_clone_e (fun k w => calm (kc w k)) s w = calm (set_clone kc w s)) /\
    (forall z, zosdit_clone_e (fun k w => calm (kc w k)) (fun v w => calm (vc w v)) z w = calm (zosdit_clone kc vc w z)) /\
    (i_clone J = (fun d w => calm (dc w d)) -> forall g, gqdit_clone_e (fun k w => calm (kc w k)) J g w = calm (gqdit_clone kc dc w g)).
  Proof. intros kc vc dc w. exact (clone_runs J kc vc dc w). Qed.
End Any.

(** ** Right answers, and right answers or panics *)
Section Right.
  Context {W K V D : Type} {OD : Ord D} (kclone : K -> user W K) (keq : K -> K -> user W bool) (vclone : V -> user W V) (veq : V -> V -> user W bool) (J : id_code W D).
  Context (keqb : K -> K -> bool) (veqb : V -> V -> bool).
  Theorem C167_right : (forall k, answers (kclone k) (Val k)) -> (forall v, answers (vclone v) (Val v)) -> (forall d, answers (i_clone J d) (Val d)) ->
    (forall k k', answers (keq k k') (Val (keqb k k'))) -> (forall v v', answers (veq v v') (Val (veqb v v'))) -> (forall d d', answers (i_eq J d d') (Val (eqb d d'))) ->
    (forall m m', answers (nodit_clone_e kclone vclone m) (Val m) /\ answers (nodit_eq_e keq veq m m') (Val (nodit_eqb keqb veqb m m'))) /\
    (forall s s', answers (nodit_set_clone_e kclone s) (Val s) /\ answers (nodit_set_eq_e keq s s') (Val (set_eqb keqb s s'))) /\
    (forall z z', answers (zosdit_clone_e kclone vclone z) (Val z) /\ answers (zosdit_eq_e keq veq z z') (Val (zosdit_eqb keqb veqb z z'))) /\
    (forall g g', answers (gqdit_clone_e kclone J g) (Val g) /\ answers (gqdit_eq_e keq J g g') (Val (gqdit_eqb keqb g g'))).
  Proof.
    intros A B D0 E F G. assert (X : forall {A} (x : user W A) a, answers x (Val a) -> fine False x a) by (intros A0 x a Hx w; left; apply Hx).
    assert (Y : forall {A} (x : user W A) a, fine False x a -> answers x (Val a)) by (intros A0 x a Hx w; destruct (Hx w) as [Z|[[] _]]; exact Z).
    destruct (derive_fine False kclone keq vclone veq J keqb veqb (fun k => X _ _ _ (A k)) (fun k => X _ _ _ (B k)) (fun k => X _ _ _ (D0 k)) (fun k k' => X _ _ _ (E k k')) (fun k k' => X _ _ _ (F k k')) (fun k k' => X _ _ _ (G k k'))) as (R1 & R2 & R3 & R4).
    repeat split; apply Y; [apply (R1 m m')|apply (R1 m m')|apply (R2 s s')|apply (R2 s s')|apply (R3 z z')|apply (R3 z z')|apply (R4 g g')|apply (R4 g g')].
  Qed.
  Theorem C167_right_or_panic : (forall k, right_or_panic (kclone k) k) -> (forall v, right_or_panic (vclone v) v) -> (forall d, right_or_panic (i_clone J d) d) ->
    (forall k k', right_or_panic (keq k k') (keqb k k')) -> (forall v v', right_or_panic (veq v v') (veqb v v')) -> (forall d d', right_or_panic (i_eq J d d') (eqb d d')) ->
    (forall m m', right_or_panic (nodit_clone_e kclone vclone m) m /\ right_or_panic (nodit_eq_e keq veq m m') (nodit_eqb keqb veqb m m')) /\
    (forall s s', right_or_panic (nodit_set_clone_e kclone s) s /\ right_or_panic (nodit_set_eq_e keq s s') (set_eqb keqb s s')) /\
    (forall z z', right_or_panic (zosdit_clone_e kclone vclone z) z /\ right_or_panic (zosdit_eq_e keq veq z z') (zosdit_eqb keqb veqb z z')) /\
    (forall g g', right_or_panic (gqdit_clone_e kclone J g) g /\ right_or_panic (gqdit_eq_e keq J g g') (gqdit_eqb keqb g g')).
  Proof.
    intros A B D0 E F G. assert (X : forall {A} (x : user W A) a, right_or_panic x a -> fine True x a) by (intros A0 x a Hx w; destruct (Hx w) as [Z|Z]; [left|right; split; [exact Logic.I|]]; exact Z).
    assert (Y : forall {A} (x : user W A) a, fine True x a -> right_or_panic x a) by (intros A0 x a Hx w; destruct (Hx w) as [Z|[_ Z]]; [left|right]; exact Z).
    destruct (derive_fine True kclone keq vclone veq J keqb veqb (fun k => X _ _ _ (A k)) (fun k => X _ _ _ (B k)) (fun k => X _ _ _ (D0 k)) (fun k k' => X _ _ _ (E k k')) (fun k k' => X _ _ _ (F k k')) (fun k k' => X _ _ _ (G k k'))) as (R1 & R2 & R3 & R4).
    repeat split; apply Y; [apply (R1 m m')|apply (R1 m m')|apply (R2 s s')|apply (R2 s s')|apply (R3 z z')|apply (R3 z z')|apply (R4 g g')|apply (R4 g g')].
  Qed.
End Right.
(** The crate's [Interval]. *)
Theorem C167_interval : forall {W I : Type} (pclone : I -> user W I) (peq : I -> I -> user W bool) (feed : I -> user W unit) (peqb : I -> I -> bool) (a b : Interval I) w,
  ((forall p, right_or_panic (pclone p) p) -> right_or_panic (interval_clone_e pclone a) a) /\
  ((forall p q, right_or_panic (peq p q) (peqb p q)) -> right_or_panic (interval_eq_e peq a b) (interval_eqb peqb a b)) /\
  ((forall p, answers (pclone p) (Val p)) -> answers (interval_clone_e pclone a) (Val a)) /\
  ((forall p q, answers (peq p q) (Val (peqb p q))) -> answers (interval_eq_e peq a b) (Val (interval_eqb peqb a b))) /\
  (** points that hash alike make intervals that hash alike *)
  ((forall w, feed (ivl_start a) w = feed (ivl_start b) w) -> (forall w, feed (ivl_end a) w = feed (ivl_end b) w) -> interval_hash_e feed a w = interval_hash_e feed b w).
Proof.
  intros W I pclone peq feed peqb [s e] [s' e'] w. unfold interval_clone_e, interval_eq_e, interval_hash_e, interval_eqb. cbn [ivl_start ivl_end]. split; [|split; [|split; [|split]]].
  - intros A. eapply (fun X Y => may_bind _ _ s (Val (mkInterval s e)) X Y); [apply A|]. eapply may_bind; [apply A|]. apply may_ret.
  - intros A. eapply (fun X Y => may_bind _ _ _ (Val _) X Y); [apply A|]. destruct (peqb s s'); [apply A|apply may_ret].
  - intros A. eapply answers_bind; [apply A|]. eapply answers_bind; [apply A|]. apply answers_ret.
  - intros A. eapply answers_bind; [apply A|]. destruct (peqb s s'); [apply A|apply answers_ret].
  - intros A B. unfold ubind. rewrite A. destruct (feed s' w) as [[u|] w1]; [apply B|reflexivity].
Qed.
(** What is fed to the hasher, with a hasher that writes it down. *)
Theorem C167_hash_feeds : forall {I : Type} (a : Interval I) (w : list I), interval_hash_e (fun p w => (Val tt, w ++ [p])) a w = (Val tt, w ++ [ivl_start a; ivl_end a]).
Proof. intros I [s e] w. unfold interval_hash_e, ubind. cbn. rewrite <- app_assoc. reflexivity. Qed.

(** ** [Gqdit]'s serde methods *)
Section Serde.
  Context {W I : Type} `{PL : PointLaws I} (P : point_code W I) {K : Type} {IK : InclusiveInterval I K} {IL : IntervalLaws I K} (ik : interval_code W I K).
  Context {D : Type} {OD : Ord D}.
  (** The sink is told the number of entries and then the entries, until it has enough. *)
  Theorem C167_gqdit_serialize : forall {A E} announce (element : K * list D -> user W (result unit E)) (finish : user W (result A E)) (g : Gqdit K D) w o n told w',
    gqdit_serialize_e announce element finish g w = (o, (n, told), w') ->
    n = fst (gqdit_serialize g) /\ exists rest, snd (gqdit_serialize g) = told ++ rest /\ (match o with Val (Ok _) => rest = [] | _ => True end).
  Proof. intros A E announce element finish g w o n told w' X. exact (C159_any_serialize announce element finish g w o n told w' X). Qed.
  (** With code that gives the right answers or panics, reading ends as it should for the
      entries read, or is stopped. *)
  Theorem C167_gqdit_visit_seq : forall {E} (T : nat -> nat -> BTreeMap K (list D) -> tree K (list D)) (custom : user W E) access fuel w r l w',
    points_or_panic P -> intervals_or_panic ik -> (forall i, faithful (T i)) -> gqdit_visit_seq_e P ik T custom access fuel w = (r, l, w') ->
    match r with
    | LDone g => gqdit_deserialize (map Some l) = Val (Ok g)
    | LRefused _ => gqdit_deserialize (map Some l) = Val (Err DeOverlap)
    | LStopped false => exists l0 e g, l = l0 ++ [e] /\ gqdit_deserialize (map Some l0) = Val (Ok g)
    | LFailed _ => gqdit_deserialize (map Some l ++ [None]) = Val (Err DeElement)
    | LStopped true | LRunning => exists g, gqdit_deserialize (map Some l) = Val (Ok g)
    end.
  Proof. intros E T custom access fuel w r l w' RP RK TF X. exact (C165_visit_seq P RP ik RK T custom access fuel w r l w' TF X). Qed.
  (** What was written for a [Gqdit] made by calls is read back as it, if at all. *)
  Theorem C167_gqdit_read_back : forall {OL : OrdLaws D} {E} (T : nat -> nat -> BTreeMap K (list D) -> tree K (list D)) (custom : user W E) access fuel w r (g : Gqdit K D) w',
    points_or_panic P -> intervals_or_panic ik -> (forall i, faithful (T i)) -> greachable g ->
    gqdit_visit_seq_e P ik T custom access fuel w = (r, snd (gqdit_serialize g), w') -> match r with LDone g' => g' = g | LRefused _ => False | _ => True end.
  Proof.
    intros OL E T custom access fuel w r g w' RP RK TF R X. pose proof (proj1 (C52_round_trip g (or_introl R))) as B. apply C167_gqdit_visit_seq in X; [|assumption..].
    destruct r as [g'|e|e|[]|]; trivial; pose proof (eq_trans (eq_sym B) X) as Y; [injection Y as <-; reflexivity|discriminate].
  Qed.
End Serde.

(** Clones that differ, a comparison with a memory, and code that runs out of fuel. *)
Definition ex_derive_map : NoditMap (Interval u8) nat := [(1 --> 9, 7); (11 --> 20, 8)].
Definition ex_derive_zosdit : ZosditMap (Interval u8) nat := mkZosdit 3 [(1 --> 9, [7; 8]); (9 --> 20, [5])].
Definition numbering : nat -> user nat nat := fun v w => (Val (v + w), S w).
Definition moody {A} : A -> A -> user nat bool := fun _ _ w => (match w with 3 => Panic | 2 => Val false | _ => Val true end, S w).
Definition spend_eq (a b : Interval u8) : user nat bool := spend (interval_eqb eqb a b).
Definition ex_derive_gqdit : Gqdit (Interval u8) u8 := grun [GInsert ['1; '2] (10 --> 20)].
Example C167_example :
  nodit_clone_e uret numbering ex_derive_map 100 = (Val [(1 --> 9, 107); (11 --> 20, 109)], 102) /\
  zosdit_clone_e spend spend ex_derive_zosdit 5 = (Val ex_derive_zosdit, 0) /\ zosdit_clone_e spend spend ex_derive_zosdit 4 = (Panic, 0) /\
  nodit_eq_e moody moody ex_derive_map ex_derive_map 0 = (Val false, 3) /\ nodit_eq_e moody moody ex_derive_map ex_derive_map 3 = (Panic, 4) /\
  nodit_eq_e moody moody ex_derive_map [(4 --> 4, 1); (0 --> 0, 2)] 4 = (Val true, 8) /\ nodit_eq_e moody moody ex_derive_map [] 3 = (Val false, 3) /\
  zosdit_eq_e spend_eq (fun a b => spend (Nat.eqb a b)) ex_derive_zosdit ex_derive_zosdit 5 = (Val true, 0) /\
  zosdit_eq_e spend_eq (fun a b => spend (Nat.eqb a b)) ex_derive_zosdit ex_derive_zosdit 4 = (Panic, 0) /\
  (forall a b, right_or_panic (spend_eq a b) (interval_eqb eqb a b)) /\ (forall k : Interval u8, right_or_panic (spend k) k) /\ all_ids_or_panic spending_ids /\
  length ex_derive_gqdit = 3 /\ greachable ex_derive_gqdit /\
  gqdit_clone_e spend spending_ids ex_derive_gqdit 5 = (Val ex_derive_gqdit, 0) /\ gqdit_clone_e spend spending_ids ex_derive_gqdit 4 = (Panic, 0) /\
  gqdit_eq_e spend_eq spending_ids ex_derive_gqdit ex_derive_gqdit 5 = (Val true, 0) /\
  points_or_panic spending_p /\ intervals_or_panic spending_i /\ (forall i, faithful (ex_shapes (V := list u8) i)).
Proof.
  repeat (split; [vm_compute; reflexivity|]). split; [intros a b; apply spend_right|]. split; [intros k; apply spend_right|]. split; [repeat split; intros; apply spend_right|].
  split; [vm_compute; reflexivity|]. split; [eexists; reflexivity|]. repeat (split; [vm_compute; reflexivity|]).
  split; [repeat split; intros; apply spend_right|]. split; [repeat split; intros; apply spend_right|]. intros i j l. apply some_shapes_good.
Qed.

Print Assumptions C167_any_clone.
Print Assumptions C167_any_set_clone.
Print Assumptions C167_any_zosdit_clone.
Print Assumptions C167_any_gqdit_clone.
Print Assumptions C167_any_eq.
Print Assumptions C167_any_zosdit_eq.
Print Assumptions C167_any_set_eq.
Print Assumptions C167_any_gqdit_eq.
Print Assumptions C167_different_lengths.
Print Assumptions C167_clone_is_C117.
Print Assumptions C167_right.
Print Assumptions C167_right_or_panic.
Print Assumptions C167_interval.
Print Assumptions C167_hash_feeds.
Print Assumptions C167_gqdit_serialize.
Print Assumptions C167_gqdit_visit_seq.
Print Assumptions C167_gqdit_read_back.
