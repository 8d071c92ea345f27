(** * EffectDeriveFacts: lemmas for C167. *)
From Coq Require Import List Bool Arith Lia.
From Verif Require Import Base BTree UtilsModel IntervalModel NoditModel NoditSetModel ZosditModel GqditModel EqModel CloneModel DeriveModel TreeShape
  EffectModel EffectOps EffectGqditModel EffectBulkModel EffectCrashOps EffectTraceOps EffectLazyFacts EffectDeriveModel.
Import ListNotations.
Open Scope nat_scope.

(** ** Right answers, or panics when [bad] *)
Section Fine.
  Context {W : Type} (bad : Prop).
  Lemma fine_ret {A} (a : A) : fine (W := W) bad (uret a) a.
  Proof. intros w. left. reflexivity. Qed.
  Lemma fine_bind {A B} (x : user W A) (f : A -> user W B) a b : fine bad x a -> fine bad (f a) b -> fine bad (ubind x f) b.
  Proof.
    intros Hx Hf w. specialize (Hx w). unfold ubind. destruct (x w) as [[a'|] w1]; cbn [fst] in Hx; destruct Hx as [Hx|[Hb Hx]]; try discriminate; [injection Hx as ->; apply Hf|right; split; [exact Hb|reflexivity]].
  Qed.
  Context {K V D : Type} (kclone : K -> user W K) (keq : K -> K -> user W bool) (vclone : V -> user W V) (veq : V -> V -> user W bool) (J : id_code W D).
  Lemma fine_vec_clone (l : list V) : (forall v, fine bad (vclone v) v) -> fine bad (vec_clone_e vclone l) l.
  Proof. intros F. induction l as [|v l IH]; [apply fine_ret|]. eapply fine_bind; [apply F|]. eapply fine_bind; [exact IH|]. apply fine_ret. Qed.
  Lemma fine_all_veq veqb : (forall v v', fine bad (veq v v') (veqb v v')) -> forall l l' : list V, length l = length l' -> fine bad (all_veq_e veq l l') (vec_eqb veqb l l').
  Proof.
    intros F l. induction l as [|x l IH]; intros [|y l'] L; try discriminate; [apply fine_ret|]. injection L as L. cbn [all_veq_e vec_eqb]. eapply fine_bind; [apply F|].
    destruct (veqb x y); [exact (IH l' L)|apply fine_ret].
  Qed.
  Lemma vec_eqb_len {X} (eqb : X -> X -> bool) l : forall l', length l <> length l' -> vec_eqb eqb l l' = false.
  Proof. induction l as [|x l IH]; intros [|y l'] N; try reflexivity; [exfalso; apply N; reflexivity|]. cbn [vec_eqb]. rewrite IH; [apply andb_false_r|]. intros E. apply N. cbn. rewrite E. reflexivity. Qed.
  Lemma fine_vec_eq veqb : (forall v v', fine bad (veq v v') (veqb v v')) -> forall l l' : list V, fine bad (vec_eq_e veq l l') (vec_eqb veqb l l').
  Proof.
    intros F l l'. unfold vec_eq_e. destruct (Nat.eqb_spec (length l) (length l')) as [E|N]; [exact (fine_all_veq veqb F l l' E)|]. rewrite vec_eqb_len by exact N. apply fine_ret.
  Qed.
  Section Trees.
    Context {X : Type} (xclone : X -> user W X) (xeq : X -> X -> user W bool).
    Lemma fine_bt_clone (l : BTreeMap K X) : (forall k, fine bad (kclone k) k) -> (forall x, fine bad (xclone x) x) -> fine bad (bt_clone_e kclone xclone l) l.
    Proof.
      intros FK FX. induction l as [|[k x] l IH]; [apply fine_ret|]. cbn [bt_clone_e]. eapply fine_bind; [apply FK|]. eapply fine_bind; [apply FX|]. eapply fine_bind; [exact IH|]. apply fine_ret.
    Qed.
    Lemma fine_bt_eq keqb xeqb : (forall k k', fine bad (keq k k') (keqb k k')) -> (forall x x', fine bad (xeq x x') (xeqb x x')) ->
      forall l l' : BTreeMap K X, fine bad (bt_eq_e keq xeq l l') (bt_eqb keqb xeqb l l').
    Proof.
      intros FK FX l l'. unfold bt_eq_e, bt_eqb. destruct (Nat.eqb (length l) (length l')) eqn:E; [|apply fine_ret]. cbn [andb]. apply Nat.eqb_eq in E. revert l' E.
      induction l as [|[k x] l IH]; intros [|[k' x'] l'] L; try discriminate; [apply fine_ret|]. injection L as L. cbn [all_entries_eq_e combine forallb fst snd].
      eapply fine_bind; [apply FK|]. destruct (keqb k k'); [|apply fine_ret]. eapply fine_bind; [apply FX|]. cbn [andb]. destruct (xeqb x x'); [exact (IH l' L)|apply fine_ret].
    Qed.
  End Trees.
  Lemma fine_zosdit_clone z : (forall k, fine bad (kclone k) k) -> (forall v, fine bad (vclone v) v) -> fine bad (zosdit_clone_e kclone vclone z) z.
  Proof.
    intros FK FV. unfold zosdit_clone_e. eapply fine_bind; [apply fine_bt_clone; [exact FK|intros l; apply fine_vec_clone, FV]|]. destruct z. apply fine_ret.
  Qed.
  Lemma fine_zosdit_eq keqb veqb z z' : (forall k k', fine bad (keq k k') (keqb k k')) -> (forall v v', fine bad (veq v v') (veqb v v')) ->
    fine bad (zosdit_eq_e keq veq z z') (zosdit_eqb keqb veqb z z').
  Proof.
    intros FK FV. unfold zosdit_eq_e, zosdit_eqb. destruct (Nat.eqb (z_len z) (z_len z')); [|apply fine_ret]. apply fine_bt_eq; [exact FK|apply fine_vec_eq, FV].
  Qed.
End Fine.
Section FineSets.
  Context {W D : Type} (bad : Prop) (J : id_code W D).
  Lemma fine_set_clone (s : list D) : (forall d, fine bad (i_clone J d) d) -> fine bad (set_clone_e J s) s.
  Proof. exact (fine_vec_clone bad (i_clone J) s). Qed.
  Lemma fine_set_eq {OD : Ord D} : (forall d d', fine bad (i_eq J d d') (eqb d d')) -> forall s s' : list D, fine bad (set_eq_e J s s') (bset_eqb s s').
  Proof.
    intros F s s'. assert (E : vec_eqb eqb s s' = bset_eqb s s') by (revert s'; induction s as [|x s IH]; intros [|y s']; [reflexivity..|]; cbn; rewrite IH; reflexivity).
    rewrite <- E. exact (fine_vec_eq bad (i_eq J) eqb F s s').
  Qed.
  Lemma gqdit_bt_eqb {K} {OD : Ord D} (keqb : K -> K -> bool) (g : Gqdit K D) : forall g', gqdit_eqb keqb g g' = bt_eqb keqb bset_eqb g g'.
  Proof.
    unfold bt_eqb. induction g as [|[k s] g IH]; intros [|[k' s'] g']; try reflexivity. cbn [gqdit_eqb combine forallb fst snd length Nat.eqb]. rewrite IH.
    destruct (keqb k k' && bset_eqb s s'), (Nat.eqb (length g) (length g')); reflexivity.
  Qed.
End FineSets.

(** ** Any user code *)
Section Any.
  Context {W K V D : Type} (kclone : K -> user W K) (keq : K -> K -> user W bool).
  Lemma ubind_run {A B} (x : user W A) (f : A -> user W B) w : ubind x f w = match x w with (Val a, w1) => f a w1 | (Panic, w1) => (Panic, w1) end.
  Proof. reflexivity. Qed.
  Lemma vec_clone_any (vclone : V -> user W V) l : forall w,
    match vec_clone_e vclone l w with (Val l', _) => clones vclone l l' | (Panic, _) => exists v w, In v l /\ fst (vclone v w) = Panic end.
  Proof.
    induction l as [|v l IH]; intros w; [constructor|]. cbn [vec_clone_e]. unfold ubind. destruct (vclone v w) as [[v'|] w1] eqn:Ev; [|exists v, w; split; [left; reflexivity|rewrite Ev; reflexivity]].
    specialize (IH w1). destruct (vec_clone_e vclone l w1) as [[l'|] w2]; [|destruct IH as (u & w3 & Hu & P); exists u, w3; split; [right; exact Hu|exact P]].
    constructor; [exists w, w1; exact Ev|exact IH].
  Qed.
  Lemma bt_clone_any {X} (xclone : X -> user W X) (R : X -> X -> Prop) (Bad : X -> Prop) :
    (forall x w, match xclone x w with (Val x', _) => R x x' | (Panic, _) => Bad x end) ->
    forall l w, match bt_clone_e kclone xclone l w with
      | (Val l', _) => Forall2 (clones_entry kclone R) l l'
      | (Panic, _) => exists e, In e l /\ ((exists w, fst (kclone (fst e) w) = Panic) \/ Bad (snd e))
      end.
  Proof.
    intros HX. induction l as [|[k x] l IH]; intros w; [constructor|]. cbn [bt_clone_e]. unfold ubind.
    destruct (kclone k w) as [[k'|] w1] eqn:Ek; [|exists (k, x); split; [left; reflexivity|left; exists w; cbn; rewrite Ek; reflexivity]].
    pose proof (HX x w1) as Hx. destruct (xclone x w1) as [[x'|] w2]; [|exists (k, x); split; [left; reflexivity|right; exact Hx]].
    specialize (IH w2). destruct (bt_clone_e kclone xclone l w2) as [[l'|] w3]; [|destruct IH as (e & He & P); exists e; split; [right; exact He|exact P]].
    constructor; [split; [exists w, w1; exact Ek|exact Hx]|exact IH].
  Qed.
  (** [x] and [y] were found equal / different. *)
  Lemma vec_eq_any (veq : V -> V -> user W bool) l : forall l' w,
    match vec_eq_e veq l l' w with
    | (Val true, _) => Forall2 (fun x y => returns (fun xy => veq (fst xy) (snd xy)) (x, y) true) l l'
    | (Val false, _) => length l <> length l' \/ exists x y, In (x, y) (combine l l') /\ returns (fun xy => veq (fst xy) (snd xy)) (x, y) false
    | (Panic, _) => exists x y w, In (x, y) (combine l l') /\ fst (veq x y w) = Panic
    end.
  Proof.
    intros l'. unfold vec_eq_e. destruct (Nat.eqb_spec (length l) (length l')) as [E|N]; [|intros w; left; exact N]. revert l' E.
    induction l as [|x l IH]; intros [|y l'] E w; try discriminate; [constructor|]. injection E as E. cbn [all_veq_e combine]. unfold ubind.
    destruct (veq x y w) as [[[]|] w1] eqn:Ev.
    - specialize (IH l' E w1). destruct (all_veq_e veq l l' w1) as [[[]|] w2].
      + constructor; [exists w, w1; exact Ev|exact IH].
      + destruct IH as [N|(a & b & Hi & R)]; [contradiction (N E)|]. right. exists a, b. split; [right; exact Hi|exact R].
      + destruct IH as (a & b & w3 & Hi & R). exists a, b, w3. split; [right; exact Hi|exact R].
    - right. exists x, y. split; [left; reflexivity|exists w, w1; exact Ev].
    - exists x, y, w. split; [left; reflexivity|rewrite Ev; reflexivity].
  Qed.
  Lemma bt_eq_any {X} (xeq : X -> X -> user W bool) (RT RF RP : X -> X -> Prop) :
    (forall x y w, match xeq x y w with (Val true, _) => RT x y | (Val false, _) => RF x y | (Panic, _) => RP x y end) ->
    forall l l' w, match bt_eq_e keq xeq l l' w with
      | (Val true, _) => Forall2 (fun a b => returns (fun xy => keq (fst xy) (snd xy)) (fst a, fst b) true /\ RT (snd a) (snd b)) l l'
      | (Val false, _) => length l <> length l' \/ exists a b, In (a, b) (combine l l') /\ (returns (fun xy => keq (fst xy) (snd xy)) (fst a, fst b) false \/ RF (snd a) (snd b))
      | (Panic, _) => exists a b, In (a, b) (combine l l') /\ ((exists w, fst (keq (fst a) (fst b) w) = Panic) \/ RP (snd a) (snd b))
      end.
  Proof.
    intros HX l l'. unfold bt_eq_e. destruct (Nat.eqb_spec (length l) (length l')) as [E|N]; [|intros w; left; exact N]. revert l' E.
    induction l as [|[k x] l IH]; intros [|[k' x'] l'] E w; try discriminate; [constructor|]. injection E as E. cbn [all_entries_eq_e combine]. unfold ubind.
    destruct (keq k k' w) as [[[]|] w1] eqn:Ek.
    - pose proof (HX x x' w1) as Hx. destruct (xeq x x' w1) as [[[]|] w2].
      + specialize (IH l' E w2). destruct (all_entries_eq_e keq xeq l l' w2) as [[[]|] w3].
        * constructor; [split; [exists w, w1; exact Ek|exact Hx]|exact IH].
        * destruct IH as [N|(a & b & Hi & R)]; [contradiction (N E)|]. right. exists a, b. split; [right; exact Hi|exact R].
        * destruct IH as (a & b & Hi & R). exists a, b. split; [right; exact Hi|exact R].
      + right. exists (k, x), (k', x'). split; [left; reflexivity|right; exact Hx].
      + exists (k, x), (k', x'). split; [left; reflexivity|right; exact Hx].
    - right. exists (k, x), (k', x'). split; [left; reflexivity|left; exists w, w1; exact Ek].
    - exists (k, x), (k', x'). split; [left; reflexivity|left; exists w; cbn; rewrite Ek; reflexivity].
  Qed.
End Any.

Section All.
  Context {W K V D : Type} {OD : Ord D} (bad : Prop) (kclone : K -> user W K) (keq : K -> K -> user W bool) (vclone : V -> user W V) (veq : V -> V -> user W bool) (J : id_code W D).
  Context (keqb : K -> K -> bool) (veqb : V -> V -> bool).
  Lemma derive_fine : (forall k, fine bad (kclone k) k) -> (forall v, fine bad (vclone v) v) -> (forall d, fine bad (i_clone J d) d) ->
    (forall k k', fine bad (keq k k') (keqb k k')) -> (forall v v', fine bad (veq v v') (veqb v v')) -> (forall d d', fine bad (i_eq J d d') (eqb d d')) ->
    (forall m m', fine bad (nodit_clone_e kclone vclone m) m /\ fine bad (nodit_eq_e keq veq m m') (nodit_eqb keqb veqb m m')) /\
    (forall s s', fine bad (nodit_set_clone_e kclone s) s /\ fine bad (nodit_set_eq_e keq s s') (set_eqb keqb s s')) /\
    (forall z z', fine bad (zosdit_clone_e kclone vclone z) z /\ fine bad (zosdit_eq_e keq veq z z') (zosdit_eqb keqb veqb z z')) /\
    (forall g g', fine bad (gqdit_clone_e kclone J g) g /\ fine bad (gqdit_eq_e keq J g g') (gqdit_eqb keqb g g')).
  Proof.
    intros A B C E F G. split; [|split; [|split]].
    - intros m m'. split; [exact (fine_bt_clone bad kclone vclone m A B)|exact (fine_bt_eq bad keq veq keqb veqb E F m m')].
    - intros s s'. split; [exact (fine_bt_clone bad kclone uret s A (fun u => fine_ret bad u))|exact (fine_bt_eq bad keq (fun _ _ => uret true) keqb (fun _ _ => true) E (fun _ _ => fine_ret bad true) s s')].
    - intros z z'. split; [exact (fine_zosdit_clone bad kclone vclone z A B)|exact (fine_zosdit_eq bad keq veq keqb veqb z z' E F)].
    - intros g g'. split; [exact (fine_bt_clone bad kclone (set_clone_e J) g A (fun s => fine_set_clone bad J s C))|]. rewrite gqdit_bt_eqb.
      exact (fine_bt_eq bad keq (set_eq_e J) keqb bset_eqb E (fine_set_eq bad J G) g g').
  Qed.
  Lemma clone_runs (kc : W -> K -> K * W) (vc : W -> V -> V * W) (dc : W -> D -> D * W) w :
    (forall m, nodit_clone_e (fun k w => calm (kc w k)) (fun v w => calm (vc w v)) m w = calm (nodit_clone kc vc w m)) /\
    (forall s, nodit_set_clone_e (fun k w => calm (kc w k)) s w = calm (set_clone kc w s)) /\
    (forall z, zosdit_clone_e (fun k w => calm (kc w k)) (fun v w => calm (vc w v)) z w = calm (zosdit_clone kc vc w z)) /\
    (i_clone J = (fun d w => calm (dc w d)) -> forall g, gqdit_clone_e (fun k w => calm (kc w k)) J g w = calm (gqdit_clone kc dc w g)).
  Proof.
    assert (BT : forall X (xc : X -> user W X) (xc' : W -> X -> X * W), (forall x w, xc x w = calm (xc' w x)) -> forall l w, bt_clone_e (fun k w => calm (kc w k)) xc l w = calm (bt_clone kc xc' w l)).
    { intros X xc xc' HX. induction l as [|[k x] l IH]; intros w0; [reflexivity|]. cbn [bt_clone_e bt_clone]. unfold ubind, calm at 1. destruct (kc w0 k) as [k' w1]. cbn [fst snd]. rewrite HX. unfold calm at 1.
      destruct (xc' w1 x) as [x' w2]. cbn [fst snd]. rewrite IH. unfold calm. destruct (bt_clone kc xc' w2 l) as [l' w3]. reflexivity. }
    assert (VC : forall X (f : W -> X -> X * W) l w, vec_clone_e (fun v w => calm (f w v)) l w = calm (clone_all f w l)).
    { intros X f. induction l as [|v l IH]; intros w0; [reflexivity|]. cbn [vec_clone_e clone_all]. unfold ubind, calm at 1. destruct (f w0 v) as [v' w1]. cbn [fst snd]. rewrite IH. unfold calm. destruct (clone_all f w1 l) as [l' w2]. reflexivity. }
    split; [intros m; exact (BT V _ vc (fun _ _ => eq_refl) m w)|]. split; [intros s; exact (BT unit uret (fun w u => (u, w)) (fun _ _ => eq_refl) s w)|]. split.
    - intros z. unfold zosdit_clone_e, zosdit_clone, ubind. rewrite (BT _ _ (clone_all vc) (fun l w => VC V vc l w)). unfold calm at 1. destruct (bt_clone kc (clone_all vc) w (z_inner z)) as [l w1]. reflexivity.
    - intros EJ g. unfold gqdit_clone_e, gqdit_clone. apply BT. intros s w0. change (set_clone_e J s w0) with (vec_clone_e (i_clone J) s w0). rewrite EJ. apply VC.
  Qed.
End All.
