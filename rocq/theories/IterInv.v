(** * IterInv: proofs about driven iterators (C90, C91). *)
From Coq Require Import List Bool Arith Lia.
From Verif Require Import Base BTree UtilsModel IntervalModel NoditModel NoditSetModel ZosditModel IterModel.
From Verif Require Import IterSpec.
Import ListNotations.

Section Drive.
  Context {S A : Type}.

  Lemma drive_script : forall (d : diter S A) script s, map fst (fst (drive d script s)) = script.
  Proof.
    intros d script; induction script as [|c script IH]; intros s; simpl; auto.
    destruct (call d c s) as (x, s1). destruct (drive d script s1) as (out, s2) eqn:E. simpl.
    f_equal. specialize (IH s1). rewrite E in IH. exact IH.
  Qed.

  (** A simulation by the list still to come. *)
  Lemma drive_sim : forall (d : diter S A) (R : S -> list A -> Prop),
    (forall c s l, R s l -> exists s', call d c s = (fst (call list_iter c l), s') /\ R s' (snd (call list_iter c l))) ->
    forall script s l, R s l -> fst (drive d script s) = fst (drive list_iter script l).
  Proof.
    intros d R Hc script; induction script as [|c script IH]; intros s l Hs; simpl; auto.
    destruct (Hc c s l Hs) as (s' & E & Hs'). rewrite E.
    destruct (call list_iter c l) as (x, l') eqn:E'. simpl in *.
    specialize (IH s' l' Hs').
    destruct (drive d script s'); destruct (drive list_iter script l'); simpl in *. f_equal; auto.
  Qed.
End Drive.

Lemma call_front : forall A (l : list A), call list_iter Front l = list_next l.
Proof. reflexivity. Qed.

Lemma list_next_back_snoc : forall A (l : list A) x, list_next_back (l ++ [x]) = (Some x, l).
Proof. intros. unfold list_next_back. rewrite rev_app_distr; simpl. rewrite rev_involutive; auto. Qed.

Lemma drive_list : forall A script (l : list A), two_ended l (fst (drive list_iter script l)).
Proof.
  intros A script; induction script as [|c script IH]; intros l; simpl.
  - split; [exists l; simpl; rewrite app_nil_r; auto|].
    intros n Hn; simpl in Hn. assert (n = 0) by lia; subst; reflexivity.
  - destruct c; simpl.
    + destruct l as [|x l].
      * simpl. specialize (IH []). destruct (drive list_iter script []) as (out, s). simpl in *.
        destruct IH as ((rest & E) & Hy). split; [exists rest; exact E|].
        intros [|n] Hn; [reflexivity|]. simpl in Hn. specialize (Hy n ltac:(lia)).
        unfold yielded in *; simpl. rewrite Hy. simpl length. lia.
      * simpl. specialize (IH l). destruct (drive list_iter script l) as (out, s). simpl in *.
        destruct IH as ((rest & E) & Hy). split; [exists rest; rewrite E at 1; auto|].
        intros [|n] Hn; [reflexivity|]. simpl in Hn. specialize (Hy n ltac:(lia)).
        unfold yielded in *; simpl. rewrite Hy. simpl length. lia.
    + destruct (rev l) as [|x r] eqn:Er.
      * assert (l = []) by (rewrite <- (rev_involutive l), Er; auto). subst l.
        unfold list_next_back; simpl. specialize (IH []).
        destruct (drive list_iter script []) as (out, s). simpl in *.
        destruct IH as ((rest & E) & Hy). split; [exists rest; exact E|].
        intros [|n] Hn; [reflexivity|]. simpl in Hn. specialize (Hy n ltac:(lia)).
        unfold yielded in *; simpl. rewrite Hy. simpl length. lia.
      * assert (l = rev r ++ [x]) by (rewrite <- (rev_involutive l), Er; auto). subst l.
        rewrite list_next_back_snoc. specialize (IH (rev r)).
        destruct (drive list_iter script (rev r)) as (out, s). simpl in *.
        destruct IH as ((rest & E) & Hy). split.
        { exists rest. rewrite E at 1. unfold answers; simpl. rewrite <- !app_assoc. reflexivity. }
        intros [|n] Hn; [reflexivity|]. simpl in Hn. specialize (Hy n ltac:(lia)).
        unfold yielded in *; simpl. rewrite <- plus_n_Sm, Hy. rewrite app_length. cbn [length]. rewrite Nat.add_1_r. reflexivity.
Qed.

(** [map] *)
Lemma list_next_map : forall A B (f : A -> B) c l,
  call list_iter c (map f l) = (option_map f (fst (call list_iter c l)), map f (snd (call list_iter c l))).
Proof.
  intros A B f c l. destruct c; simpl.
  - destruct l; reflexivity.
  - unfold list_next_back. rewrite <- map_rev. destruct (rev l) as [|x r]; simpl; auto. rewrite map_rev; auto.
Qed.

Lemma drive_map : forall A B (f : A -> B) script (l : list A),
  fst (drive (map_iter f list_iter) script l) = fst (drive list_iter script (map f l)).
Proof.
  intros A B f script l.
  apply (drive_sim (map_iter f list_iter) (fun s l => l = map f s)); auto.
  clear. intros c s l ->. rewrite list_next_map. simpl fst. simpl snd.
  exists (snd (call list_iter c s)). split; auto.
  destruct c; simpl; destruct s; simpl; auto.
  unfold list_next_back; simpl. destruct (rev s ++ [a]); simpl; auto.
Qed.

(** [flat_map] *)
Section Flat.
  Context {A B : Type} (f : A -> list B).
  Definition opt_items (o : option (list B)) : list B := match o with Some l => l | None => [] end.
  Definition to_come (s : option (list B) * list A * option (list B)) : list B :=
    let '(front, iter, back) := s in opt_items front ++ flat_map f iter ++ opt_items back.

  Lemma aoc_next : forall o x o', and_then_or_clear list_next o = (x, o') ->
    match x with Some b => opt_items o = b :: opt_items o' | None => opt_items o = [] /\ o' = None end.
  Proof. intros [[|b l]|] x o' E; simpl in E; injection E as <- <-; simpl; auto. Qed.
  Lemma aoc_next_back : forall o x o', and_then_or_clear list_next_back o = (x, o') ->
    match x with Some b => opt_items o = opt_items o' ++ [b] | None => opt_items o = [] /\ o' = None end.
  Proof.
    intros [l|] x o' E; simpl in E.
    - unfold list_next_back in E. destruct (rev l) as [|b r] eqn:Er; injection E as <- <-; simpl.
      + split; auto. rewrite <- (rev_involutive l), Er; auto.
      + rewrite <- (rev_involutive l), Er; auto.
    - injection E as <- <-; simpl; auto.
  Qed.

  Lemma flat_next_ok : forall iter front back,
    exists s', flat_next_loop f front iter back = (fst (list_next (to_come (front, iter, back))), s') /\
      to_come s' = snd (list_next (to_come (front, iter, back))).
  Proof.
    induction iter as [|a iter IH]; intros front back; simpl;
      destruct (and_then_or_clear list_next front) as (x, front') eqn:E; apply aoc_next in E; destruct x as [b|].
    - rewrite E. eexists; split; [reflexivity|]. reflexivity.
    - destruct E as (E & ->). rewrite E; simpl.
      destruct (and_then_or_clear list_next back) as (y, back') eqn:E2. apply aoc_next in E2. destruct y as [b|].
      + rewrite E2. eexists; split; reflexivity.
      + destruct E2 as (E2 & ->). rewrite E2. eexists; split; reflexivity.
    - rewrite E. eexists; split; reflexivity.
    - destruct E as (E & ->). rewrite E; simpl.
      destruct (IH (Some (f a)) back) as (s' & E1 & E2). exists s'. simpl in E1, E2.
      rewrite <- app_assoc. split; auto.
  Qed.

  Lemma flat_map_rev_snoc : forall (l : list A) a, flat_map f (l ++ [a]) = flat_map f l ++ f a.
  Proof. intros. rewrite flat_map_app; simpl. rewrite app_nil_r; auto. Qed.

  Lemma flat_next_back_ok : forall riter front back,
    exists s', flat_next_back_loop f front riter back = (fst (list_next_back (to_come (front, rev riter, back))), s') /\
      to_come s' = snd (list_next_back (to_come (front, rev riter, back))).
  Proof.
    induction riter as [|a riter IH]; intros front back; simpl;
      destruct (and_then_or_clear list_next_back back) as (x, back') eqn:E; apply aoc_next_back in E; destruct x as [b|].
    - rewrite E. rewrite app_assoc, list_next_back_snoc. eexists; split; [reflexivity|]. reflexivity.
    - destruct E as (E & ->). rewrite E; simpl. rewrite app_nil_r.
      destruct (and_then_or_clear list_next_back front) as (y, front') eqn:E2. apply aoc_next_back in E2. destruct y as [b|].
      + rewrite E2, list_next_back_snoc. eexists; split; [reflexivity|]. simpl. rewrite app_nil_r; auto.
      + destruct E2 as (E2 & ->). rewrite E2. eexists; split; reflexivity.
    - rewrite E. rewrite !app_assoc, list_next_back_snoc. eexists; split; [reflexivity|]. simpl. rewrite app_assoc; auto.
    - destruct E as (E & ->). rewrite E; simpl. rewrite app_nil_r, flat_map_rev_snoc.
      destruct (IH front (Some (f a))) as (s' & E1 & E2). exists s'. simpl in E1, E2. split; auto.
  Qed.

  Lemma drive_flat : forall script l,
    fst (drive (flat_iter f) script (flat_start l)) = fst (drive list_iter script (flat_map f l)).
  Proof.
    intros script l.
    apply (drive_sim (flat_iter f) (fun s l => to_come s = l)).
    - clear. intros c ((front, iter), back) l <-. destruct c; simpl.
      + destruct (flat_next_ok iter front back) as (s' & E1 & E2). exists s'. split; auto.
      + destruct (flat_next_back_ok (rev iter) front back) as (s' & E1 & E2).
        rewrite rev_involutive in E1, E2. exists s'. split; auto.
    - unfold flat_start; simpl. apply app_nil_r.
  Qed.
End Flat.

(** Mutable iterators. *)
Section Mut.
  Context {K V : Type}.
  Lemma mut_out : forall (script : list (side * (V -> V))) front (todo : list (K * V)) back,
    fst (mut_drive script (front, todo, back)) = fst (drive list_iter (map fst script) todo).
  Proof.
    induction script as [|(c, f) script IH]; intros front todo back; simpl; auto.
    destruct c; simpl.
    - destruct todo as [|(k, v) todo]; simpl.
      + specialize (IH front [] back). destruct (mut_drive _ _), (drive _ _ _); simpl in *; congruence.
      + specialize (IH (front ++ [(k, f v)]) todo back).
        destruct (mut_drive _ _), (drive _ _ _); simpl in *; congruence.
    - unfold list_next_back. destruct (rev todo) as [|(k, v) r] eqn:Er; simpl.
      + assert (todo = []) by (rewrite <- (rev_involutive todo), Er; auto). subst.
        specialize (IH front [] back). destruct (mut_drive _ _), (drive _ _ _); simpl in *; congruence.
      + specialize (IH front (rev r) ((k, f v) :: back)).
        destruct (mut_drive _ _), (drive _ _ _); simpl in *; congruence.
  Qed.

  Lemma change_nil_r : forall fs, change fs (@nil (K * V)) = [].
  Proof. destruct fs; auto. Qed.

  Lemma mut_state_ok : forall (script : list (side * (V -> V))) front (todo : list (K * V)) back,
    let out := fst (mut_drive script (front, todo, back)) in
    exists rest, todo = answers Front out ++ rest ++ rev (answers Back out) /\
      mut_end (snd (mut_drive script (front, todo, back))) =
        front ++ change (fns Front script) (answers Front out) ++ rest ++
        rev (change (fns Back script) (answers Back out)) ++ back.
  Proof.
    induction script as [|(c, f) script IH]; intros front todo back; simpl.
    - exists todo. simpl. rewrite app_nil_r. auto.
    - destruct c; simpl.
      + destruct todo as [|(k, v) todo]; simpl.
        * specialize (IH front [] back). destruct (mut_drive script (front, [], back)) as (out, s). simpl in *.
          destruct IH as (rest & E & IH). exists rest. split; auto.
          rewrite IH. symmetry in E. apply app_eq_nil in E as (E & _). rewrite E. rewrite !change_nil_r; auto.
        * specialize (IH (front ++ [(k, f v)]) todo back).
          destruct (mut_drive script (front ++ [(k, f v)], todo, back)) as (out, s). simpl in *.
          destruct IH as (rest & E & IH). exists rest. split; [rewrite E at 1; auto|].
          rewrite IH, <- !app_assoc. reflexivity.
      + destruct (rev todo) as [|(k, v) r] eqn:Er; simpl.
        * assert (todo = []) by (rewrite <- (rev_involutive todo), Er; auto). subst.
          specialize (IH front [] back). destruct (mut_drive script (front, [], back)) as (out, s). simpl in *.
          destruct IH as (rest & E & IH). exists rest. split; auto.
          rewrite IH. symmetry in E. apply app_eq_nil in E as (_ & E). apply app_eq_nil in E as (_ & E).
          destruct (answers Back out) as [|y t]; [|apply app_eq_nil in E as (_ & E); discriminate].
          rewrite !change_nil_r; auto.
        * assert (todo = rev r ++ [(k, v)]) by (rewrite <- (rev_involutive todo), Er; auto). subst.
          specialize (IH front (rev r) ((k, f v) :: back)).
          destruct (mut_drive script (front, rev r, (k, f v) :: back)) as (out, s). simpl in *.
          destruct IH as (rest & E & IH). exists rest. split.
          { rewrite E at 1. unfold answers; simpl. rewrite <- !app_assoc. reflexivity. }
          rewrite IH. unfold answers; simpl. rewrite <- !app_assoc. reflexivity.
  Qed.
End Mut.

Lemma change_fst : forall K V (fs : list (V -> V)) (l : list (K * V)), map fst (change fs l) = map fst l.
Proof. induction fs as [|f fs IH]; intros [|(k, v) l]; simpl; auto. f_equal; auto. Qed.

Lemma change_length : forall K V (fs : list (V -> V)) (l : list (K * V)), length (change fs l) = length l.
Proof. intros. rewrite <- (map_length fst), change_fst, map_length; auto. Qed.

Lemma take_upper_skipn : forall K V (comp : K -> comparison) (l : list (K * V)),
  take_upper comp l ++ skipn (length (take_upper comp l)) l = l.
Proof.
  induction l as [|(k, v) l IH]; simpl; auto. destruct (comp k); simpl; auto. f_equal; auto.
Qed.

Lemma seek_app : forall K V (comp : K -> comparison) (l : list (K * V)), fst (seek comp l) ++ snd (seek comp l) = l.
Proof.
  induction l as [|(k, v) l IH]; simpl; auto. destruct (comp k); simpl; auto.
  destruct (seek comp l); simpl in *. f_equal; auto.
Qed.

Section Calls.
  Context {I : Type} `{Ord I} `{DiscreteFinite I}.
  Context {K : Type} `{InclusiveInterval I K}.
  Context {V : Type}.

  Lemma overlapping_mut_calls_ok : forall Q `{InclusiveInterval I Q} (script : list (side * (V -> V))) (q : Q)
    (m : NoditMap K V) l, overlapping m q = Val l ->
    exists out before rest after,
      overlapping_mut_calls script q m =
        (before ++ (change (fns Front script) (answers Front out) ++ rest ++
                    rev (change (fns Back script) (answers Back out))) ++ after, Val out) /\
      map fst out = map fst script /\ two_ended l out /\
      l = answers Front out ++ rest ++ rev (answers Back out) /\
      m = before ++ l ++ after.
  Proof.
    intros Q IQ script q m l E. unfold overlapping, overlapping_mut_calls in *.
    destruct (invalid_interval_panic q) as [u|]; simpl in E; [|discriminate].
    injection E as <-. unfold range.
    pose proof (seek_app K V (overlapping_comp (istart q)) m) as Es.
    destruct (seek (overlapping_comp (istart q)) m) as (pre, post). simpl in Es |- *.
    set (vis := take_upper (overlapping_comp (iend q)) post) in *.
    pose proof (mut_out script [] vis []) as Eo.
    pose proof (mut_state_ok script [] vis []) as Em. cbv zeta in Em. unfold NoditMap, BTreeMap in *.
    destruct (mut_drive script ([], vis, [])) as (out, s). simpl fst in *. simpl snd in *.
    destruct Em as (rest & E1 & E2). exists out, pre, rest, (skipn (length vis) post).
    split; [|split; [|split; [|split]]].
    - rewrite E2. simpl app at 1. rewrite app_nil_r. reflexivity.
    - rewrite Eo. apply drive_script.
    - rewrite Eo. apply drive_list.
    - exact E1.
    - rewrite <- Es at 1. f_equal. symmetry. apply take_upper_skipn.
  Qed.

  Lemma iter_mut_calls_ok : forall (script : list (side * (V -> V))) (m : NoditMap K V),
    exists out rest,
      iter_mut_calls script m =
        (change (fns Front script) (answers Front out) ++ rest ++
         rev (change (fns Back script) (answers Back out)), out) /\
      map fst out = map fst script /\ two_ended m out /\
      m = answers Front out ++ rest ++ rev (answers Back out).
  Proof.
    intros script m. unfold iter_mut_calls.
    pose proof (mut_out script [] m []) as Eo.
    pose proof (mut_state_ok script [] m []) as Em. cbv zeta in Em. unfold NoditMap, BTreeMap in *.
    destruct (mut_drive script ([], m, [])) as (out, s). simpl fst in *. simpl snd in *.
    destruct Em as (rest & E1 & E2). exists out, rest. rewrite E2. simpl app at 1. rewrite app_nil_r.
    split; [reflexivity|]. rewrite Eo. split; [apply drive_script|]. split; [apply drive_list|].
    rewrite <- Eo; exact E1.
  Qed.
End Calls.

Lemma two_ended_back : forall A (l : list A) out n,
  two_ended l out -> map fst out = repeat Back n -> length l <= n -> answers Back out = rev l /\ answers Front out = [].
Proof.
  intros A l out n ((rest & E) & Hy) Ho Hn.
  assert (Hl : length out = n) by (rewrite <- (map_length fst), Ho; apply repeat_length).
  assert (Hf : answers Front out = []).
  { clear - Ho. revert n Ho. induction out as [|(c, x) out IH]; intros [|n] Ho; simpl in *; try discriminate; auto.
    injection Ho as -> Ho. destruct x; simpl; eauto. }
  rewrite Hf in *. specialize (Hy n ltac:(lia)). rewrite <- Hl, firstn_all in Hy. unfold yielded in Hy.
  rewrite Hf in Hy. rewrite E in Hy. simpl in Hy. rewrite app_length, rev_length in Hy.
  assert (length l = length rest + length (answers Back out)) by (rewrite E; simpl; rewrite app_length, rev_length; auto).
  destruct rest as [|r rest]; [|simpl in *; lia].
  simpl in E. split; auto. rewrite E, rev_involutive; auto.
Qed.
