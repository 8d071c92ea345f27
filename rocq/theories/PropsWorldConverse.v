(** * PropsWorldConverse: what programs with any number of NoditMaps and NoditSets cannot tell
      from the crate's does what is documented (C140). *)
From Coq Require Import List ZArith Bool Lia Permutation.
From Verif Require Import Base BTree UtilsModel IntervalModel NoditModel NoditOps NoditSetModel NoditSetOps EqModel Spec CompleteOps ClientOps ClientSetOps WorldOps
  InstancesModel Instances PointFacts IntervalFacts ListFacts NoditFacts NoditSetFacts NoditSetProofs CompleteProofs EqFacts PropsNodit PropsEq PropsClient PropsClientSet PropsWorld.
Import ListNotations.
Open Scope nat_scope.

Section Props.
  Context {I : Type} `{PL : PointLaws I}.
  Context {K : Type} {IK : InclusiveInterval I K} {IL : IntervalLaws I K} {FI : FromInvalid I K}.
  Context {V : Type}.
  Context (keq : K -> K -> bool) (veq : V -> V -> bool).
  Context (Hk : forall a b, keq a b = true <-> a = b) (Hv : forall a b, veq a b = true <-> a = b).
  Context (D : determined_by_points I K).
  Context (ms : maps (I := I) (K := K) (V := V)) (ss : sets (I := I) (K := K)).
  Notation NM := (nodit_maps keq veq : maps (I := I) (K := K) (V := V)).
  Notation NS := (nodit_sets keq : sets (I := I) (K := K)).
  Notation before := (forall R, program (I := I) (K := K) (V := V) R -> program (I := I) (K := K) (V := V) R).
  Context (Same : forall R (p : program (I := I) (K := K) (V := V) R), result_of ms ss p = result_of NM NS p).

  (** [T] is a piece of program that puts [s] into the variable [x] and changes no other. *)
  Definition puts (ms : maps (I := I) (K := K) (V := V)) ss (x : nat) (s : state (m_methods ms)) (T : before) : Prop :=
    forall R p f g, exists f', run_program ms ss f g (T R p) = run_program ms ss f' g p /\ f' x = s /\ forall y, y <> x -> f' y = f y.
  Definition puts_set (ms : maps (I := I) (K := K) (V := V)) ss (x : nat) (s : set_state (s_methods ss)) (T : before) : Prop :=
    forall R p f g, exists g', run_program ms ss f g (T R p) = run_program ms ss f g' p /\ g' x = s /\ forall y, y <> x -> g' y = g y.

  Lemma assign_at {A} (f : nat -> A) x a : assign f x a x = a.
  Proof. unfold assign. rewrite Nat.eqb_refl. reflexivity. Qed.
  Lemma assign_off {A} (f : nat -> A) x a y : y <> x -> assign f x a y = f y.
  Proof. unfold assign. intros N. destruct (Nat.eqb_spec x y); [congruence|reflexivity]. Qed.

  Lemma map_after ms' ss' x s c T : puts ms' ss' x s T ->
    puts ms' ss' x (fst (does (m_methods ms') c s)) (fun R p => T R (PMap R x c (fun _ => p))).
  Proof.
    intros P R p f g. destruct (P R (PMap R x c (fun _ => p)) f g) as (f1 & E & Ex & Eo). cbn [run_program] in E.
    rewrite Ex in E. exists (assign f1 x (fst (does (m_methods ms') c s))). split; [rewrite E; destruct (does (m_methods ms') c s); reflexivity|].
    split; [apply assign_at|]. intros y Ny. rewrite assign_off by exact Ny. apply Eo, Ny.
  Qed.
  Lemma map_copied ms' ss' x s T : puts ms' ss' x s T -> puts ms' ss' x (m_copy ms' s) (fun R p => T R (PCopyMap R x x p)).
  Proof.
    intros P R p f g. destruct (P R (PCopyMap R x x p) f g) as (f1 & E & Ex & Eo). cbn [run_program] in E. rewrite Ex in E.
    exists (assign f1 x (m_copy ms' s)). split; [exact E|]. split; [apply assign_at|]. intros y Ny. rewrite assign_off by exact Ny. apply Eo, Ny.
  Qed.
  Lemma map_new ms' ss' x : puts ms' ss' x (start (m_methods ms')) (fun R p => PNewMap R x p).
  Proof.
    intros R p f g. exists (assign f x (start (m_methods ms'))). split; [reflexivity|]. split; [apply assign_at|]. intros y Ny. apply assign_off, Ny.
  Qed.
  Lemma map_built ms' ss' x l s : m_build ms' l = Val (Ok s) -> puts ms' ss' x s (fun R p => PBuildMap R x l (fun _ => p)).
  Proof.
    intros B R p f g. cbn [run_program]. rewrite B. exists (assign f x s). split; [reflexivity|]. split; [apply assign_at|]. intros y Ny. apply assign_off, Ny.
  Qed.
  Lemma set_after ms' ss' x s c T : puts_set ms' ss' x s T ->
    puts_set ms' ss' x (fst (set_does (s_methods ss') c s)) (fun R p => T R (PSet R x c (fun _ => p))).
  Proof.
    intros P R p f g. destruct (P R (PSet R x c (fun _ => p)) f g) as (f1 & E & Ex & Eo). cbn [run_program] in E.
    rewrite Ex in E. exists (assign f1 x (fst (set_does (s_methods ss') c s))). split; [rewrite E; destruct (set_does (s_methods ss') c s); reflexivity|].
    split; [apply assign_at|]. intros y Ny. rewrite assign_off by exact Ny. apply Eo, Ny.
  Qed.
  Lemma set_copied ms' ss' x s T : puts_set ms' ss' x s T -> puts_set ms' ss' x (s_copy ss' s) (fun R p => T R (PCopySet R x x p)).
  Proof.
    intros P R p f g. destruct (P R (PCopySet R x x p) f g) as (f1 & E & Ex & Eo). cbn [run_program] in E. rewrite Ex in E.
    exists (assign f1 x (s_copy ss' s)). split; [exact E|]. split; [apply assign_at|]. intros y Ny. rewrite assign_off by exact Ny. apply Eo, Ny.
  Qed.
  Lemma set_fresh ms' ss' x : puts_set ms' ss' x (set_start (s_methods ss')) (fun R p => PNewSet R x p).
  Proof.
    intros R p f g. exists (assign g x (set_start (s_methods ss'))). split; [reflexivity|]. split; [apply assign_at|]. intros y Ny. apply assign_off, Ny.
  Qed.
  Lemma set_built ms' ss' x l s : s_build ss' l = Val (Ok s) -> puts_set ms' ss' x s (fun R p => PBuildSet R x l (fun _ => p)).
  Proof.
    intros B R p f g. cbn [run_program]. rewrite B. exists (assign g x s). split; [reflexivity|]. split; [apply assign_at|]. intros y Ny. apply assign_off, Ny.
  Qed.

  (** The same piece of program brings about a state and its counterpart. *)
  Lemma build_success l : success (m_build ms l) = success (m_build NM l).
  Proof. exact (Same _ (PBuildMap _ 0 l (fun a => PStop _ a))). Qed.
  Lemma set_build_success l : success (s_build ss l) = success (s_build NS l).
  Proof. exact (Same _ (PBuildSet _ 0 l (fun a => PStop _ a))). Qed.

  Lemma map_mirror x s : m_occurs ms s -> exists T m, reachable m /\ puts ms ss x s T /\ puts NM NS x m T.
  Proof.
    induction 1 as [|s c _ (T & m & R & P & P')|l s E|s _ (T & m & R & P & P')].
    - exists (fun R p => PNewMap R x p), new. split; [exists []; reflexivity|]. split; apply map_new.
    - exists (fun R p => T R (PMap R x c (fun _ => p))), (fst (perform c m)). split; [apply perform_reachable, R|]. split; [apply map_after, P|].
      exact (map_after NM NS x m c T P').
    - pose proof (build_success l) as X. rewrite E in X. cbn [success] in X. change (m_build NM l) with (from_iter_strict l) in X.
      destruct (from_iter_strict l) as [[m|]|] eqn:E'; try discriminate. exists (fun R p => PBuildMap R x l (fun _ => p)), m.
      split; [apply (built_reachable l m E')|]. split; apply map_built; assumption.
    - exists (fun R p => T R (PCopyMap R x x p)), m. split; [exact R|]. split; [apply map_copied, P|exact (map_copied NM NS x m T P')].
  Qed.
  Lemma set_mirror x s : s_occurs ss s -> exists T m, set_reachable (I := I) m /\ puts_set ms ss x s T /\ puts_set NM NS x m T.
  Proof.
    induction 1 as [|s c _ (T & m & R & P & P')|l s E|s _ (T & m & R & P & P')].
    - exists (fun R p => PNewSet R x p), set_new. split; [exists []; reflexivity|]. split; apply set_fresh.
    - exists (fun R p => T R (PSet R x c (fun _ => p))), (fst (set_perform c m)). split; [apply set_perform_reachable, R|]. split; [apply set_after, P|].
      exact (set_after NM NS x m c T P').
    - pose proof (set_build_success l) as X. rewrite E in X. cbn [success] in X. change (s_build NS l) with (set_from_iter_strict l) in X.
      destruct (set_from_iter_strict l) as [[m|]|] eqn:E'; try discriminate. exists (fun R p => PBuildSet R x l (fun _ => p)), m.
      split; [apply (set_built_reachable l m E')|]. split; apply set_built; assumption.
    - exists (fun R p => T R (PCopySet R x x p)), m. split; [exact R|]. split; [apply set_copied, P|exact (set_copied NM NS x m T P')].
  Qed.

  (** What the next call on the variable answers. *)
  Lemma map_answer x s m T c : puts ms ss x s T -> puts NM NS x m T -> snd (does (m_methods ms) c s) = snd (perform c m).
  Proof.
    intros P P'. pose proof (Same _ (T _ (PMap _ x c (fun a => PStop _ a)))) as E. unfold result_of in E.
    destruct (P _ (PMap _ x c (fun a => PStop _ a)) (fun _ => start (m_methods ms)) (fun _ => set_start (s_methods ss))) as (f1 & E1 & Ex & _). rewrite E1 in E.
    destruct (P' _ (PMap _ x c (fun a => PStop _ a)) (fun _ => start (m_methods NM)) (fun _ => set_start (s_methods NS))) as (f2 & E2 & Ex' & _). rewrite E2 in E.
    cbn [run_program] in E. rewrite Ex, Ex' in E. change (does (m_methods NM) c m) with (perform c m) in E.
    destruct (does (m_methods ms) c s), (perform c m). exact E.
  Qed.
  Lemma set_answer x s m T c : puts_set ms ss x s T -> puts_set NM NS x m T -> snd (set_does (s_methods ss) c s) = snd (set_perform c m).
  Proof.
    intros P P'. pose proof (Same _ (T _ (PSet _ x c (fun a => PStop _ a)))) as E. unfold result_of in E.
    destruct (P _ (PSet _ x c (fun a => PStop _ a)) (fun _ => start (m_methods ms)) (fun _ => set_start (s_methods ss))) as (f1 & E1 & Ex & _). rewrite E1 in E.
    destruct (P' _ (PSet _ x c (fun a => PStop _ a)) (fun _ => start (m_methods NM)) (fun _ => set_start (s_methods NS))) as (f2 & E2 & Ex' & _). rewrite E2 in E.
    cbn [run_program] in E. rewrite Ex, Ex' in E. change (set_does (s_methods NS) c m) with (set_perform c m) in E.
    destruct (set_does (s_methods ss) c s), (set_perform c m). exact E.
  Qed.
  Definition listed (s : state (m_methods ms)) : list (K * V) := snd (does (m_methods ms) CallIter s).
  Definition listed_set (s : set_state (s_methods ss)) : list K := snd (set_does (s_methods ss) SCallIter s).

  Lemma maps_documented : maps_as_documented ms listed.
  Proof.
    split; [|split; [|split; [|split]]].
    - exact (map_answer 0 _ new _ CallIter (map_new ms ss 0) (map_new NM NS 0)).
    - intros s c Os. destruct (map_mirror 0 s Os) as (T & m & R & P & P').
      unfold listed. rewrite (map_answer 0 s m T CallIter P P'), (map_answer 0 s m T c P P'),
        (map_answer 0 _ _ _ CallIter (map_after ms ss 0 s c T P) (map_after NM NS 0 m c T P')).
      apply (perform_iff D m c R). change (does (m_methods NM) c m) with (perform c m). destruct (perform c m). reflexivity.
    - intros l. apply (from_iter_strict_iff l). pose proof (build_success l) as X. change (m_build NM l) with (from_iter_strict l) in X.
      destruct (m_build ms l) as [[s|e]|] eqn:E, (from_iter_strict l) as [[m|e']|] eqn:E'; cbn [success read] in *; try discriminate.
      + do 2 f_equal. exact (map_answer 0 s m _ CallIter (map_built ms ss 0 l s E) (map_built NM NS 0 l m E')).
      + injection X as ->. reflexivity.
      + reflexivity.
    - intros s Os. destruct (map_mirror 0 s Os) as (T & m & R & P & P'). unfold listed.
      rewrite (map_answer 0 s m T CallIter P P'). exact (map_answer 0 _ _ _ CallIter (map_copied ms ss 0 s T P) (map_copied NM NS 0 m T P')).
    - intros s s' Os Os'. destruct (map_mirror 0 s Os) as (T & m & R & P & P'). destruct (map_mirror 1 s' Os') as (T2 & m2 & R2 & P2 & P2').
      unfold listed. rewrite (map_answer 0 s m T CallIter P P'), (map_answer 1 s' m2 T2 CallIter P2 P2').
      replace (m_same ms s s') with (m_same NM m m2); [apply (bt_eqb_eq keq veq m m2 Hk Hv)|].
      pose (p := PSameMap (I := I) (K := K) (V := V) bool 0 1 (fun b => PStop _ b)). pose proof (Same _ (T _ (T2 _ p))) as E. unfold result_of in E.
      destruct (P _ (T2 _ p) (fun _ => start (m_methods ms)) (fun _ => set_start (s_methods ss))) as (f1 & E1 & X1 & _). rewrite E1 in E.
      destruct (P2 _ p f1 (fun _ => set_start (s_methods ss))) as (f2 & E2 & X2 & O2). rewrite E2 in E.
      destruct (P' _ (T2 _ p) (fun _ => start (m_methods NM)) (fun _ => set_start (s_methods NS))) as (f3 & E3 & X3 & _). rewrite E3 in E.
      destruct (P2' _ p f3 (fun _ => set_start (s_methods NS))) as (f4 & E4 & X4 & O4). rewrite E4 in E.
      unfold p in E. cbn [run_program] in E. rewrite X2, X4, (O2 0), (O4 0), X1, X3 in E by discriminate. symmetry. exact E.
  Qed.
  Lemma sets_documented : sets_as_documented ss listed_set.
  Proof.
    split; [|split; [|split; [|split]]].
    - exact (set_answer 0 _ set_new _ SCallIter (set_fresh ms ss 0) (set_fresh NM NS 0)).
    - intros s c Os. destruct (set_mirror 0 s Os) as (T & m & R & P & P').
      unfold listed_set. rewrite (set_answer 0 s m T SCallIter P P'), (set_answer 0 s m T c P P'),
        (set_answer 0 _ _ _ SCallIter (set_after ms ss 0 s c T P) (set_after NM NS 0 m c T P')).
      apply (C133_effects_determine_the_methods D m c R). auto.
    - intros l. apply set_build_iff. pose proof (set_build_success l) as X. change (s_build NS l) with (set_from_iter_strict l) in X.
      destruct (s_build ss l) as [[s|e]|] eqn:E, (set_from_iter_strict l) as [[m|e']|] eqn:E'; cbn [success read] in *; try discriminate.
      + do 2 f_equal. exact (set_answer 0 s m _ SCallIter (set_built ms ss 0 l s E) (set_built NM NS 0 l m E')).
      + injection X as ->. reflexivity.
      + reflexivity.
    - intros s Os. destruct (set_mirror 0 s Os) as (T & m & R & P & P'). unfold listed_set.
      rewrite (set_answer 0 s m T SCallIter P P'). exact (set_answer 0 _ _ _ SCallIter (set_copied ms ss 0 s T P) (set_copied NM NS 0 m T P')).
    - intros s s' Os Os'. destruct (set_mirror 0 s Os) as (T & m & R & P & P'). destruct (set_mirror 1 s' Os') as (T2 & m2 & R2 & P2 & P2').
      unfold listed_set. rewrite (set_answer 0 s m T SCallIter P P'), (set_answer 1 s' m2 T2 SCallIter P2 P2').
      replace (s_same ss s s') with (s_same NS m m2); [apply (set_same_iff keq Hk)|].
      pose (p := PSameSet (I := I) (K := K) (V := V) bool 0 1 (fun b => PStop _ b)). pose proof (Same _ (T _ (T2 _ p))) as E. unfold result_of in E.
      destruct (P _ (T2 _ p) (fun _ => start (m_methods ms)) (fun _ => set_start (s_methods ss))) as (f1 & E1 & X1 & _). rewrite E1 in E.
      destruct (P2 _ p (fun _ => start (m_methods ms)) f1) as (f2 & E2 & X2 & O2). rewrite E2 in E.
      destruct (P' _ (T2 _ p) (fun _ => start (m_methods NM)) (fun _ => set_start (s_methods NS))) as (f3 & E3 & X3 & _). rewrite E3 in E.
      destruct (P2' _ p (fun _ => start (m_methods NM)) f3) as (f4 & E4 & X4 & O4). rewrite E4 in E.
      unfold p in E. cbn [run_program] in E. rewrite X2, X4, (O2 0), (O4 0), X1, X3 in E by discriminate. symmetry. exact E.
  Qed.
End Props.

Section Theorems.
  Context {I : Type} `{PL : PointLaws I}.
  Context {K : Type} {IK : InclusiveInterval I K} {IL : IntervalLaws I K} {FI : FromInvalid I K}.
  Context {V : Type}.

  (** ** C140, the converse *)
  (** Implementations of NoditMap and NoditSet on which every program ends with the same
      result as on the crate's do what is documented, their states being read as what [iter]
      yields. *)
  Theorem C140_indistinguishable_only_if_documented : determined_by_points I K ->
    forall (keq : K -> K -> bool) (veq : V -> V -> bool), (forall a b, keq a b = true <-> a = b) -> (forall a b, veq a b = true <-> a = b) ->
    forall (ms : maps (I := I) (K := K) (V := V)) (ss : sets (I := I) (K := K)),
    (forall R (p : program R), result_of ms ss p = result_of (nodit_maps keq veq) (nodit_sets keq) p) ->
    maps_as_documented ms (fun s => snd (does (m_methods ms) CallIter s)) /\
    sets_as_documented ss (fun s => snd (set_does (s_methods ss) SCallIter s)).
  Proof.
    intros D keq veq Hk Hv ms ss Same. split.
    - exact (maps_documented keq veq Hk Hv D ms ss Same).
    - exact (sets_documented keq veq Hk D ms ss Same).
  Qed.
End Theorems.

(** The hypotheses are met, non-trivially, by an implementation of its own that keeps the
    entries in descending order; *)
Definition descending_maps : maps (I := u8) (K := Interval u8) (V := nat) :=
  {| m_methods := descending;
     m_build := fun l => read (fun m => rev m) (from_iter_strict l);
     m_copy := fun s => s;
     m_same := fun s s' => nodit_eqb (interval_eqb eqb) Nat.eqb (rev s) (rev s') |}.
Lemma descending_maps_documented : maps_as_documented descending_maps (fun s => rev s).
Proof.
  assert (X : forall s, m_occurs descending_maps s -> reachable (rev s)).
  { induction 1 as [|s c _ IH|l s E|s _ IH].
    - exists []; reflexivity.
    - cbn [does descending descending_maps m_methods]. pose proof (perform_reachable (rev s) c IH) as Y.
      destruct (perform c (rev s)) as [m' a]. cbn [fst] in *. rewrite rev_involutive. exact Y.
    - cbn [m_build descending_maps] in E. destruct (from_iter_strict l) as [[m|]|] eqn:B; try discriminate. cbn [read] in E. injection E as <-.
      rewrite rev_involutive. apply (built_reachable l m B).
    - exact IH. }
  split; [reflexivity|]. split; [|split; [|split; [reflexivity|]]].
  - intros s c Os. pose proof (perform_iff (V := nat) interval_determined (rev s) c (X s Os)) as Y. cbn [does descending descending_maps m_methods].
    destruct (perform c (rev s)) as [m' a]. cbn [fst snd] in *. rewrite rev_involutive. apply Y. reflexivity.
  - intros l. apply (from_iter_strict_iff l). cbn [m_build descending_maps]. destruct (from_iter_strict l) as [[m|]|]; try reflexivity.
    cbn [read]. rewrite rev_involutive. reflexivity.
  - intros s s' _ _. apply (bt_eqb_eq (interval_eqb eqb) Nat.eqb (rev s) (rev s') u8_interval_eq Nat.eqb_eq).
Qed.
(** and programs do tell apart one whose [clone] loses the last entry. *)
Definition bad_copies : maps (I := u8) (K := Interval u8) (V := nat) :=
  {| m_methods := descending; m_build := m_build descending_maps; m_copy := fun s => tl s; m_same := m_same descending_maps |}.
Example C140_converse_ex :
  (forall R (p : program R), result_of descending_maps (nodit_sets (interval_eqb eqb)) p =
     result_of (nodit_maps (interval_eqb eqb) Nat.eqb) (nodit_sets (interval_eqb eqb)) p) /\
  result_of bad_copies (nodit_sets (interval_eqb eqb)) C140_program <>
  result_of (nodit_maps (interval_eqb eqb) Nat.eqb) (nodit_sets (interval_eqb eqb)) C140_program.
Proof.
  split.
  - destruct (C140_nodit_as_documented interval_determined (interval_eqb eqb) Nat.eqb u8_interval_eq Nat.eqb_eq) as [A B].
    exact (C140_indistinguishable interval_determined (interval_eqb eqb) Nat.eqb u8_interval_eq Nat.eqb_eq descending_maps _ (nodit_sets (interval_eqb eqb)) _ _ _ _ _
      descending_maps_documented A B B).
  - vm_compute. discriminate.
Qed.

Print Assumptions C140_indistinguishable_only_if_documented.
