(** * EffectBulkFacts: lemmas for C159. *)
From Coq Require Import List Bool Arith Permutation Lia.
From Verif Require Import Base BTree UtilsModel IntervalModel NoditModel NoditOps ZosditModel ZosditOps Spec TreeShape
  NoditInv ZosditProofs EffectModel EffectOps EffectZosditModel EffectZosditOps EffectFacts EffectZosditFacts EffectRight EffectZosditRight EffectBulkModel.
Import ListNotations.

Section Load.
  Context {W K V M E : Type} (next : user W (result (option (K * V)) E)).
  Context (insert : nat -> K -> V -> M -> W -> (M * outcome (result unit E)) * W).
  Implicit Types (w : W) (l : list (K * V)).
  Lemma load_step fuel i m w : load_e next insert (S fuel) i m w =
    match next w with
    | (Panic, w) => (LStopped true, [], w)
    | (Val (Err e), w) => (LFailed e, [], w)
    | (Val (Ok None), w) => (LDone m, [], w)
    | (Val (Ok (Some (k, v))), w) =>
        match insert i k v m w with
        | ((_, Panic), w) => (LStopped false, [(k, v)], w)
        | ((_, Val (Err e)), w) => (LRefused e, [(k, v)], w)
        | ((m, Val (Ok _)), w) => let '(r, l, w) := load_e next insert fuel (S i) m w in (r, (k, v) :: l, w)
        end
    end.
  Proof. reflexivity. Qed.
  (** The cases of a run that does something. *)
  Lemma load_inv (fuel i : nat) m w r l w' : load_e next insert (S fuel) i m w = (r, l, w') ->
    (l = [] /\ match r with LStopped true | LFailed _ => True | LDone m' => m' = m | _ => False end) \/
    exists k v w1 m1 o w2, insert i k v m w1 = ((m1, o), w2) /\
      ((l = [(k, v)] /\ (o = Panic /\ r = LStopped false \/ exists e, o = Val (Err e) /\ r = LRefused e)) \/
       exists u l', o = Val (Ok u) /\ l = (k, v) :: l' /\ load_e next insert fuel (S i) m1 w2 = (r, l', w')).
  Proof.
    rewrite load_step. destruct (next w) as [[[[[k v]|]|e]|] w1].
    - destruct (insert i k v m w1) as [[m1 [[u|e]|]] w2] eqn:X.
      + destruct (load_e _ _ _ _ m1 w2) as [[r' l'] w3] eqn:Y. intros E'; inversion E'; subst. right. exists k, v, w1, m1, (Val (Ok u)), w2. split; [exact X|]. right. exists u, l'. auto.
      + intros E'; inversion E'; subst. right. exists k, v, w1, m1, (Val (Err e)), w'. split; [exact X|]. left. split; [reflexivity|]. right. exists e. auto.
      + intros E'; inversion E'; subst. right. exists k, v, w1, m1, Panic, w'. split; [exact X|]. left. auto.
    - intros E'; inversion E'; subst. left. auto.
    - intros E'; inversion E'; subst. left. auto.
    - intros E'; inversion E'; subst. left. auto.
  Qed.
  Lemma load_running fuel : forall i m w r l w', load_e next insert fuel i m w = (r, l, w') -> length l <= fuel /\ (r = LRunning -> length l = fuel).
  Proof.
    induction fuel as [|fuel IH]; intros i m w r l w' X; [inversion X; subst; auto|]. apply load_inv in X.
    destruct X as [[-> X]|(k & v & w1 & m1 & o & w2 & _ & [[-> X]|(u & l' & _ & -> & X)])].
    - split; [cbn; lia|]. intros ->. destruct X.
    - split; [cbn; lia|]. intros ->. destruct X as [[_ X]|(e & _ & X)]; discriminate X.
    - apply IH in X. destruct X as [X Y]. cbn [length]. split; [lia|]. intros R. rewrite (Y R). reflexivity.
  Qed.
  Lemma load_fuel fuel : forall more i m w r l w', load_e next insert fuel i m w = (r, l, w') -> r <> LRunning -> load_e next insert (fuel + more) i m w = (r, l, w').
  Proof.
    induction fuel as [|fuel IH]; intros more i m w r l w'; [intros X; inversion X; subst; congruence|]. cbn [Nat.add]. rewrite !load_step.
    destruct (next w) as [[[[[k v]|]|e]|] w1]; trivial. destruct (insert i k v m w1) as [[m1 [[u|e]|]] w2]; trivial.
    destruct (load_e _ _ fuel (S i) m1 w2) as [[r' l'] w3] eqn:Y. intros X N. inversion X; subst. rewrite (IH more _ _ _ _ _ _ Y N). reflexivity.
  Qed.
  (** What each insertion keeps up, the loop does. *)
  Lemma load_keeps (Inv : M -> list (K * V) -> Prop) :
    (forall i k v m w m' u w' l, insert i k v m w = ((m', Val (Ok u)), w') -> Inv m l -> Inv m' (l ++ [(k, v)])) ->
    forall fuel i m w m' l w' l0, load_e next insert fuel i m w = (LDone m', l, w') -> Inv m l0 -> Inv m' (l0 ++ l).
  Proof.
    intros HI. induction fuel as [|fuel IH]; intros i m w m' l w' l0 X I0; [discriminate X|]. apply load_inv in X.
    destruct X as [[-> ->]|(k & v & w1 & m1 & o & w2 & Y & [[_ [[_ X]|(e & _ & X)]]|(u & l' & -> & -> & X)])]; [rewrite app_nil_r; exact I0|discriminate X|discriminate X|].
    change (l0 ++ (k, v) :: l') with (l0 ++ [(k, v)] ++ l'). rewrite app_assoc. exact (IH _ _ _ _ _ _ _ X (HI _ _ _ _ _ _ _ _ _ Y I0)).
  Qed.
  Lemma load_refused (given : V -> E -> Prop) : (forall i k v m w m' e w', insert i k v m w = ((m', Val (Err e)), w') -> given v e) ->
    forall fuel i m w e l w', load_e next insert fuel i m w = (LRefused e, l, w') -> exists l0 k v, l = l0 ++ [(k, v)] /\ given v e.
  Proof.
    intros HI. induction fuel as [|fuel IH]; intros i m w e l w' X; [discriminate X|]. apply load_inv in X.
    destruct X as [[_ []]|(k & v & w1 & m1 & o & w2 & Y & [[-> [[_ X]|(e' & -> & X)]]|(u & l' & -> & -> & X)])].
    - discriminate X.
    - inversion X; subst. exists [], k, v. split; [reflexivity|]. exact (HI _ _ _ _ _ _ _ _ Y).
    - destruct (IH _ _ _ _ _ _ X) as (l0 & k' & v' & -> & G). exists ((k, v) :: l0), k', v'. auto.
  Qed.
  (** The same loop without side effects. *)
  Context {E' : Type} (err : E -> E') (Good : M -> Prop) (ins : K -> V -> M -> M * outcome (result unit E')).
  Definition erring (x : M * outcome (result unit E)) : M * outcome (result unit E') :=
    (fst x, match snd x with Panic => Panic | Val (Ok _) => Val (Ok tt) | Val (Err e) => Val (Err (err e)) end).
  Fixpoint loop l m : outcome (result M E') :=
    match l with
    | [] => Val (Ok m)
    | (k, v) :: l => match ins k v m with (_, Panic) => Panic | (_, Val (Err e)) => Val (Err e) | (m, Val (Ok _)) => loop l m end
    end.
  Lemma load_right : (forall i k v m w, Good m -> erring (fst (insert i k v m w)) = ins k v m) -> (forall k v m, Good m -> Good (fst (ins k v m))) ->
    forall fuel i m w r l w', load_e next insert fuel i m w = (r, l, w') -> Good m ->
    match r with
    | LDone m' => loop l m = Val (Ok m')
    | LRefused e => loop l m = Val (Err (err e))
    | LStopped false => loop l m = Panic
    | LFailed _ | LStopped true | LRunning => exists m', loop l m = Val (Ok m')
    end.
  Proof.
    intros HI HG. induction fuel as [|fuel IH]; intros i m w r l w' X G; [inversion X; subst; exists m; reflexivity|]. apply load_inv in X.
    destruct X as [[-> X]|(k & v & w1 & m1 & o & w2 & Y & X)].
    - destruct r as [m'|e|e|[]|]; try destruct X; try (exists m; reflexivity). subst. reflexivity.
    - pose proof (HI i k v m w1 G) as Z. pose proof (HG k v m G) as G1. rewrite Y in Z. unfold erring in Z. cbn [fst snd] in Z. rewrite <- Z in G1. cbn [fst] in G1.
      destruct X as [[-> [[-> ->]|(e & -> & ->)]]|(u & l' & -> & -> & X)]; cbn [loop]; rewrite <- Z; [reflexivity|reflexivity|]. exact (IH _ _ _ _ _ _ X G1).
  Qed.
End Load.

Section OrCustom.
  Context {W V M E : Type} (custom : user W E).
  Lemma or_custom_inv (x : (M * outcome (result unit V)) * W) m o w : or_custom custom x = ((m, o), w) ->
    exists o' w1, x = ((m, o'), w1) /\ match o with Val (Ok _) => o' = Val (Ok tt) | Val (Err _) => exists v, o' = Val (Err v) | Panic => True end.
  Proof.
    destruct x as [[m' [r|]] w1]; cbn [or_custom].
    - destruct (custom w1) as [[e|] w2]; intros X; inversion X; subst; exists (Val r), w1; (split; [reflexivity|]); destruct r as [[]|v]; [reflexivity|exists v; reflexivity|exact Logic.I|exact Logic.I].
    - intros X; inversion X; subst. exists Panic, w. auto.
  Qed.
  Lemma or_custom_right (x : (M * outcome (result unit V)) * W) : calm custom ->
    erring (fun _ => DeOverlap) (fst (or_custom custom x)) = (fst (fst x), match snd (fst x) with Panic => Panic | Val (Ok _) => Val (Ok tt) | Val (Err _) => Val (Err DeOverlap) end).
  Proof.
    intros A. destruct x as [[m' [r|]] w1]; cbn [or_custom fst snd]; [|reflexivity]. specialize (A w1). destruct (custom w1) as [[e|] w2]; [|destruct (A eq_refl)].
    destruct r; reflexivity.
  Qed.
End OrCustom.

Section Save.
  Context {W K V A E : Type} (announce : nat -> user W (result unit E)) (element : K * V -> user W (result unit E)) (finish : user W (result A E)).
  Lemma save_inv (l : list (K * V)) : forall w o told w', save_e element finish l w = (o, told, w') -> exists rest, l = told ++ rest /\
    (match o with Val (Ok _) => rest = [] | _ => True end).
  Proof.
    induction l as [|x l IH]; intros w o told w'; cbn [save_e].
    - destruct (finish w) as [o' w1]. intros X; inversion X; subst. exists []. split; [reflexivity|]. destruct o as [[|]|]; trivial.
    - destruct (element x w) as [[[u|e]|] w1].
      + destruct (save_e _ _ l w1) as [[o' told'] w2] eqn:Y. intros X; inversion X; subst. destruct (IH _ _ _ _ Y) as (rest & -> & R). exists rest. auto.
      + intros X; inversion X; subst. exists l. auto.
      + intros X; inversion X; subst. exists l. auto.
  Qed.
  Lemma serialize_inv n (l : list (K * V)) w o n' told w' : serialize_e announce element finish n l w = (o, (n', told), w') -> n' = n /\ exists rest, l = told ++ rest /\
    (match o with Val (Ok _) => rest = [] | _ => True end).
  Proof.
    unfold serialize_e. destruct (announce n w) as [[[u|e]|] w1].
    - destruct (save_e _ _ l w1) as [[o' told'] w2] eqn:Y. intros X; inversion X; subst. split; [reflexivity|]. exact (save_inv _ _ _ _ _ Y).
    - intros X; inversion X; subst. split; [reflexivity|]. exists l. auto.
    - intros X; inversion X; subst. split; [reflexivity|]. exists l. auto.
  Qed.
End Save.

(** The two loops of [NoditMap] and of [ZosditMap]. *)
Section Loops.
  Context {I : Type} `{PL : PointLaws I}.
  Context {K : Type} {IK : InclusiveInterval I K} {IL : IntervalLaws I K}.
  Context {V : Type}.
  Lemma loop_strict (l : list (K * V)) : forall m, loop insert_strict l m = extend_strict l m.
  Proof. induction l as [|[k v] l IH]; intros m; [reflexivity|]. cbn [loop extend_strict]. destruct (insert_strict k v m) as [m1 [[u|e]|]]; trivial. Qed.
  Lemma loop_strict_back (l : list (K * V)) : forall z, loop insert_strict_back l z = extend_strict_back l z.
  Proof. induction l as [|[k v] l IH]; intros z; [reflexivity|]. cbn [loop extend_strict_back]. destruct (insert_strict_back k v z) as [m1 [[u|e]|]]; trivial. Qed.
  Definition custom_ins {M E} (f : K -> V -> M -> M * outcome (result unit V)) (e : E) k v m : M * outcome (result unit E) :=
    (fst (f k v m), match snd (f k v m) with Panic => Panic | Val (Ok _) => Val (Ok tt) | Val (Err _) => Val (Err e) end).
  Lemma loop_visit (l : list (K * V)) : forall m, loop (custom_ins insert_strict DeOverlap) l m = visit_seq (map Some l) m.
  Proof. induction l as [|[k v] l IH]; intros m; [reflexivity|]. cbn [loop visit_seq map]. unfold custom_ins at 1. destruct (insert_strict k v m) as [m1 [[u|e]|]]; cbn [fst snd]; trivial. Qed.
  Lemma loop_visit_back (l : list (K * V)) : forall z, loop (custom_ins insert_strict_back DeOverlap) l z = zosdit_visit_seq (map Some l) z.
  Proof. induction l as [|[k v] l IH]; intros m; [reflexivity|]. cbn [loop zosdit_visit_seq map]. unfold custom_ins at 1. destruct (insert_strict_back k v m) as [m1 [[u|e]|]]; cbn [fst snd]; trivial. Qed.
  Lemma visit_fails (l : list (K * V)) : forall m m', visit_seq (map Some l) m = Val (Ok m') -> visit_seq (map Some l ++ [None]) m = Val (Err DeElement).
  Proof. induction l as [|[k v] l IH]; intros m m'; [reflexivity|]. cbn [visit_seq map app]. destruct (insert_strict k v m) as [m1 [[u|e]|]]; [apply IH|discriminate|discriminate]. Qed.
  Lemma zvisit_fails (l : list (K * V)) : forall z z', zosdit_visit_seq (map Some l) z = Val (Ok z') -> zosdit_visit_seq (map Some l ++ [None]) z = Val (Err DeElement).
  Proof. induction l as [|[k v] l IH]; intros m m'; [reflexivity|]. cbn [zosdit_visit_seq map app]. destruct (insert_strict_back k v m) as [m1 [[u|e]|]]; [apply IH|discriminate|discriminate]. Qed.
End Loops.
