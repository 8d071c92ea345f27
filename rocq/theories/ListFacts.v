(** * ListFacts: generic facts on lists, [seek], cursors and [sub]. *)
From Coq Require Import List ZArith Bool Lia ZifyBool Sorting.Sorted.
From Verif Require Import Base BTree Spec.
Import ListNotations.
Open Scope Z_scope.

Section SS.
  Context {A : Type} (R : A -> A -> Prop).

  Lemma SS_app l1 l2 :
    StronglySorted R (l1 ++ l2) <->
    StronglySorted R l1 /\ StronglySorted R l2 /\ (forall x y, In x l1 -> In y l2 -> R x y).
  Proof.
    induction l1 as [|a l1 IH]; cbn [app].
    - split; [intros Hs|intros (_ & Hs & _); exact Hs].
      split; [constructor|split; [exact Hs|intros x y []]].
    - split.
      + intros Hs. inversion Hs as [|? ? Hs' Hf]; subst.
        apply IH in Hs'. destruct Hs' as (H1 & H2 & H3).
        rewrite Forall_app in Hf. destruct Hf as [Hf1 Hf2].
        split; [constructor; assumption|split; [exact H2|]].
        intros x y [<-|Hx] Hy; [|auto].
        rewrite Forall_forall in Hf2. auto.
      + intros (H1 & H2 & H3). inversion H1 as [|? ? H1' Hf]; subst.
        constructor.
        * apply IH. split; [assumption|split; [assumption|]]. intros x y Hx Hy. apply H3; [right|]; assumption.
        * rewrite Forall_app. split; [assumption|]. rewrite Forall_forall. intros y Hy.
          apply H3; [left; reflexivity|assumption].
  Qed.

  Lemma SS_cons a l : StronglySorted R (a :: l) <-> StronglySorted R l /\ Forall (R a) l.
  Proof. split; [intros Hs; inversion Hs; auto|intros [? ?]; constructor; assumption]. Qed.

  Lemma SS_one a : StronglySorted R [a].
  Proof. repeat constructor. Qed.
End SS.

Lemma SS_map {A B} (f : A -> B) (R : B -> B -> Prop) l :
  StronglySorted R (map f l) <-> StronglySorted (fun x y => R (f x) (f y)) l.
Proof.
  induction l as [|a l IH]; cbn [map]; [split; constructor|].
  rewrite !SS_cons, IH, Forall_map. reflexivity.
Qed.

Lemma SS_impl {A} (P : A -> Prop) (R S : A -> A -> Prop) l :
  (forall x y, P x -> P y -> R x y -> S x y) -> Forall P l ->
  StronglySorted R l -> StronglySorted S l.
Proof.
  intros HRS. induction l as [|a l IH]; intros HP Hs; [constructor|].
  inversion HP; subst. rewrite SS_cons in *. destruct Hs as [Hs Hf].
  split; [auto|]. rewrite Forall_forall in *. intros x Hx. apply HRS; auto.
Qed.

(** ** [sub] *)
Section Sub.
  Context {A : Type}.

  Lemma sub_app (P : A -> Prop) l1 l2 l1' l2' :
    sub P l1 l1' -> sub P l2 l2' -> sub P (l1 ++ l2) (l1' ++ l2').
  Proof. induction 1; intros; cbn; [assumption|constructor; auto..]. Qed.
  Lemma sub_all (P : A -> Prop) l : Forall P l -> sub P l l.
  Proof. induction 1; constructor; auto. Qed.
  Lemma sub_none (P : A -> Prop) l : Forall (fun x => ~ P x) l -> sub P l [].
  Proof. induction 1; constructor; auto. Qed.
  Lemma sub_in (P : A -> Prop) l l' : sub P l l' -> forall x, In x l' <-> In x l /\ P x.
  Proof.
    induction 1 as [|a l l' Ha Hs IH|a l l' Ha Hs IH]; intros x; cbn.
    - tauto.
    - rewrite IH. split; [intros [->|]; tauto|intros [[->|] ?]; tauto].
    - rewrite IH. split; [tauto|intros [[->|] ?]; tauto].
  Qed.
  Lemma sub_impl (P Q : A -> Prop) l l' : (forall x, In x l -> (P x <-> Q x)) -> sub P l l' -> sub Q l l'.
  Proof.
    intros HPQ Hs. induction Hs as [|a l l' Ha Hs IH|a l l' Ha Hs IH]; constructor;
      try (apply IH; intros; apply HPQ; right; assumption);
      rewrite <- HPQ; try assumption; left; reflexivity.
  Qed.
  Lemma sub_unique (P : A -> Prop) l l1 l2 : sub P l l1 -> sub P l l2 -> l1 = l2.
  Proof.
    intros H1. revert l2. induction H1 as [|a l l' Ha Hs IH|a l l' Ha Hs IH]; intros l2 H2;
      inversion H2; subst; try contradiction; f_equal; auto.
  Qed.
  Lemma sub_filter (P : A -> Prop) (f : A -> bool) l :
    (forall x, In x l -> (f x = true <-> P x)) -> sub P l (filter f l).
  Proof.
    induction l as [|a l IH]; intros Hf; cbn; [constructor|].
    assert (IH' : sub P l (filter f l)) by (apply IH; intros; apply Hf; right; assumption).
    destruct (f a) eqn:E.
    - apply sub_keep; [apply Hf; [left; reflexivity|exact E]|exact IH'].
    - apply sub_drop; [|exact IH']. rewrite <- Hf; [congruence|left; reflexivity].
  Qed.
End Sub.

(** ** [seek] and what is built on it *)
Section Seek.
  Context {K V : Type}.
  Implicit Types (A B l : BTreeMap K V) (comp : K -> comparison).

  Definition head_not_gt comp B : Prop :=
    match B with [] => True | (k, _) :: _ => comp k <> Gt end.

  Lemma seek_app comp A B :
    Forall (fun e => comp (fst e) = Gt) A -> head_not_gt comp B -> seek comp (A ++ B) = (A, B).
  Proof.
    intros HA HB. induction HA as [|[k v] A Hk HA IH]; cbn [app seek].
    - destruct B as [|[k v] B]; [reflexivity|]. cbn in *.
      destruct (comp k); [reflexivity..|congruence].
    - cbn in Hk. rewrite Hk, IH. reflexivity.
  Qed.

  Lemma head_not_gt_all comp B : Forall (fun e => comp (fst e) <> Gt) B -> head_not_gt comp B.
  Proof. destruct 1 as [|[k v] B]; cbn; auto. Qed.

  Lemma get_key_value_hit comp A k v B :
    Forall (fun e => comp (fst e) = Gt) A -> comp k = Eq ->
    get_key_value comp (A ++ (k, v) :: B) = Some (k, v).
  Proof.
    intros HA Hk. unfold get_key_value. rewrite seek_app; cbn; [|exact HA|congruence].
    rewrite Hk. reflexivity.
  Qed.
  Lemma get_key_value_miss comp A B :
    Forall (fun e => comp (fst e) = Gt) A -> Forall (fun e => comp (fst e) = Lt) B ->
    get_key_value comp (A ++ B) = None.
  Proof.
    intros HA HB. unfold get_key_value. rewrite seek_app; [|exact HA|].
    - destruct HB as [|[k v] B Hk]; cbn in *; [reflexivity|]. rewrite Hk. reflexivity.
    - destruct HB as [|[k v] B Hk]; cbn in *; [exact Logic.I|]. congruence.
  Qed.
  Lemma remove_hit comp A k v B :
    Forall (fun e => comp (fst e) = Gt) A -> comp k = Eq ->
    remove comp (A ++ (k, v) :: B) = (A ++ B, Some v).
  Proof.
    intros HA Hk. unfold remove. rewrite seek_app; cbn; [|exact HA|congruence].
    rewrite Hk. reflexivity.
  Qed.
  Lemma remove_miss comp A B :
    Forall (fun e => comp (fst e) = Gt) A -> Forall (fun e => comp (fst e) = Lt) B ->
    remove comp (A ++ B) = (A ++ B, None).
  Proof.
    intros HA HB. unfold remove. rewrite seek_app; [|exact HA|].
    - destruct HB as [|[k v] B Hk]; cbn in *; [reflexivity|]. rewrite Hk. reflexivity.
    - destruct HB as [|[k v] B Hk]; cbn in *; [exact Logic.I|]. congruence.
  Qed.
  Lemma get_mut_hit comp f A k v B :
    Forall (fun e => comp (fst e) = Gt) A -> comp k = Eq ->
    get_mut comp f (A ++ (k, v) :: B) = (A ++ (k, f v) :: B, Some v).
  Proof.
    intros HA Hk. unfold get_mut. rewrite seek_app; cbn; [|exact HA|congruence].
    rewrite Hk. reflexivity.
  Qed.
  Lemma get_mut_miss comp f A B :
    Forall (fun e => comp (fst e) = Gt) A -> Forall (fun e => comp (fst e) = Lt) B ->
    get_mut comp f (A ++ B) = (A ++ B, None).
  Proof.
    intros HA HB. unfold get_mut. rewrite seek_app; [|exact HA|].
    - destruct HB as [|[k v] B Hk]; cbn in *; [reflexivity|]. rewrite Hk. reflexivity.
    - destruct HB as [|[k v] B Hk]; cbn in *; [exact Logic.I|]. congruence.
  Qed.

  Lemma take_upper_app comp M B :
    Forall (fun e => comp (fst e) = Gt) M -> Forall (fun e => comp (fst e) = Lt) B ->
    take_upper comp (M ++ B) = M.
  Proof.
    intros HM HB. induction HM as [|[k v] M Hk HM IH]; cbn [app take_upper].
    - destruct HB as [|[k v] B Hk]; cbn in *; [reflexivity|]. rewrite Hk. reflexivity.
    - cbn in Hk. rewrite Hk, IH. reflexivity.
  Qed.
  Lemma take_upper_hit comp M k v B :
    Forall (fun e => comp (fst e) = Gt) M -> comp k = Eq ->
    take_upper comp (M ++ (k, v) :: B) = M ++ [(k, v)].
  Proof.
    intros HM Hk. induction HM as [|[k' v'] M Hk' HM IH]; cbn [app take_upper].
    - rewrite Hk. reflexivity.
    - cbn in Hk'. rewrite Hk', IH. reflexivity.
  Qed.
  Lemma map_upper_app comp f M B :
    Forall (fun e => comp (fst e) = Gt) M -> Forall (fun e => comp (fst e) = Lt) B ->
    map_upper comp f (M ++ B) = map_values f M ++ B.
  Proof.
    intros HM HB. induction HM as [|[k v] M Hk HM IH]; cbn [app map_upper map_values map].
    - destruct HB as [|[k v] B Hk]; cbn in *; [reflexivity|]. rewrite Hk. reflexivity.
    - cbn in Hk. rewrite Hk, IH. reflexivity.
  Qed.
  Lemma map_upper_hit comp f M k v B :
    Forall (fun e => comp (fst e) = Gt) M -> comp k = Eq ->
    map_upper comp f (M ++ (k, v) :: B) = map_values f (M ++ [(k, v)]) ++ B.
  Proof.
    intros HM Hk. induction HM as [|[k' v'] M Hk' HM IH]; cbn [app map_upper map_values map].
    - rewrite Hk. reflexivity.
    - cbn in Hk'. rewrite Hk', IH. reflexivity.
  Qed.

  Lemma insert_miss key value (comp : K -> K -> comparison) A B :
    Forall (fun e => comp (fst e) key = Gt) A -> Forall (fun e => comp (fst e) key = Lt) B ->
    insert key value comp (A ++ B) = (A ++ (key, value) :: B, None).
  Proof.
    intros HA HB. unfold insert. rewrite seek_app; [|exact HA|].
    - destruct HB as [|[k v] B Hk]; cbn in *; [reflexivity|]. rewrite Hk. reflexivity.
    - destruct HB as [|[k v] B Hk]; cbn in *; [exact Logic.I|]. congruence.
  Qed.

  Lemma move_prev_snoc A kv B : move_prev (A ++ [kv], B) = (A, kv :: B).
  Proof. unfold move_prev. cbn. rewrite rev_app_distr. cbn. rewrite rev_involutive. reflexivity. Qed.
  Lemma move_prev_nil B : move_prev ([] : BTreeMap K V, B) = (B, []).
  Proof. reflexivity. Qed.

  Lemma bt_last_snoc l kv : bt_last (l ++ [kv]) = Some kv.
  Proof.
    induction l as [|a l IH]; [reflexivity|]. cbn [app bt_last].
    destruct (l ++ [kv]) as [|x r] eqn:E; [destruct l; discriminate|exact IH].
  Qed.
End Seek.

Lemma snoc_cases {A} (l : list A) : l = [] \/ exists l' a, l = l' ++ [a].
Proof.
  destruct l as [|a l]; [left; reflexivity|right].
  destruct (exists_last (l := a :: l)) as [l' [b E]]; [discriminate|]. eauto.
Qed.

Lemma Forall2_impl {A B} (P Q : A -> B -> Prop) l l' :
  (forall a b, P a b -> Q a b) -> Forall2 P l l' -> Forall2 Q l l'.
Proof. intros HPQ. induction 1; constructor; auto. Qed.
Lemma Forall2_in_l {A B} (P : A -> B -> Prop) l l' a :
  Forall2 P l l' -> In a l -> exists b, In b l' /\ P a b.
Proof.
  induction 1 as [|x y l l' Hxy HF IH]; intros Ha; [destruct Ha|].
  destruct Ha as [<-|Ha]; [exists y; split; [left; reflexivity|exact Hxy]|].
  destruct (IH Ha) as (b & Hb & Hab). exists b. split; [right; exact Hb|exact Hab].
Qed.
Lemma Forall2_in_r {A B} (P : A -> B -> Prop) l l' b :
  Forall2 P l l' -> In b l' -> exists a, In a l /\ P a b.
Proof.
  induction 1 as [|x y l l' Hxy HF IH]; intros Hb; [destruct Hb|].
  destruct Hb as [<-|Hb]; [exists x; split; [left; reflexivity|exact Hxy]|].
  destruct (IH Hb) as (a & Ha & Hab). exists a. split; [right; exact Ha|exact Hab].
Qed.
