(** * TreeFacts: searches do not depend on the shape of the tree. *)
From Coq Require Import List ZArith Bool Arith Lia ZifyBool Sorting.Sorted.
From Verif Require Import Base BTree TreeShape ListFacts.
Import ListNotations.
Open Scope nat_scope.

Scheme tree_ind2 := Induction for tree Sort Prop
  with edges_ind2 := Induction for edges Sort Prop.
Combined Scheme tree_mutind from tree_ind2, edges_ind2.

Definition olist {A} (o : option A) : list A := match o with Some x => [x] | None => [] end.
Lemma olist_length {A} (o : option A) : (if is_some o then 1 else 0) = length (olist o).
Proof. destruct o; reflexivity. Qed.
Lemma firstn_app_exact {A} (a b : list A) : firstn (length a) (a ++ b) = a.
Proof. rewrite firstn_app, firstn_all, Nat.sub_diag. cbn. apply app_nil_r. Qed.

Section Facts.
  Context {K V : Type}.
  Notation store := (BTreeMap K V).
  Implicit Types (l : store) (comp : K -> comparison) (t : tree K V) (n : edges K V).

  (** The answers along the entries: some [Gt], at most one [Eq], some [Lt]. *)
  Definition follows (x y : comparison) : Prop := x = Gt \/ y = Lt.
  Definition orderly comp l : Prop := StronglySorted (fun a b => follows (comp (fst a)) (comp (fst b))) l.
  (** The same with any number of [Eq]. *)
  Definition follows' (x y : comparison) : Prop := x = Gt \/ y = Lt \/ (x = Eq /\ y = Eq).
  Definition orderly' comp l : Prop := StronglySorted (fun a b => follows' (comp (fst a)) (comp (fst b))) l.
  Lemma orderly_weak comp l : orderly comp l -> orderly' comp l.
  Proof.
    induction l as [|a l IH]; intros O; [constructor|]. apply SS_cons in O. destruct O as [O F]. apply SS_cons. split; [apply IH, O|].
    eapply Forall_impl; [|exact F]. unfold follows, follows'. tauto.
  Qed.

  (** A place: before it nothing [Lt], after it nothing [Gt], ... *)
  Definition right_place comp l (r : place) : Prop :=
    let '(a, x, b) := r in
    l = a ++ olist x ++ b /\
    match x with
    | Some kv => comp (fst kv) = Eq
    | None => Forall (fun e => comp (fst e) = Gt) a /\ Forall (fun e => comp (fst e) = Lt) b
    end.

  Lemma after_Lt comp kv l : orderly' comp (kv :: l) -> comp (fst kv) = Lt -> Forall (fun e => comp (fst e) = Lt) l.
  Proof.
    intros O E. apply SS_cons in O. destruct O as [_ F]. eapply Forall_impl; [|exact F]. intros e X. unfold follows' in X. rewrite E in X.
    destruct X as [X|[X|[X _]]]; [discriminate|exact X|discriminate].
  Qed.
  Lemma before_Gt comp kv l1 l2 : orderly' comp (l1 ++ kv :: l2) -> comp (fst kv) = Gt -> Forall (fun e => comp (fst e) = Gt) l1.
  Proof.
    intros O E. apply SS_app in O. destruct O as (_ & _ & F). apply Forall_forall. intros e He. specialize (F e kv He (or_introl eq_refl)).
    unfold follows' in F. rewrite E in F. destruct F as [X|[X|[_ X]]]; [exact X|discriminate|discriminate].
  Qed.

  Lemma search_place comp :
    (forall t, orderly' comp (entries t) -> right_place comp (entries t) (search comp t)) /\
    (forall n, orderly' comp (edges_entries n) -> right_place comp (edges_entries n) (search_node comp n)).
  Proof.
    apply tree_mutind.
    - intros _. split; [reflexivity|split; constructor].
    - intros n IH O. apply IH, O.
    - intros t IH O. apply IH, O.
    - intros t IHt kv n IHn O. change (edges_entries (More t kv n)) with (entries t ++ kv :: edges_entries n) in *.
      change (search_node comp (More t kv n)) with (match comp (fst kv) with
        | Gt => let '(a, x, b) := search_node comp n in (entries t ++ kv :: a, x, b)
        | Eq => (entries t, Some kv, edges_entries n)
        | Lt => let '(a, x, b) := search comp t in (a, x, b ++ kv :: edges_entries n) end).
      pose proof O as O'. apply SS_app in O'. destruct O' as (Ot & On & _). pose proof On as On'. apply SS_cons in On'. destruct On' as [On' _].
      destruct (comp (fst kv)) eqn:E.
      + split; [reflexivity|exact E].
      + specialize (IHt Ot). destruct (search comp t) as [[a x] b]. unfold right_place in *. destruct IHt as [Et Fx]. split.
        * rewrite Et, <- !app_assoc. reflexivity.
        * destruct x as [kv'|]; [exact Fx|]. destruct Fx as [Fa Fb]. split; [exact Fa|]. apply Forall_app. split; [exact Fb|].
          constructor; [exact E|]. apply (after_Lt comp kv); [exact On|exact E].
      + specialize (IHn On'). destruct (search_node comp n) as [[a x] b]. unfold right_place in *. destruct IHn as [En Fx]. split.
        * rewrite En, <- app_assoc. reflexivity.
        * destruct x as [kv'|]; [exact Fx|]. destruct Fx as [Fa Fb]. split; [|exact Fb]. apply Forall_app. split.
          -- apply (before_Gt comp kv _ _ O E).
          -- constructor; [exact E|exact Fa].
  Qed.

  (** With at most one [Eq] the place is unique: that of [seek]. *)
  Definition seek_place comp l : place :=
    let (a, b) := seek comp l in
    match b with
    | kv :: r => match comp (fst kv) with Eq => (a, Some kv, r) | _ => (a, None, b) end
    | [] => (a, None, [])
    end.
  Lemma seek_Gt comp (a b : store) : Forall (fun e => comp (fst e) = Gt) a -> seek comp (a ++ b) = (a ++ fst (seek comp b), snd (seek comp b)).
  Proof.
    induction a as [|[k v] a IH]; intros F; cbn; [destruct (seek comp b); reflexivity|].
    apply Forall_cons_iff in F. destruct F as [E F]. cbn in E. rewrite E, IH by exact F. reflexivity.
  Qed.
  Lemma seek_stop comp (b : store) : (forall kv r, b = kv :: r -> comp (fst kv) <> Gt) -> seek comp b = ([], b).
  Proof.
    destruct b as [|[k v] r]; intros N; [reflexivity|]. cbn. specialize (N (k, v) r eq_refl). cbn in N. destruct (comp k); [reflexivity|reflexivity|congruence].
  Qed.
  Lemma place_unique comp l r : orderly comp l -> right_place comp l r -> r = seek_place comp l.
  Proof.
    destruct r as [[a x] b]. intros O [E F]. unfold seek_place. destruct x as [kv|]; cbn [olist] in E.
    - assert (Fa : Forall (fun e => comp (fst e) = Gt) a).
      { rewrite E in O. apply SS_app in O. destruct O as (_ & _ & X). apply Forall_forall. intros e He. specialize (X e kv He (or_introl eq_refl)).
        unfold follows in X. rewrite F in X. destruct X as [X|X]; [exact X|discriminate]. }
      rewrite E, (seek_Gt comp a) by exact Fa. rewrite seek_stop; cbn [fst snd].
      + cbn [app]. rewrite F, app_nil_r. reflexivity.
      + intros kv' r X. injection X as <- <-. rewrite F. discriminate.
    - destruct F as [Fa Fb]. cbn [app] in E. rewrite E, (seek_Gt comp a) by exact Fa. rewrite seek_stop; cbn [fst snd].
      + destruct b as [|kv b]; [rewrite app_nil_r; reflexivity|]. apply Forall_inv in Fb. rewrite Fb, app_nil_r. reflexivity.
      + intros kv' r ->. apply Forall_inv in Fb. rewrite Fb. discriminate.
  Qed.
  Lemma search_seek comp t : orderly comp (entries t) -> search comp t = seek_place comp (entries t).
  Proof. intros O. apply place_unique; [exact O|]. apply search_place, orderly_weak, O. Qed.

  Lemma orderly_shape_free comp l : orderly comp l -> shape_free comp l.
  Proof.
    intros O t E. subst l. unfold t_get_key_value, t_get_mut, t_remove, t_lower_bound, t_upper_bound, get_key_value, get_mut, remove, lower_bound, upper_bound.
    rewrite (search_seek comp t O). unfold seek_place.
    destruct (seek comp (entries t)) as [a [|[k v] b]]; cbn [fst snd]; [repeat split; reflexivity|]. destruct (comp k); repeat split; reflexivity.
  Qed.
  Lemma orderly_insert_shape_free key (comp : K -> K -> comparison) l : orderly (fun inner => comp inner key) l -> insert_shape_free key comp l.
  Proof.
    intros O t v E. subst l. unfold t_insert, insert. rewrite (search_seek _ t O). unfold seek_place.
    destruct (seek (fun inner => comp inner key) (entries t)) as [a [|[k v'] b]]; cbn [fst snd]; [reflexivity|]. destruct (comp k key); reflexivity.
  Qed.

  Lemma skipn_app_exact {A} (a b : list A) : skipn (length a) (a ++ b) = b.
  Proof. rewrite skipn_app, skipn_all, Nat.sub_diag. reflexivity. Qed.
  Lemma take_upper_Gt comp (a b : store) : Forall (fun e => comp (fst e) = Gt) a -> take_upper comp (a ++ b) = a ++ take_upper comp b.
  Proof.
    induction a as [|[k v] a IH]; intros F; [reflexivity|]. apply Forall_cons_iff in F. destruct F as [E F]. cbn in *. rewrite E, IH by exact F. reflexivity.
  Qed.
  Lemma take_upper_Lt comp (b : store) : Forall (fun e => comp (fst e) = Lt) b -> take_upper comp b = [].
  Proof. destruct b as [|[k v] b]; intros F; [reflexivity|]. apply Forall_inv in F. cbn in *. rewrite F. reflexivity. Qed.
  Lemma seek_split_list comp l : l = fst (seek comp l) ++ snd (seek comp l).
  Proof.
    induction l as [|[k v] l IH]; [reflexivity|]. cbn. destruct (comp k); [reflexivity|reflexivity|]. destruct (seek comp l) as [a b]. cbn in *. f_equal. exact IH.
  Qed.
  Lemma orderly_range_shape_free lower upper l : orderly lower l -> orderly upper l -> range_shape_free lower upper l.
  Proof.
    intros Ol Ou t E. subst l. unfold t_range, range. rewrite (search_seek lower t Ol).
    pose proof (search_place upper) as [X _]. specialize (X t (orderly_weak _ _ Ou)). destruct (search upper t) as [[a' x'] b'].
    set (l := entries t) in *. clearbody l. clear t Ol.
    assert (EA : exists x y, seek_place lower l = (fst (seek lower l), x, y)).
    { unfold seek_place. destruct (seek lower l) as [a [|kv b]]; cbn [fst]; [eauto|]. destruct (lower (fst kv)); eauto. }
    destruct EA as (x0 & y0 & EA). rewrite EA. pose proof (seek_split_list lower l) as El. destruct (seek lower l) as [a b]. cbn [fst snd] in *.
    destruct X as [E' F'].
    assert (FF : Forall (fun e => upper (fst e) = Gt) a' /\ Forall (fun e => upper (fst e) = Lt) b').
    { destruct x' as [kv|]; [|exact F']. cbn [olist app] in E'. rewrite E' in Ou. apply SS_app in Ou. destruct Ou as (_ & Ou & X). apply SS_cons in Ou. destruct Ou as [_ Fb].
      split.
      - apply Forall_forall. intros e He. specialize (X e kv He (or_introl eq_refl)). unfold follows in X. rewrite F' in X. destruct X as [X|X]; [exact X|discriminate].
      - eapply Forall_impl; [|exact Fb]. intros e [X'|X']; [rewrite F' in X'; discriminate|exact X']. }
    destruct FF as [Fa Fb].
    assert (EF : firstn (length a' + length (olist x')) l = a' ++ olist x').
    { rewrite E', app_assoc, <- app_length. apply firstn_app_exact. }
    rewrite olist_length, EF. clear EF EA x0 y0.
    (* compare the two places *)
    destruct (Nat.le_gt_cases (length a) (length a')) as [L|L].
    - assert (S1 : exists m, a' = a ++ m /\ b = m ++ olist x' ++ b').
      { rewrite El in E'. exists (skipn (length a) a'). assert (P : a = firstn (length a) a').
        { apply (f_equal (firstn (length a))) in E'. rewrite firstn_app_exact, firstn_app in E'. replace (length a - length a') with 0 in E' by lia.
          cbn [firstn] in E'. rewrite app_nil_r in E'. exact E'. }
        assert (P' : a' = a ++ skipn (length a) a') by (rewrite P at 1; rewrite firstn_skipn; reflexivity). split; [exact P'|].
        rewrite P', <- app_assoc in E'. apply app_inv_head in E'. exact E'. }
      destruct S1 as (m & -> & ->). rewrite <- app_assoc, skipn_app_exact. apply Forall_app in Fa. destruct Fa as [_ Fm].
      rewrite take_upper_Gt by exact Fm. f_equal. destruct x' as [[k v]|]; cbn [olist app take_upper].
      + cbn in F'. rewrite F'. reflexivity.
      + symmetry. apply take_upper_Lt, Fb.
    - assert (S1 : Forall (fun e => upper (fst e) = Lt) b /\ length (olist x') <= 1).
      { split; [|destruct x'; cbn; lia]. rewrite El in E'. assert (Lx : length (a' ++ olist x') <= length a) by (rewrite app_length; destruct x'; cbn; lia).
        rewrite app_assoc in E'. apply (f_equal (skipn (length a))) in E'. rewrite skipn_app_exact, skipn_app, (skipn_all2 (a' ++ olist x')) in E' by lia.
        cbn [app] in E'. rewrite E'. apply Forall_forall. intros e He. rewrite Forall_forall in Fb. apply Fb.
        rewrite <- (firstn_skipn (length a - length (a' ++ olist x')) b'). apply in_app_iff. right. exact He. }
      destruct S1 as [Fb' Lx]. rewrite take_upper_Lt by exact Fb'. apply skipn_all2. rewrite app_length. lia.
  Qed.
End Facts.
