(** * CloneZosdit: ZosditMap never looks at its values, and ZosditMap with an
      arbitrary [Clone] (C115, C116). *)
From Coq Require Import List ZArith Bool Lia ZifyBool Sorting.Sorted.
From Verif Require Import Base BTree UtilsModel IntervalModel NoditModel NoditOps NoditSetOps ZosditModel ZosditOps CloneModel CloneOps
  Spec NoditNatural.
Import ListNotations.
Open Scope nat_scope.

Section Natural.
  Context {I : Type} {OI : Ord I} {DI : DiscreteFinite I}.
  Context {K : Type} {IK : InclusiveInterval I K}.
  Context {V X : Type} (g : V -> X).
  Notation mp := (mapv (K := K) (map g)).
  Definition zmap (z : ZosditMap K V) : ZosditMap K X := mkZosdit (z_len z) (mp (z_inner z)).
  Definition zmapr {A B} (h : A -> B) (x : ZosditMap K V * outcome A) : ZosditMap K X * outcome B := (zmap (fst x), omap h (snd x)).

  Lemma mp_app (l l' : BTreeMap K (list V)) : mp (l ++ l') = mp l ++ mp l'.
  Proof. apply map_app. Qed.
  Lemma vec_last_map (l : list V) : vec_last (map g l) = option_map g (vec_last l).
  Proof. induction l as [|v [|w l] IH]; [reflexivity|reflexivity|]. exact IH. Qed.
  Lemma vec_pop_map (l : list V) : vec_pop (map g l) = option_map (fun x => (g (fst x), map g (snd x))) (vec_pop l).
  Proof. unfold vec_pop. rewrite <- map_rev. destruct (rev l) as [|v r]; [reflexivity|]. cbn. rewrite <- map_rev. reflexivity. Qed.
  Lemma flatten_map (l : BTreeMap K (list V)) : flatten (mp l) = map (image g) (flatten l).
  Proof.
    induction l as [|[k vs] l IH]; [reflexivity|]. change (mp ((k, vs) :: l)) with ((k, map g vs) :: mp l).
    unfold flatten in *. cbn [flat_map fst snd]. rewrite map_app, IH, !map_map. reflexivity.
  Qed.
  Lemma last_value_cursor_map z p : last_value_cursor (zmap z) p =
    (mp (fst (last_value_cursor z p)), mp (snd (last_value_cursor z p))).
  Proof.
    unfold last_value_cursor, zmap, lower_bound. cbn [z_inner]. rewrite seek_mapv. destruct (seek _ (z_inner z)) as [a b]. cbn [fst snd].
    destruct b as [|x b]; [apply (move_prev_mapv (map g) a [])|reflexivity].
  Qed.
  Lemma get_last_map z p : get_last_value_at_point (zmap z) p = option_map g (get_last_value_at_point z p).
  Proof.
    unfold get_last_value_at_point, cursor_key_value. rewrite last_value_cursor_map. cbn [snd]. destruct (snd (last_value_cursor z p)) as [|[k vs] r]; [reflexivity|].
    cbn. destruct (contains_point k p); [apply vec_last_map|reflexivity].
  Qed.
  Lemma remove_last_map z p : remove_last_value_at_point p (zmap z) = zmapr (option_map g) (remove_last_value_at_point p z).
  Proof.
    unfold remove_last_value_at_point. rewrite last_value_cursor_map. cbn [fst snd]. destruct (snd (last_value_cursor z p)) as [|[k vs] r]; [reflexivity|].
    change (mp ((k, vs) :: r)) with ((k, map g vs) :: mp r). cbn [fst snd]. destruct (contains_point k p); [|reflexivity].
    rewrite vec_pop_map. destruct (vec_pop vs) as [[v [|w vs']]|]; cbn [option_map fst snd map]; unfold zmapr, zmap; cbn [fst snd z_len z_inner omap option_map]; rewrite ?mp_app; reflexivity.
  Qed.
  Lemma entry_push_map k v (l : BTreeMap K (list V)) : forall pre,
    entry_push k (g v) (mp pre) (mp l) = omap (fun x => mp x) (entry_push k v pre l).
  Proof.
    induction l as [|[k' vs] l IH]; intros pre.
    - change (mp []) with (@nil (K * list X)). cbn [entry_push omap]. rewrite mp_app. reflexivity.
    - change (mp ((k', vs) :: l)) with ((k', map g vs) :: mp l). cbn [entry_push]. destruct (entry_comp k' k) as [[]|]; cbn [omap]; rewrite ?mp_app; try reflexivity.
      + change (mp ((k', vs ++ [v]) :: l)) with ((k', map g (vs ++ [v])) :: mp l). rewrite map_app. reflexivity.
      + rewrite <- IH, mp_app. reflexivity.
  Qed.
  Section Q.
    Context {Q : Type} {IQ : InclusiveInterval I Q}.
    Lemma is_zero_overlap_map z (q : Q) : is_zero_overlap (zmap z) q = is_zero_overlap z q.
    Proof.
      unfold is_zero_overlap, zmap. cbn [z_inner]. destruct (invalid_interval_panic q); [|reflexivity]. cbn. rewrite range_mapv.
      destruct (range _ _ (z_inner z)); reflexivity.
    Qed.
    Lemma zosdit_overlapping_map z (q : Q) : zosdit_overlapping (zmap z) q = omap (map (image g)) (zosdit_overlapping z q).
    Proof.
      unfold zosdit_overlapping, zmap. cbn [z_inner]. destruct (invalid_interval_panic q); [|reflexivity]. cbn. rewrite range_mapv, flatten_map. reflexivity.
    Qed.
  End Q.
  Lemma insert_back_map k v z : insert_strict_back k (g v) (zmap z) = zmapr (image_error g) (insert_strict_back k v z).
  Proof.
    unfold insert_strict_back. rewrite is_zero_overlap_map. destruct (invalid_interval_panic k); [|reflexivity].
    destruct (is_zero_overlap z k) as [[|]|]; try reflexivity. unfold zmap at 1. cbn [z_inner].
    change (@nil (K * list X)) with (mp []). rewrite entry_push_map. destruct (entry_push k v [] (z_inner z)); reflexivity.
  Qed.
  Lemma extend_back_map (l : list (K * V)) : forall z, extend_strict_back (map (image g) l) (zmap z) =
    omap (fun r => match r with Ok z' => Ok (zmap z') | Err e => Err (g e) end) (extend_strict_back l z).
  Proof.
    induction l as [|[k v] l IH]; intros z; [reflexivity|]. cbn [map extend_strict_back image fst snd]. unfold image at 1. cbn [fst snd].
    rewrite insert_back_map. destruct (insert_strict_back k v z) as [z' [[u|e]|]]; cbn; [apply IH|reflexivity..].
  Qed.
  Lemma visit_back_map (l : list (option (K * V))) : forall z, zosdit_visit_seq (map (option_map (image g)) l) (zmap z) =
    omap (fun r => match r with Ok z' => Ok (zmap z') | Err e => Err e end) (zosdit_visit_seq l z).
  Proof.
    induction l as [|[[k v]|] l IH]; intros z; [reflexivity| |reflexivity]. cbn [map option_map zosdit_visit_seq]. unfold image at 1. cbn [fst snd].
    rewrite insert_back_map. destruct (insert_strict_back k v z) as [z' [[u|e]|]]; cbn; [apply IH|reflexivity..].
  Qed.

  (** ** [cut], with any clone that keeps [g] *)
  Section Clone.
    Context {W : Type} (clone : W -> V -> V * W).
    Hypothesis keeps : forall w v, g (fst (clone w v)) = g v.
    Lemma clone_all_obs vs : forall w, map g (fst (clone_all clone w vs)) = map g vs.
    Proof.
      induction vs as [|v vs IH]; intros w; [reflexivity|]. cbn [clone_all]. pose proof (keeps w v) as E. destruct (clone w v) as [v' w1].
      specialize (IH w1). destruct (clone_all clone w1 vs) as [vs' w2]. cbn in *. congruence.
    Qed.
    Lemma z_piece_w_obs (p : option (Interval I)) vs s w :
      (fst (fst (z_piece_w clone p vs s w)), mp (snd (fst (z_piece_w clone p vs s w)))) = z_piece p (map g vs) (fst s, mp (snd s)).
    Proof.
      destruct p as [i|]; [|destruct s; reflexivity]. cbn. pose proof (clone_all_obs vs w) as E. destruct (clone_all clone w vs) as [vs' w1].
      cbn [fst snd] in *. rewrite mp_app, map_length. cbn. unfold mape. cbn. rewrite E. reflexivity.
    Qed.
    Section Q.
      Context {Q : Type} {IQ : InclusiveInterval I Q}.
      Lemma zcut_loop_w_obs (q : Q) (post : BTreeMap K (list V)) : forall n pre acc w,
        zosdit_cut_loop q n (mp pre) (mp post) (map (image g) acc) = zmapr (map (image g)) (fst (zosdit_cut_loop_w clone q n pre post acc w)).
      Proof.
        induction post as [|[k vs] rest IH]; intros n pre acc w.
        - change (mp []) with (@nil (K * list X)). cbn [zosdit_cut_loop zosdit_cut_loop_w fst]. unfold zmapr, zmap. cbn [fst snd z_len z_inner omap]. rewrite mp_app. reflexivity.
        - change (mp ((k, vs) :: rest)) with ((k, map g vs) :: mp rest). cbn [zosdit_cut_loop zosdit_cut_loop_w].
          destruct (overlaps k q) as [[|]|]; unfold zmapr, zmap; cbn [fst snd z_len z_inner omap]; rewrite ?mp_app; try reflexivity.
          destruct (cut_interval k q) as [r|]; cbn [fst snd z_len z_inner omap]; rewrite ?mp_app; try reflexivity.
          match goal with |- context [z_piece_w clone (before_cut r) vs ?s w] =>
            pose proof (z_piece_w_obs (before_cut r) vs s w) as E1; destruct (z_piece_w clone (before_cut r) vs s w) as [s1 w1] end.
          match goal with |- context [z_piece_w clone (after_cut r) vs s1 w1] =>
            pose proof (z_piece_w_obs (after_cut r) vs s1 w1) as E2; destruct (z_piece_w clone (after_cut r) vs s1 w1) as [[n2 pre2] w2] end.
          cbn [fst snd] in E1, E2.
          match goal with |- context [z_piece (after_cut r) (map g vs) ?s] => assert (E3 : z_piece (after_cut r) (map g vs) s = (n2, mp pre2)) end.
          { etransitivity; [|symmetry; exact E2]. f_equal. symmetry. exact E1. }
          rewrite E3, map_length. destruct (Nat.ltb n2 (length vs)); cbn [fst snd z_len z_inner omap]; rewrite ?mp_app; try reflexivity.
          destruct (inside_cut r) as [i|].
          + assert (E4 : map (image g) acc ++ map (fun v => (ifrom i, v)) (map g vs) = map (image g) (acc ++ map (fun v => (ifrom i, v)) vs))
              by (rewrite map_app, !map_map; reflexivity).
            rewrite E4. apply IH.
          + destruct vs as [|v vs]; cbn [map]; [apply IH|]. cbn [fst snd z_len z_inner omap]. rewrite mp_app. reflexivity.
      Qed.
      Lemma zcut_w_obs (q : Q) z w : zosdit_cut q (zmap z) = zmapr (map (image g)) (fst (zosdit_cut_w clone q z w)).
      Proof.
        unfold zosdit_cut, zosdit_cut_w. destruct (invalid_interval_panic q) as [u|]; [|reflexivity]. change (z_inner (zmap z)) with (mp (z_inner z)). change (z_len (zmap z)) with (z_len z).
        rewrite upper_bound_mapv. destruct (upper_bound _ (z_inner z)) as [ca cb]. cbn [fst snd].
        destruct cb as [|x cb]; [apply (zcut_loop_w_obs q ca _ [] [])|apply (zcut_loop_w_obs q (x :: cb) _ ca [])].
      Qed.
    End Q.
    Lemma zstep_w_obs (s : ZosditMap K V * W) o o' : zop_image g o o' -> zstep (zmap (fst s)) o' = zmap (fst (zstep_w clone s o)).
    Proof.
      destruct s as [z w]. intros Ho. destruct Ho; cbn [zstep zstep_w fst snd].
      - reflexivity.
      - rewrite insert_back_map. reflexivity.
      - rewrite remove_last_map. reflexivity.
      - rewrite (zcut_w_obs q z w). destruct (zosdit_cut_w clone q z w) as [[z' r] w']. reflexivity.
      - unfold from_iter_strict_back. change (@z_new K X) with (zmap z_new). rewrite extend_back_map.
        destruct (extend_strict_back l z_new) as [[z'|e]|]; reflexivity.
      - unfold zosdit_deserialize. change (@z_new K X) with (zmap z_new). rewrite visit_back_map.
        destruct (zosdit_visit_seq l z_new) as [[z'|e]|]; reflexivity.
    Qed.
    Lemma zrun_w_obs w (os : list (zop I K V)) (os' : list (zop I K X)) : Forall2 (zop_image g) os os' ->
      zrun os' = zmap (fst (zrun_w clone w os)).
    Proof.
      intros HF. unfold zrun, zrun_w. change (@z_new K X) with (zmap (fst (z_new (K := K) (V := V), w))).
      generalize (z_new (K := K) (V := V), w). induction HF as [|o o' os os' Ho HF IH]; intros s; cbn [fold_left]; [reflexivity|].
      rewrite (zstep_w_obs s o o' Ho). apply IH.
    Qed.
  End Clone.
End Natural.

(** ** The identity as clone *)
Section Identity.
  Context {I : Type} {OI : Ord I} {DI : DiscreteFinite I}.
  Context {K : Type} {IK : InclusiveInterval I K}.
  Context {V W : Type}.
  Definition id_clone (w : W) (v : V) : V * W := (v, w).
  Lemma clone_all_id vs : forall w, clone_all id_clone w vs = (vs, w).
  Proof. induction vs as [|v vs IH]; intros w; [reflexivity|]. cbn. rewrite IH. reflexivity. Qed.
  Lemma z_piece_id (p : option (Interval I)) vs (s : nat * BTreeMap K (list V)) w : z_piece_w id_clone p vs s w = (z_piece p vs s, w).
  Proof. destruct p; [|reflexivity]. cbn. rewrite clone_all_id. reflexivity. Qed.
  Lemma zcut_loop_id {Q} {IQ : InclusiveInterval I Q} (q : Q) (post : BTreeMap K (list V)) : forall n pre acc w,
    zosdit_cut_loop_w id_clone q n pre post acc w = (zosdit_cut_loop q n pre post acc, w).
  Proof.
    induction post as [|[k vs] rest IH]; intros n pre acc w; cbn [zosdit_cut_loop zosdit_cut_loop_w]; [reflexivity|].
    destruct (overlaps k q) as [[|]|]; try reflexivity. destruct (cut_interval k q) as [r|]; try reflexivity. rewrite !z_piece_id.
    destruct (z_piece (after_cut r) vs _) as [n2 pre2]. destruct (Nat.ltb n2 (length vs)); [reflexivity|].
    destruct (inside_cut r), vs; try apply IH. reflexivity.
  Qed.
  Lemma zcut_id {Q} {IQ : InclusiveInterval I Q} (q : Q) (z : ZosditMap K V) w : zosdit_cut_w id_clone q z w = (zosdit_cut q z, w).
  Proof. unfold zosdit_cut, zosdit_cut_w. destruct (invalid_interval_panic q); [|reflexivity]. apply zcut_loop_id. Qed.
  Lemma zstep_id (s : ZosditMap K V * W) o : zstep_w id_clone s o = (zstep (fst s) o, snd s).
  Proof. destruct s as [z w], o; try reflexivity. cbn. rewrite zcut_id. destruct (zosdit_cut q z). reflexivity. Qed.
  Lemma zrun_id w (os : list (zop I K V)) : zrun_w id_clone w os = (zrun os, w).
  Proof.
    unfold zrun, zrun_w. generalize (z_new (K := K) (V := V)). induction os as [|o os IH]; intros z; [reflexivity|].
    cbn [fold_left]. rewrite zstep_id. apply IH.
  Qed.
End Identity.
