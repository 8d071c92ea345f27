(** * NoditNatural: NoditMap never looks at its values.

    [mapv g] replaces every value by its image under [g]; every operation
    commutes with it (no law is needed). *)
From Coq Require Import List Bool.
From Verif Require Import Base BTree UtilsModel IntervalModel NoditModel NoditOps.
Import ListNotations.

Section Natural.
  Context {I : Type} `{Ord I} `{DiscreteFinite I}.
  Context {K : Type} `{InclusiveInterval I K}.
  Context {V W : Type} (g : V -> W).

  Definition mape (e : K * V) : K * W := (fst e, g (snd e)).
  Definition mapv (m : list (K * V)) : list (K * W) := map mape m.
  Definition mapr {A B} (h : A -> B) (x : NoditMap K V * outcome A) : NoditMap K W * outcome B :=
    (mapv (fst x), omap h (snd x)).
  Definition maperr {A} (r : result A V) : result A W :=
    match r with Ok a => Ok a | Err v => Err (g v) end.

  Lemma mapv_app l l' : mapv (l ++ l') = mapv l ++ mapv l'.
  Proof. apply map_app. Qed.
  Lemma mapv_keys l : map fst (mapv l) = map fst l.
  Proof. unfold mapv. rewrite map_map. reflexivity. Qed.

  (** ** The B-tree *)
  Lemma seek_mapv comp l : seek comp (mapv l) = (mapv (fst (seek comp l)), mapv (snd (seek comp l))).
  Proof.
    induction l as [|[k v] r IH]; cbn; [reflexivity|].
    destruct (comp k); [reflexivity..|]. fold (mapv r). rewrite IH. destruct (seek comp r); reflexivity.
  Qed.
  Lemma get_key_value_mapv comp l : get_key_value comp (mapv l) = option_map mape (get_key_value comp l).
  Proof.
    unfold get_key_value. rewrite seek_mapv. cbn. destruct (snd (seek comp l)) as [|[k v] r]; cbn; [reflexivity|].
    destruct (comp k); reflexivity.
  Qed.
  Lemma get_key_mapv comp l :
    option_map fst (get_key_value comp (mapv l)) = option_map fst (get_key_value comp l).
  Proof. rewrite get_key_value_mapv. destruct (get_key_value comp l); reflexivity. Qed.
  Lemma contains_key_mapv comp l : contains_key comp (mapv l) = contains_key comp l.
  Proof. unfold contains_key. rewrite get_key_value_mapv. destruct (get_key_value comp l); reflexivity. Qed.
  Lemma remove_mapv comp l : fst (remove comp (mapv l)) = mapv (fst (remove comp l)).
  Proof.
    unfold remove. rewrite seek_mapv. destruct (seek comp l) as [a b] eqn:E. cbn.
    destruct b as [|[k v] r]; cbn; [reflexivity|]. destruct (comp k); cbn; rewrite ?mapv_app; reflexivity.
  Qed.
  Lemma get_mut_mapv comp f f' l : (forall v, g (f v) = f' (g v)) ->
    get_mut comp f' (mapv l) = (mapv (fst (get_mut comp f l)), option_map g (snd (get_mut comp f l))).
  Proof.
    intros Hf. unfold get_mut. rewrite seek_mapv. destruct (seek comp l) as [a b] eqn:E. cbn.
    destruct b as [|[k v] r]; cbn; [reflexivity|]. destruct (comp k); cbn; try reflexivity.
    rewrite mapv_app. cbn. change (mape (k, f v)) with (k, g (f v)). rewrite Hf. reflexivity.
  Qed.
  Lemma insert_mapv key v comp l : fst (insert key (g v) comp (mapv l)) = mapv (fst (insert key v comp l)).
  Proof.
    unfold insert. rewrite seek_mapv. destruct (seek (fun inner => comp inner key) l) as [a b] eqn:E. cbn.
    destruct b as [|[k w] r]; cbn; rewrite ?mapv_app; [reflexivity|]. destruct (comp k key); cbn; rewrite ?mapv_app; reflexivity.
  Qed.
  Lemma take_upper_mapv comp l : take_upper comp (mapv l) = mapv (take_upper comp l).
  Proof.
    induction l as [|[k v] r IH]; cbn; [reflexivity|].
    destruct (comp k); [reflexivity..|]. fold (mapv r). rewrite IH. reflexivity.
  Qed.
  Lemma range_mapv lower upper l : range lower upper (mapv l) = mapv (range lower upper l).
  Proof. unfold range. rewrite seek_mapv. apply take_upper_mapv. Qed.
  Lemma map_values_mapv f f' l : (forall k v, g (f k v) = f' k (g v)) ->
    map_values f' (mapv l) = mapv (map_values f l).
  Proof.
    intros Hf. unfold map_values, mapv. rewrite !map_map. apply map_ext. intros [k v]. unfold mape. cbn. rewrite Hf. reflexivity.
  Qed.
  Lemma map_upper_mapv comp f f' l : (forall k v, g (f k v) = f' k (g v)) ->
    map_upper comp f' (mapv l) = mapv (map_upper comp f l).
  Proof.
    intros Hf. induction l as [|[k v] r IH]; cbn; [reflexivity|].
    fold (mapv r). destruct (comp k); cbn; rewrite ?IH; change (mape (k, f k v)) with (k, g (f k v)); rewrite ?Hf; reflexivity.
  Qed.
  Lemma range_mut_mapv lower upper f f' l : (forall k v, g (f k v) = f' k (g v)) ->
    range_mut lower upper f' (mapv l) = mapv (range_mut lower upper f l).
  Proof.
    intros Hf. unfold range_mut. rewrite seek_mapv. destruct (seek lower l) as [a b]. cbn.
    rewrite mapv_app, (map_upper_mapv _ f) by exact Hf. reflexivity.
  Qed.
  Lemma move_prev_mapv a b : move_prev (mapv a, mapv b) =
    (mapv (fst (move_prev (a, b))), mapv (snd (move_prev (a, b)))).
  Proof.
    unfold move_prev. cbn. unfold mapv. rewrite <- map_rev. destruct (rev a) as [|kv r]; cbn; [reflexivity|].
    rewrite map_rev. reflexivity.
  Qed.
  Lemma upper_bound_mapv comp l : upper_bound comp (mapv l) =
    (mapv (fst (upper_bound comp l)), mapv (snd (upper_bound comp l))).
  Proof.
    unfold upper_bound. rewrite seek_mapv. destruct (seek comp l) as [a b] eqn:E. cbn.
    destruct b as [|[k v] r]; [apply (move_prev_mapv a [])|]. cbn.
    destruct (comp k); [reflexivity|apply (move_prev_mapv a ((k, v) :: r))..].
  Qed.
  Lemma cursor_key_mapv (a b : list (K * V)) : cursor_key (mapv a, mapv b) = cursor_key (a, b).
  Proof. destruct b; reflexivity. Qed.
  Lemma bt_first_mapv l : bt_first (mapv l) = option_map mape (bt_first l).
  Proof. destruct l; reflexivity. Qed.
  Lemma bt_last_mapv l : bt_last (mapv l) = option_map mape (bt_last l).
  Proof. induction l as [|x r IH]; [reflexivity|]. destruct r; [reflexivity|]. exact IH. Qed.

  (** ** Queries *)
  Section Queries.
    Context {Q : Type} `{InclusiveInterval I Q}.
    Implicit Types (q : Q) (m : NoditMap K V).
    Lemma overlapping_mapv m q : overlapping (mapv m) q = omap mapv (overlapping m q).
    Proof. unfold overlapping. destruct (invalid_interval_panic q); cbn; [|reflexivity]. rewrite range_mapv. reflexivity. Qed.
    Lemma map_overlaps_mapv m q : map_overlaps (mapv m) q = map_overlaps m q.
    Proof.
      unfold map_overlaps. rewrite overlapping_mapv. destruct (invalid_interval_panic q); cbn; [|reflexivity].
      destruct (overlapping m q) as [[|]|]; reflexivity.
    Qed.
    Lemma overlapping_mut_mapv f f' q m : (forall k v, g (f k v) = f' k (g v)) ->
      overlapping_mut f' q (mapv m) = mapr (fun x => x) (overlapping_mut f q m).
    Proof.
      intros Hf. unfold overlapping_mut, mapr. destruct (invalid_interval_panic q); cbn; [|reflexivity].
      rewrite (range_mut_mapv _ _ f) by exact Hf. reflexivity.
    Qed.
  End Queries.
  Lemma get_gap_at_raw_mapv m p : get_gap_at_raw (mapv m) p = get_gap_at_raw m p.
  Proof.
    unfold get_gap_at_raw, lower_bound. rewrite upper_bound_mapv, seek_mapv, !cursor_key_mapv, <- !surjective_pairing.
    reflexivity.
  Qed.
  Lemma get_key_value_at_point_mapv m p : get_key_value_at_point (mapv m) p =
    omap (fun r => match r with Ok e => Ok (mape e) | Err k => Err k end) (get_key_value_at_point m p).
  Proof.
    unfold get_key_value_at_point. rewrite get_key_value_mapv, get_gap_at_raw_mapv.
    destruct (get_key_value _ m); cbn; [reflexivity|]. destruct (get_gap_at_raw m p); reflexivity.
  Qed.
  Lemma get_at_point_mapv m p : get_at_point (mapv m) p = omap (option_map g) (get_at_point m p).
  Proof.
    unfold get_at_point. rewrite get_key_value_at_point_mapv.
    destruct (get_key_value_at_point m p) as [[[k v]|k]|]; reflexivity.
  Qed.
  Lemma get_at_point_mut_mapv f f' p m : (forall v, g (f v) = f' (g v)) ->
    get_at_point_mut f' p (mapv m) = (mapv (fst (get_at_point_mut f p m)), option_map g (snd (get_at_point_mut f p m))).
  Proof. intros Hf. apply get_mut_mapv, Hf. Qed.
  Lemma map_contains_point_mapv m p : map_contains_point (mapv m) p = map_contains_point m p.
  Proof.
    unfold map_contains_point. rewrite get_key_value_at_point_mapv.
    destruct (get_key_value_at_point m p) as [[[k v]|k]|]; reflexivity.
  Qed.

  (** ** Removal *)
  Section Removal.
    Context {Q : Type} `{InclusiveInterval I Q}.
    Implicit Types (q : Q) (m : NoditMap K V).
    Lemma remove_loop_mapv q pre post acc :
      remove_overlapping_loop q (mapv pre) (mapv post) (mapv acc) = mapr mapv (remove_overlapping_loop q pre post acc).
    Proof.
      revert acc. induction post as [|[k v] rest IH]; intros acc; cbn.
      - unfold mapr. cbn. rewrite mapv_app. reflexivity.
      - unfold mapr in *. cbn. destruct (overlaps q k) as [[|]|]; cbn; rewrite ?mapv_app; try reflexivity.
        rewrite <- IH, mapv_app. reflexivity.
    Qed.
    Lemma remove_overlapping_mapv q m : remove_overlapping q (mapv m) = mapr mapv (remove_overlapping q m).
    Proof.
      unfold remove_overlapping. destruct (invalid_interval_panic q); [|reflexivity].
      unfold lower_bound. rewrite seek_mapv. apply (remove_loop_mapv q _ _ []).
    Qed.
    Lemma insert_piece_mapv p v pre : insert_piece p (g v) (mapv pre) = mapv (insert_piece p v pre).
    Proof. destruct p; cbn; [rewrite mapv_app|]; reflexivity. Qed.
    Lemma cut_loop_mapv q pre post acc :
      cut_loop q (mapv pre) (mapv post) (mapv acc) = mapr mapv (cut_loop q pre post acc).
    Proof.
      revert pre acc. induction post as [|[k v] rest IH]; intros pre acc; cbn.
      - unfold mapr. cbn. rewrite mapv_app. reflexivity.
      - unfold mapr in *. cbn. destruct (overlaps k q) as [[|]|]; cbn; rewrite ?mapv_app; try reflexivity.
        destruct (cut_interval k q) as [r|]; cbn; rewrite ?mapv_app; try reflexivity.
        rewrite !insert_piece_mapv. destruct (inside_cut r); cbn; rewrite ?mapv_app; try reflexivity.
        rewrite <- IH, mapv_app. reflexivity.
    Qed.
    Lemma cut_mapv q m : cut q (mapv m) = mapr mapv (cut q m).
    Proof.
      unfold cut. destruct (invalid_interval_panic q); [|reflexivity].
      unfold lower_bound. rewrite seek_mapv. apply (cut_loop_mapv q _ _ []).
    Qed.

    (** ** Gaps *)
    Lemma end_gap_mapv m p : end_gap (mapv m) p = end_gap m p.
    Proof. unfold end_gap. rewrite contains_key_mapv, get_gap_at_raw_mapv. reflexivity. Qed.
    Lemma inner_gaps_mapv l : inner_gaps (mapv l) = inner_gaps l.
    Proof.
      induction l as [|x r IH]; [reflexivity|]. destruct r as [|y r]; [reflexivity|].
      change (mapv (x :: y :: r)) with (mape x :: mape y :: mapv r).
      change (mapv (y :: r)) with (mape y :: mapv r) in IH.
      change (inner_gaps (mape x :: mape y :: mapv r)) with
        (let? u := unwrap (up (iend (fst x))) in
         let? d := unwrap (down (istart (fst y))) in
         let gap := ifrom (mkInterval u d) : K in
         let? gs := inner_gaps (mape y :: mapv r) in
         Val (if is_valid gap then gap :: gs else gs)).
      rewrite IH. reflexivity.
    Qed.
    Lemma gaps_untrimmed_mapv m q : gaps_untrimmed (mapv m) q = gaps_untrimmed m q.
    Proof.
      unfold gaps_untrimmed. rewrite !end_gap_mapv, overlapping_mapv.
      destruct (overlapping m q) as [l|]; cbn [omap obind]; rewrite ?inner_gaps_mapv; reflexivity.
    Qed.
    Lemma gaps_trimmed_mapv m q : gaps_trimmed (mapv m) q = gaps_trimmed m q.
    Proof.
      unfold gaps_trimmed. rewrite !end_gap_mapv, overlapping_mapv.
      destruct (overlapping m q) as [l|]; cbn [omap obind]; rewrite ?inner_gaps_mapv; reflexivity.
    Qed.
    Lemma map_contains_interval_mapv m q : map_contains_interval (mapv m) q = map_contains_interval m q.
    Proof. unfold map_contains_interval. rewrite gaps_untrimmed_mapv. reflexivity. Qed.
  End Removal.

  (** ** Insertions *)
  Implicit Types (k : K) (v : V) (m : NoditMap K V).
  Lemma insert_unchecked_mapv k v m : insert_unchecked k (g v) (mapv m) = mapv (insert_unchecked k v m).
  Proof. apply insert_mapv. Qed.
  Lemma insert_strict_mapv k v m : insert_strict k (g v) (mapv m) = mapr maperr (insert_strict k v m).
  Proof.
    unfold insert_strict, mapr. rewrite map_overlaps_mapv, insert_unchecked_mapv.
    destruct (invalid_interval_panic k); [|reflexivity]. destruct (map_overlaps m k) as [[|]|]; reflexivity.
  Qed.
  Lemma insert_merge_with_comps_mapv k v gs ge rs re gs' ge' rs' re' m :
    (forall x, gs' (mapv x) (g v) = gs x v) -> (forall x, ge' (mapv x) (g v) = ge x v) ->
    (forall x, rs' (mapv x) (g v) = mapv (rs x v)) -> (forall x, re' (mapv x) (g v) = mapv (re x v)) ->
    insert_merge_with_comps k (g v) gs' ge' rs' re' (mapv m) =
    mapr (fun x => x) (insert_merge_with_comps k v gs ge rs re m).
  Proof.
    intros Hgs Hge Hrs Hre. unfold insert_merge_with_comps.
    destruct (invalid_interval_panic k); [|reflexivity].
    rewrite Hgs, Hge, remove_overlapping_mapv. unfold mapr at 1.
    destruct (remove_overlapping k m) as [m1 [rem|]]; cbn [fst snd omap]; [|reflexivity].
    rewrite Hrs, Hre, insert_unchecked_mapv. reflexivity.
  Qed.
  Lemma insert_merge_touching_mapv k v m :
    insert_merge_touching k (g v) (mapv m) = mapr maperr (insert_merge_touching k v m).
  Proof.
    unfold insert_merge_touching. rewrite map_overlaps_mapv.
    destruct (invalid_interval_panic k); [|reflexivity]. destruct (map_overlaps m k) as [[|]|]; [reflexivity| |reflexivity].
    rewrite (insert_merge_with_comps_mapv k v
      (fun m _ => option_map fst (get_key_value (touching_start_comp (istart k)) m))
      (fun m _ => option_map fst (get_key_value (touching_end_comp (iend k)) m))
      (fun m _ => fst (remove (touching_start_comp (istart k)) m))
      (fun m _ => fst (remove (touching_end_comp (iend k)) m))) by (intros; apply get_key_mapv || apply remove_mapv).
    unfold mapr at 1. destruct (insert_merge_with_comps _ _ _ _ _ _ _) as [m' [r|]]; reflexivity.
  Qed.
  Lemma insert_merge_overlapping_mapv k v m :
    insert_merge_overlapping k (g v) (mapv m) = mapr (fun x => x) (insert_merge_overlapping k v m).
  Proof.
    unfold insert_merge_overlapping. destruct (invalid_interval_panic k); [|reflexivity].
    apply insert_merge_with_comps_mapv; intros; try apply get_key_mapv; reflexivity.
  Qed.
  Lemma insert_merge_tor_mapv k v m : insert_merge_touching_or_overlapping k (g v) (mapv m) =
    mapr (fun x => x) (insert_merge_touching_or_overlapping k v m).
  Proof.
    unfold insert_merge_touching_or_overlapping. destruct (invalid_interval_panic k); [|reflexivity].
    apply insert_merge_with_comps_mapv; intros; rewrite ?get_key_mapv; try apply remove_mapv; reflexivity.
  Qed.
  Lemma get_if_equal_mapv veq veq' comp v m : (forall x y, veq' (g x) (g y) = veq x y) ->
    get_if_equal veq' comp (mapv m) (g v) = get_if_equal veq comp m v.
  Proof.
    intros Hv. unfold get_if_equal. rewrite get_key_value_mapv. destruct (get_key_value comp m) as [[k' v']|]; cbn; [|reflexivity].
    rewrite Hv. reflexivity.
  Qed.
  Lemma insert_merge_touching_if_mapv veq veq' k v m : (forall x y, veq' (g x) (g y) = veq x y) ->
    insert_merge_touching_if_values_equal veq' k (g v) (mapv m) =
    mapr maperr (insert_merge_touching_if_values_equal veq k v m).
  Proof.
    intros Hv. unfold insert_merge_touching_if_values_equal. rewrite map_overlaps_mapv.
    destruct (invalid_interval_panic k); [|reflexivity]. destruct (map_overlaps m k) as [[|]|]; [reflexivity| |reflexivity].
    rewrite (insert_merge_with_comps_mapv k v
      (get_if_equal veq (touching_start_comp (istart k))) (get_if_equal veq (touching_end_comp (iend k)))
      (fun m value => if is_some (get_if_equal veq (touching_start_comp (istart k)) m value)
                      then fst (remove (touching_start_comp (istart k)) m) else m)
      (fun m value => if is_some (get_if_equal veq (touching_end_comp (iend k)) m value)
                      then fst (remove (touching_end_comp (iend k)) m) else m)).
    - unfold mapr at 1. destruct (insert_merge_with_comps _ _ _ _ _ _ _) as [m' [r|]]; reflexivity.
    - intros x. apply get_if_equal_mapv, Hv.
    - intros x. apply get_if_equal_mapv, Hv.
    - intros x. rewrite (get_if_equal_mapv veq) by exact Hv.
      destruct (is_some _); [apply remove_mapv|reflexivity].
    - intros x. rewrite (get_if_equal_mapv veq) by exact Hv.
      destruct (is_some _); [apply remove_mapv|reflexivity].
  Qed.
  Lemma insert_overwrite_mapv k v m :
    insert_overwrite k (g v) (mapv m) = mapr mapv (insert_overwrite k v m).
  Proof.
    unfold insert_overwrite. destruct (invalid_interval_panic k); [|reflexivity].
    rewrite cut_mapv. unfold mapr at 1. destruct (cut k m) as [m' [c|]]; cbn [fst snd omap]; [|reflexivity].
    rewrite insert_unchecked_mapv. reflexivity.
  Qed.
  Definition mapok (r : result (NoditMap K V) V) : result (NoditMap K W) W :=
    match r with Ok m => Ok (mapv m) | Err v => Err (g v) end.
  Lemma extend_strict_mapv l m : extend_strict (mapv l) (mapv m) = omap mapok (extend_strict l m).
  Proof.
    revert m. induction l as [|[k v] r IH]; intros m; [reflexivity|].
    change (extend_strict (mapv ((k, v) :: r)) (mapv m)) with
      (match insert_strict k (g v) (mapv m) with
       | (_, Panic) => Panic
       | (_, Val (Err e)) => Val (Err e)
       | (m, Val (Ok _)) => extend_strict (mapv r) m
       end).
    rewrite insert_strict_mapv. cbn [extend_strict]. destruct (insert_strict k v m) as [m' [[u|e]|]]; cbn; [|reflexivity..].
    apply IH.
  Qed.
  Lemma from_iter_strict_mapv l : from_iter_strict (mapv l) = omap mapok (from_iter_strict l).
  Proof. apply (extend_strict_mapv l []). Qed.
  Definition mapde (r : result (NoditMap K V) de_error) : result (NoditMap K W) de_error :=
    match r with Ok m => Ok (mapv m) | Err e => Err e end.
  Lemma visit_seq_mapv l m : visit_seq (map (option_map mape) l) (mapv m) = omap mapde (visit_seq l m).
  Proof.
    revert m. induction l as [|[[k v]|] r IH]; intros m; [reflexivity| |reflexivity].
    change (visit_seq (map (option_map mape) (Some (k, v) :: r)) (mapv m)) with
      (match insert_strict k (g v) (mapv m) with
       | (_, Panic) => Panic
       | (_, Val (Err e)) => Val (Err DeOverlap)
       | (m, Val (Ok _)) => visit_seq (map (option_map mape) r) m
       end).
    rewrite insert_strict_mapv. cbn [visit_seq]. destruct (insert_strict k v m) as [m' [[u|e]|]]; cbn; [|reflexivity..].
    apply IH.
  Qed.
  Lemma deserialize_mapv l : deserialize (map (option_map mape) l) = omap mapde (deserialize l).
  Proof. apply (visit_seq_mapv l []). Qed.
End Natural.
