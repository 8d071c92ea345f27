(** * PropsClone: cloned values (C115) and ZosditMap values (C116). *)
From Coq Require Import List ZArith Bool.
From Verif Require Import Base BTree UtilsModel IntervalModel InstancesModel NoditModel NoditOps NoditSetOps ZosditModel ZosditOps CloneModel CloneOps
  Spec PointFacts Instances CloneFacts CloneZosdit CloneZosditExact CloneProofs.
Import ListNotations.

Section Props.
  Context {I : Type} {OI : Ord I} {DI : DiscreteFinite I} {PL : PointLaws I}.
  Context {K : Type} {IK : InclusiveInterval I K} {IL : IntervalLaws I K}.
  Context {V W : Type}.

  (** ** C115 Cloned values

      A [Clone] is any function from a state and a value to a value and the
      next state. *)
  Section C115.
    Context (clone : W -> V -> V * W).

    (** If clones are equal to their originals then all that is proved about the
        model holds of the code. *)
    Theorem C115_faithful_clone : (forall w v, fst (clone w v) = v) -> forall w (os : list (op I K V)),
      fst (run_w clone w os) = run os /\
      (forall {Q} {IQ : InclusiveInterval I Q} (q : Q) m, fst (cut_w clone q m w) = cut q m) /\
      (forall (k : K) v m, fst (insert_overwrite_w clone k v m w) = insert_overwrite k v m).
    Proof.
      intros F w os. split; [exact (run_w_faithful clone F w os)|].
      split; [intros Q IQ q m; exact (cut_w_faithful clone F q m w)|intros k v m; exact (overwrite_w_faithful clone F k v m w)].
    Qed.
    Theorem C115_zosdit_faithful_clone : (forall w v, fst (clone w v) = v) -> forall w (os : list (zop I K V)),
      fst (zrun_w clone w os) = zrun os /\
      (forall {Q} {IQ : InclusiveInterval I Q} (q : Q) z, fst (zosdit_cut_w clone q z w) = zosdit_cut q z).
    Proof. intros F w os. split; [exact (zrun_w_faithful clone F w os)|intros Q IQ q z; exact (zcut_w_faithful clone F q z w)]. Qed.

    (** If clones only keep an observation [g] of their originals, then so far as
        [g] can tell the code does what the model does. *)
    Theorem C115_lawful_clone : forall {X} (g : V -> X), (forall w v, g (fst (clone w v)) = g v) ->
      forall w (os : list (op I K V)) os', Forall2 (op_image g) os os' -> iter (run os') = map (image g) (iter (fst (run_w clone w os))).
    Proof. intros X g F w os os'. exact (run_w_obs clone g F w os os'). Qed.
    Theorem C115_zosdit_lawful_clone : forall {X} (g : V -> X), (forall w v, g (fst (clone w v)) = g v) ->
      forall w (os : list (zop I K V)) os', Forall2 (zop_image g) os os' ->
      zosdit_iter (zrun os') = map (image g) (zosdit_iter (fst (zrun_w clone w os))) /\
      zosdit_len (zrun os') = zosdit_len (fst (zrun_w clone w os)).
    Proof. intros X g F w os os' HF. rewrite (zrun_w_obs g clone F w os os' HF). split; [exact (flatten_map g _)|reflexivity]. Qed.

    (** Whatever [Clone] does: [cut] returns the original values, and the
        intervals returned and kept are those of the model. *)
    Theorem C115_cut_returns_originals : forall {Q} {IQ : InclusiveInterval I Q} (q : Q) (m : NoditMap K V) w,
      snd (fst (cut_w clone q m w)) = snd (cut q m) /\
      map fst (iter (fst (fst (cut_w clone q m w)))) = map fst (iter (fst (cut q m))).
    Proof. intros Q IQ q m w. exact (cut_w_shape clone q m w). Qed.
    (** The values kept are the original ones, but for a clone of the value of
        the entry with points before [q], and a clone of the value of the entry
        with points after [q], made in this order. *)
    Theorem C115_cut_clones : forall {Q} {IQ : InclusiveInterval I Q} (q : Q) w0 (os : list (op I K V)) w, valid q ->
      let m := fst (run_w clone w0 os) in
      exists A out B bs fs,
        sub (fun e => before (fst e) q) (iter m) A /\ sub (fun e => before q (fst e)) (iter m) B /\
        sub (fun e => sticks_out_before q (fst e)) (iter m) bs /\ sub (fun e => sticks_out_after q (fst e)) (iter m) fs /\
        (length bs <= 1)%nat /\ (length fs <= 1)%nat /\
        iter (fst (fst (cut_w clone q m w))) = A ++ out ++ B /\
        (map snd out, snd (cut_w clone q m w)) = clone_all clone w (map snd bs ++ map snd fs).
    Proof. intros Q IQ q w0 os w Vq. exact (cut_w_exact clone q _ w (run_w_WF clone w0 os) Vq). Qed.
    (** [insert_overwrite] clones what [cut] clones, and stores the value it is
        given as it is. *)
    Theorem C115_overwrite : forall (k : K) v w0 (os : list (op I K V)) w, valid k ->
      let m := fst (run_w clone w0 os) in
      exists l1 l2 out w', cut_w clone k m w = (l1 ++ l2, Val out, w') /\ insert_overwrite_w clone k v m w = (l1 ++ (k, v) :: l2, Val out, w').
    Proof. intros k v w0 os w Vk. exact (overwrite_w_exact clone k v _ w (run_w_WF clone w0 os) Vk). Qed.

    (** The same for [ZosditMap::cut].  [M] are the entries that are cut: none,
        or all that overlap [q] (C37, C38 say which). *)
    Theorem C115_zosdit_cut_clones : forall {Q} {IQ : InclusiveInterval I Q} (q : Q) w0 (os : list (zop I K V)) w, valid q ->
      let z := fst (zrun_w clone w0 os) in
      exists A M B out ans bs fs,
        zosdit_iter z = A ++ M ++ B /\ (M = [] \/ sub (fun e => overlap (fst e) q) (zosdit_iter z) M) /\
        snd (fst (zosdit_cut_w clone q z w)) = Val ans /\ snd (zosdit_cut q z) = Val ans /\ map snd ans = map snd M /\
        sub (fun e => sticks_out_before q (fst e)) M bs /\ sub (fun e => sticks_out_after q (fst e)) M fs /\
        (length bs <= 1)%nat /\ (length fs <= 1)%nat /\
        zosdit_iter (fst (fst (zosdit_cut_w clone q z w))) = A ++ out ++ B /\
        (map snd out, snd (zosdit_cut_w clone q z w)) = clone_all clone w (map snd bs ++ map snd fs).
    Proof. intros Q IQ q w0 os w Vq. exact (zcut_w_exact clone q _ w (zrun_w_ZWF clone w0 os) Vq). Qed.
    Theorem C115_zosdit_cut_intervals : forall {Q} {IQ : InclusiveInterval I Q} (q : Q) (z : ZosditMap K V) w,
      map fst (zosdit_iter (fst (fst (zosdit_cut_w clone q z w)))) = map fst (zosdit_iter (fst (zosdit_cut q z))) /\
      zosdit_len (fst (fst (zosdit_cut_w clone q z w))) = zosdit_len (fst (zosdit_cut q z)).
    Proof. intros Q IQ q z w. exact (zcut_w_shape clone q z w). Qed.

    (** Every call starts in the state the call before it left. *)
    Theorem C115_state_threaded : forall w (os : list (op I K V)), let (m, w') := run_w clone w os in
      (forall {Q} {IQ : InclusiveInterval I Q} (q : Q), run_w clone w (os ++ [OpCut q]) = (fst (fst (cut_w clone q m w')), snd (cut_w clone q m w'))) /\
      (forall k v, run_w clone w (os ++ [OpInsertOverwrite k v]) = (fst (fst (insert_overwrite_w clone k v m w')), snd (insert_overwrite_w clone k v m w'))) /\
      (forall o, calls_cut o = O -> run_w clone w (os ++ [o]) = (step m o, w')).
    Proof. intros w os. exact (run_w_snoc clone w os). Qed.
    Theorem C115_zosdit_state_threaded : forall w (os : list (zop I K V)), let (z, w') := zrun_w clone w os in
      (forall {Q} {IQ : InclusiveInterval I Q} (q : Q), zrun_w clone w (os ++ [ZCut q]) = (fst (fst (zosdit_cut_w clone q z w')), snd (zosdit_cut_w clone q z w'))) /\
      (forall o, zcalls_cut o = O -> zrun_w clone w (os ++ [o]) = (zstep z o, w')).
    Proof. intros w os. exact (zrun_w_snoc clone w os). Qed.

    (** At most two clones per call of [cut] or [insert_overwrite], none
        otherwise. *)
    Theorem C115_clone_count : forall w (os : list (op I K V)),
      (snd (snd (run_w (counted clone) (w, O) os)) <= 2 * list_sum (map calls_cut os))%nat.
    Proof. exact (run_w_counted clone). Qed.
    Theorem C115_zosdit_clone_count : forall w (os : list (zop I K V)),
      (snd (snd (zrun_w (counted clone) (w, O) os)) <= 2 * list_sum (map zcalls_cut os))%nat.
    Proof. exact (zrun_w_counted clone). Qed.
  End C115.

  (** ** C116 A ZosditMap never inspects its values

      Replace every value given to it by its image under any [g]: all answers
      are the images of the old answers. *)
  Section C116.
    Context {X : Type} (g : V -> X).
    Theorem C116_queries : forall (os : list (zop I K V)) os' p {Q} {IQ : InclusiveInterval I Q} (q : Q), Forall2 (zop_image g) os os' ->
      let z := zrun os in let z' := zrun os' in let im := map (image g) in
      zosdit_len z' = zosdit_len z /\ zosdit_is_empty z' = zosdit_is_empty z /\
      zosdit_iter z' = im (zosdit_iter z) /\ zosdit_into_iter z' = im (zosdit_into_iter z) /\
      zosdit_first_key_value z' = option_map (image g) (zosdit_first_key_value z) /\
      zosdit_last_key_value z' = option_map (image g) (zosdit_last_key_value z) /\
      get_last_value_at_point z' p = option_map g (get_last_value_at_point z p) /\
      is_zero_overlap z' q = is_zero_overlap z q /\
      zosdit_overlapping z' q = omap im (zosdit_overlapping z q) /\
      zosdit_serialize z' = (fst (zosdit_serialize z), im (snd (zosdit_serialize z))).
    Proof. intros os os' p Q IQ q HF. cbv zeta. rewrite (zrun_image g os os' HF). exact (zqueries_map g (zrun os) p q). Qed.
    Theorem C116_calls : forall (os : list (zop I K V)) os' k v p {Q} {IQ : InclusiveInterval I Q} (q : Q), Forall2 (zop_image g) os os' ->
      let z := zrun os in let z' := zrun os' in
      snd (insert_strict_back k (g v) z') = omap (image_error g) (snd (insert_strict_back k v z)) /\
      snd (remove_last_value_at_point p z') = omap (option_map g) (snd (remove_last_value_at_point p z)) /\
      snd (zosdit_cut q z') = omap (map (image g)) (snd (zosdit_cut q z)).
    Proof. intros os os' k v p Q IQ q HF. cbv zeta. rewrite (zrun_image g os os' HF). exact (zcalls_map g (zrun os) k v p q). Qed.
    Theorem C116_from_iter : forall (l : list (K * V)),
      omap (fun r => match r with Ok z => Ok (zosdit_iter z) | Err x => Err x end) (from_iter_strict_back (map (image g) l)) =
      omap (fun r => match r with Ok z => Ok (map (image g) (zosdit_iter z)) | Err v => Err (g v) end) (from_iter_strict_back l).
    Proof. exact (zbuild_map g). Qed.
  End C116.
End Props.

(** A clone that returns a fresh number: not equal to its original, and
    different at each call.  The values are pairs (label, serial number). *)
Definition fresh (w : Z) (v : Z * Z) : (Z * Z) * Z := ((fst v, w), (w + 1)%Z).
Definition clone_history : list (op u8 (Interval u8) (Z * Z)) :=
  [OpInsertStrict (1 --> 9) (7, 0); OpInsertStrict (20 --> 29) (8, 0); OpInsertStrict (40 --> 49) (9, 0); OpCut (5 --> 22 : Interval u8)]%Z.
Example C115_example :
  (* the two ends of the cut entries are clones, in order, the rest is original *)
  run_w fresh 100%Z clone_history =
    ([(1 --> 4, (7, 100)); (23 --> 29, (8, 101)); (40 --> 49, (9, 0))], 102)%Z /\
  (* an entry cut in the middle is cloned twice; the original is returned *)
  cut_w fresh (44 --> 45 : Interval u8) (fst (run_w fresh 100%Z clone_history)) 102%Z =
    ([(1 --> 4, (7, 100)); (23 --> 29, (8, 101)); (40 --> 43, (9, 102)); (46 --> 49, (9, 103))], Val [(44 --> 45, (9, 0))], 104)%Z /\
  insert_overwrite_w fresh (44 --> 45) (5, 5)%Z (fst (run_w fresh 100%Z clone_history)) 102%Z =
    ([(1 --> 4, (7, 100)); (23 --> 29, (8, 101)); (40 --> 43, (9, 102)); (44 --> 45, (5, 5)); (46 --> 49, (9, 103))], Val [(44 --> 45, (9, 0))], 104)%Z /\
  (* [fresh] keeps the labels *)
  (forall w v, fst (fst (fresh w v)) = fst v) /\
  map (image fst) (iter (fst (run_w fresh 100%Z clone_history))) =
    iter (run [OpInsertStrict (1 --> 9) 7; OpInsertStrict (20 --> 29) 8; OpInsertStrict (40 --> 49) 9; OpCut (5 --> 22 : Interval u8)])%Z /\
  snd (snd (run_w (counted fresh) (100%Z, O) clone_history)) = 2%nat /\ list_sum (map calls_cut clone_history) = 1%nat.
Proof. repeat split; vm_compute; reflexivity. Qed.

Definition zclone_history : list (zop u8 (Interval u8) (Z * Z)) :=
  [ZInsertStrictBack (1 --> 9) (7, 0); ZInsertStrictBack (9 --> 9) (8, 0); ZInsertStrictBack (9 --> 9) (9, 0); ZInsertStrictBack (9 --> 20) (6, 0)]%Z.
Example C115_zosdit_example :
  zosdit_cut_w fresh (5 --> 12 : Interval u8) (fst (zrun_w fresh 100%Z zclone_history)) 100%Z =
    (mkZosdit 2 [(1 --> 4, [(7, 100)]); (13 --> 20, [(6, 101)])],
     Val [(5 --> 9, (7, 0)); (9 --> 9, (8, 0)); (9 --> 9, (9, 0)); (9 --> 12, (6, 0))], 102)%Z /\
  snd (snd (zrun_w (counted fresh) (100%Z, O) (zclone_history ++ [ZCut (5 --> 12 : Interval u8); ZCut (1 --> 20 : Interval u8)]))) = 2%nat.
Proof. repeat split; vm_compute; reflexivity. Qed.

(** A clone that only counts is faithful; [fresh] is not, but keeps the labels. *)
Definition counting (w : Z) (v : Z * Z) : (Z * Z) * Z := (v, (w + 1)%Z).
Example C115_faithful_example :
  (forall w v, fst (counting w v) = v) /\
  run_w counting 0%Z clone_history = ([(1 --> 4, (7, 0)); (23 --> 29, (8, 0)); (40 --> 49, (9, 0))], 2)%Z /\
  run clone_history = [(1 --> 4, (7, 0)); (23 --> 29, (8, 0)); (40 --> 49, (9, 0))]%Z /\
  zrun_w counting 0%Z (zclone_history ++ [ZCut (5 --> 12 : Interval u8)]) = (mkZosdit 2 [(1 --> 4, [(7, 0)]); (13 --> 20, [(6, 0)])], 2)%Z /\
  zosdit_iter (zrun (zclone_history ++ [ZCut (5 --> 12 : Interval u8)])) = [(1 --> 4, (7, 0)); (13 --> 20, (6, 0))]%Z.
Proof. repeat split; vm_compute; reflexivity. Qed.
Example C115_lawful_example :
  Forall2 (op_image fst) clone_history
    [OpInsertStrict (1 --> 9) 7; OpInsertStrict (20 --> 29) 8; OpInsertStrict (40 --> 49) 9; OpCut (5 --> 22 : Interval u8)]%Z /\
  Forall2 (zop_image fst) (zclone_history ++ [ZCut (5 --> 12 : Interval u8)])
    [ZInsertStrictBack (1 --> 9) 7; ZInsertStrictBack (9 --> 9) 8; ZInsertStrictBack (9 --> 9) 9; ZInsertStrictBack (9 --> 20) 6; ZCut (5 --> 12 : Interval u8)]%Z /\
  zosdit_iter (zrun [ZInsertStrictBack (1 --> 9) 7; ZInsertStrictBack (9 --> 9) 8; ZInsertStrictBack (9 --> 9) 9; ZInsertStrictBack (9 --> 20) 6; ZCut (5 --> 12 : Interval u8)]%Z)
    = [(1 --> 4, 7); (13 --> 20, 6)]%Z /\
  zosdit_iter (fst (zrun_w fresh 100%Z (zclone_history ++ [ZCut (5 --> 12 : Interval u8)]))) = [(1 --> 4, (7, 100)); (13 --> 20, (6, 101))]%Z.
Proof.
  split; [|split; [|split; vm_compute; reflexivity]].
  - repeat (constructor; [first [exact (oi_strict fst _ _)|exact (oi_cut fst _ _ _)]|]). constructor.
  - cbn [zclone_history app]. repeat (constructor; [first [exact (zi_insert fst _ _)|exact (zi_cut fst _ _ _)]|]). constructor.
Qed.

Example C116_example :
  let os := [ZInsertStrictBack (1 --> 9) 7; ZInsertStrictBack (9 --> 9) 8; ZInsertStrictBack (9 --> 12) 7; ZRemoveLast ('9 : u8); ZCut (3 --> 4 : Interval u8)]%Z in
  let os' := [ZInsertStrictBack (1 --> 9) true; ZInsertStrictBack (9 --> 9) false; ZInsertStrictBack (9 --> 12) true; ZRemoveLast ('9 : u8); ZCut (3 --> 4 : Interval u8)]%Z in
  Forall2 (zop_image (fun x => Z.eqb x 7)) os os' /\
  zosdit_iter (zrun os) = [(1 --> 2, 7); (5 --> 9, 7); (9 --> 9, 8)]%Z /\
  zosdit_iter (zrun os') = [(1 --> 2, true); (5 --> 9, true); (9 --> 9, false)].
Proof.
  cbv zeta. split; [|split; vm_compute; reflexivity].
  repeat (constructor; [first [exact (zi_insert (fun x => Z.eqb x 7) _ _)|exact (zi_remove _ _)|exact (zi_cut _ _ _ _)]|]). constructor.
Qed.

Print Assumptions C115_faithful_clone.
Print Assumptions C115_zosdit_faithful_clone.
Print Assumptions C115_lawful_clone.
Print Assumptions C115_zosdit_lawful_clone.
Print Assumptions C115_cut_returns_originals.
Print Assumptions C115_cut_clones.
Print Assumptions C115_overwrite.
Print Assumptions C115_zosdit_cut_clones.
Print Assumptions C115_zosdit_cut_intervals.
Print Assumptions C115_state_threaded.
Print Assumptions C115_zosdit_state_threaded.
Print Assumptions C115_clone_count.
Print Assumptions C115_zosdit_clone_count.
Print Assumptions C116_queries.
Print Assumptions C116_calls.
Print Assumptions C116_from_iter.
