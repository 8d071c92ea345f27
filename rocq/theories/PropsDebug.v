(** * PropsDebug: C168, the texts of the derived [Debug] impls. *)
From Coq Require Import List ZArith Bool Arith String Ascii Lia.
From Verif Require Import Base BTree UtilsModel IntervalModel NoditModel NoditSetModel ZosditModel GqditModel InstancesModel Instances Spec NoditOps ZosditOps GqditOps EqModel EqFacts DeriveModel EffectDeriveFacts DebugModel DebugFacts.
Import ListNotations.
Open Scope list_scope.

(** ** Where the text of a value ends, and which value it is *)
Theorem C168_integers : forall {lo hi} alt, delimited (point_debug (lo := lo) (hi := hi) alt).
Proof. intros lo hi alt. exact (point_delimited alt). Qed.
Theorem C168_interval : forall {I} (dp : debug I) alt, delimited (dp alt) -> delimited (interval_debug dp alt).
Proof. intros I dp alt. exact (interval_delimited dp alt). Qed.
Theorem C168_nodit : forall {K V} tn (dk : debug K) (dv : debug V) alt, delimited (dk alt) -> delimited (dv alt) -> delimited (nodit_debug tn dk dv alt).
Proof. intros K V tn dk dv alt. exact (nodit_delimited tn dk dv alt). Qed.
Theorem C168_set : forall {K} tn (dk : debug K) alt, delimited (dk alt) -> delimited (nodit_set_debug tn dk alt).
Proof. intros K tn dk alt. exact (nodit_set_delimited tn dk alt). Qed.
Theorem C168_zosdit : forall {K V} tn (dk : debug K) (dv : debug V) alt, delimited (dk alt) -> delimited (dv alt) -> delimited (zosdit_debug tn dk dv alt).
Proof. intros K V tn dk dv alt. exact (zosdit_delimited tn dk dv alt). Qed.
Theorem C168_gqdit : forall {K D} tn (dk : debug K) (dd : debug D) alt, delimited (dk alt) -> delimited (dd alt) -> delimited (gqdit_debug tn dk dd alt).
Proof. intros K D tn dk dd alt. exact (gqdit_delimited tn dk dd alt). Qed.
Theorem C168_errors : forall {V} (dv : debug V) alt, delimited (dv alt) -> delimited (overlap_error_debug dv alt) /\ delimited (non_zero_overlap_error_debug dv alt).
Proof. intros V dv alt H. exact (conj (overlap_error_delimited dv alt H) (non_zero_overlap_error_delimited dv alt H)). Qed.
Theorem C168_helpers : forall {I} (dp : debug I) alt, delimited (config_debug alt) /\ (delimited (dp alt) -> delimited (cut_result_debug dp alt)).
Proof. intros I dp alt. exact (conj (config_delimited alt) (cut_result_delimited dp alt)). Qed.

(** ** Equal texts *)
Section Texts.
  Context {K V D : Type} {OD : Ord D} (tn : text) (dk : debug K) (dv : debug V) (dd : debug D) (alt : bool) (Hk : delimited (dk alt)) (Hv : delimited (dv alt)) (Hd : delimited (dd alt)).
  Theorem C168_same_text :
    (forall m m', nodit_debug tn dk dv alt m = nodit_debug tn dk dv alt m' <-> iter m = iter m') /\
    (forall s s', nodit_set_debug tn dk alt s = nodit_set_debug tn dk alt s' <-> set_iter s = set_iter s') /\
    (forall z z', zosdit_debug tn dk dv alt z = zosdit_debug tn dk dv alt z' <-> zosdit_len z = zosdit_len z' /\ z_inner z = z_inner z') /\
    (forall g g', gqdit_debug tn dk dd alt g = gqdit_debug tn dk dd alt g' <-> iter g = iter g').
  Proof.
    split; [|split; [|split]].
    - intros m m'. split; [exact (delimited_inj _ m m' (nodit_delimited tn dk dv alt Hk Hv))|intros E; unfold iter in E; rewrite E; reflexivity].
    - intros s s'. split; [intros E; rewrite (delimited_inj _ s s' (nodit_set_delimited tn dk alt Hk) E); reflexivity|].
      intros E. assert (s = s') as ->; [|reflexivity]. unfold set_iter, iter in E. revert s' E. induction s as [|[k []] s IH]; intros [|[k' []] s'] E; [reflexivity|discriminate..|].
      cbn in E. injection E as -> E. rewrite (IH s' E). reflexivity.
    - intros z z'. split; [intros E; rewrite (delimited_inj _ z z' (zosdit_delimited tn dk dv alt Hk Hv) E); split; reflexivity|].
      destruct z as [n l], z' as [n' l']. cbn. intros [-> ->]. reflexivity.
    - intros g g'. split; [exact (delimited_inj _ g g' (gqdit_delimited tn dk dd alt Hk Hd))|intros E; unfold iter in E; rewrite E; reflexivity].
  Qed.
  (** The texts are equal exactly if [==] holds, when [==] of the parts is identity. *)
  Theorem C168_text_and_eq : forall keq veq, (forall x y : K, keq x y = true <-> x = y) -> (forall x y : V, veq x y = true <-> x = y) -> (forall x y : D, eqb x y = true <-> x = y) ->
    (forall m m', nodit_debug tn dk dv alt m = nodit_debug tn dk dv alt m' <-> nodit_eqb keq veq m m' = true) /\
    (forall s s', nodit_set_debug tn dk alt s = nodit_set_debug tn dk alt s' <-> set_eqb keq s s' = true) /\
    (forall z z', zosdit_debug tn dk dv alt z = zosdit_debug tn dk dv alt z' <-> zosdit_eqb keq veq z z' = true) /\
    (forall g g', gqdit_debug tn dk dd alt g = gqdit_debug tn dk dd alt g' <-> gqdit_eqb keq g g' = true).
  Proof.
    intros keq veq EK EV ED. destruct C168_same_text as (A & B & C & G). split; [|split; [|split]].
    - intros m m'. rewrite A. unfold nodit_eqb, iter. rewrite (bt_eqb_eq keq veq m m' EK EV). reflexivity.
    - intros s s'. unfold set_eqb, nodit_eqb. rewrite (bt_eqb_eq keq _ s s' EK); [|intros [] []; split; reflexivity].
      split; [intros E; exact (delimited_inj _ s s' (nodit_set_delimited tn dk alt Hk) E)|intros ->; reflexivity].
    - intros z z'. rewrite C. unfold zosdit_eqb. rewrite andb_true_iff, Nat.eqb_eq, (bt_eqb_eq keq (vec_eqb veq)); [reflexivity|exact EK|apply vec_eqb_eq, EV].
    - intros g g'. rewrite G, gqdit_bt_eqb. symmetry. apply (bt_eqb_eq keq bset_eqb g g' EK). intros x. induction x as [|d x IH]; intros [|d' y]; cbn; try (split; [discriminate|discriminate]); [split; reflexivity|].
      rewrite andb_true_iff, ED, IH. split; [intros [-> ->]; reflexivity|intros E; injection E as -> ->; split; reflexivity].
  Qed.
End Texts.

(** ** Layout *)
Section Layout.
  Context {I K V D : Type} (tn : text) (dp : debug I) (dk : debug K) (dv : debug V) (dd : debug D).
  (** [{:?}] writes one line. *)
  Theorem C168_one_line : (forall p, one_line (dp false p)) -> (forall k, one_line (dk false k)) -> (forall v, one_line (dv false v)) -> (forall d, one_line (dd false d)) -> one_line tn ->
    (forall i, one_line (interval_debug dp false i)) /\ (forall m, one_line (nodit_debug tn dk dv false m)) /\ (forall s, one_line (nodit_set_debug tn dk false s)) /\
    (forall z, one_line (zosdit_debug tn dk dv false z)) /\ (forall g, one_line (gqdit_debug tn dk dd false g)).
  Proof.
    intros P Kk Vv Dd T. assert (N : forall {X} (dx : debug X), (forall x, one_line (dx false x)) -> forall m, one_line (nodit_debug tn dk dx false m)).
    { intros X dx Hx m. apply struct_one_line; [plain|]. constructor; [|constructor; [|constructor]]; apply named_one_line; [plain|apply map_one_line; assumption|plain|apply phantom_one_line, T]. }
    split; [|split; [|split; [|split]]].
    - intros i. apply struct_one_line; [plain|]. constructor; [|constructor; [|constructor]]; (apply named_one_line; [plain|apply P]).
    - exact (N V dv Vv).
    - intros s. apply struct_one_line; [plain|]. constructor; [|constructor]. apply named_one_line; [plain|]. apply (N unit unit_debug). intros [] . plain.
    - intros z. apply struct_one_line; [plain|]. constructor; [|constructor; [|constructor; [|constructor]]]; (apply named_one_line; [plain|]); [apply usize_one_line| |apply phantom_one_line, T].
      apply map_one_line; [exact Kk|]. intros vs. apply (bracket_one_line dv); [plain|exact Vv].
    - intros g. apply struct_one_line; [plain|]. constructor; [|constructor]. apply named_one_line; [plain|]. apply (N (list D) (set_text dd)). intros s. apply (bracket_one_line dd); [plain|exact Dd].
  Qed.
  (** [{:#?}] of an [Interval] and of a [NoditMap] whose keys and values are written on one
      line: every entry has its own line. *)
  Theorem C168_pretty_interval : forall i, (forall p, one_line (dp true p)) ->
    interval_debug dp true i = txt "Interval {" ++ [newline] ++ txt "    start: " ++ dp true (ivl_start i) ++ txt "," ++ [newline] ++ txt "    end: " ++ dp true (ivl_end i) ++ txt "," ++ [newline] ++ txt "}".
  Proof.
    intros i P. unfold interval_debug, struct_text. rewrite padded_lines_plain by (constructor; [|constructor; [|constructor]]; (split; [apply named_one_line; [plain|apply P]|discriminate])).
    unfold named. cbn [map List.concat]. rewrite app_nil_r, <- !app_assoc. reflexivity.
  Qed.
  Theorem C168_pretty_nodit : forall m, (forall k, one_line (dk true k) /\ dk true k <> []) -> (forall v, one_line (dv true v)) -> one_line tn -> is_empty m = false ->
    nodit_debug tn dk dv true m =
      txt "NoditMap {" ++ [newline] ++ txt "    inner: {" ++ [newline] ++
      List.concat (map (fun e => txt "        " ++ dk true (fst e) ++ txt ": " ++ dv true (snd e) ++ txt "," ++ [newline]) (iter m)) ++
      txt "    }," ++ [newline] ++ txt "    phantom: PhantomData<" ++ tn ++ txt ">," ++ [newline] ++ txt "}".
  Proof.
    intros m Kk Vv T Ne. destruct m as [|e0 m0]; [discriminate Ne|]. remember (e0 :: m0) as m eqn:Em.
    set (ls := map (fun e => txt "    " ++ entry_text dk dv true e ++ txt ",") m).
    assert (M : map_text dk dv true m = "{"%char :: newline :: List.concat (map (fun t => t ++ [newline]) ls) ++ ["}"%char]).
    { unfold map_text. assert (G : group_text true "{" "}" (map (entry_text dk dv true) m) = "{"%char :: newline :: padded_lines (map (entry_text dk dv true) m) ++ ["}"%char]) by (subst m; reflexivity).
      rewrite G. rewrite padded_lines_plain.
      - unfold ls. rewrite !map_map. do 3 f_equal. f_equal. apply map_ext. intros e. rewrite <- !app_assoc. reflexivity.
      - apply Forall_forall. intros t Ht. apply in_map_iff in Ht. destruct Ht as (e & <- & _). unfold entry_text. destruct (Kk (fst e)) as [A B]. split.
        + apply one_line_app; [exact A|]. apply one_line_app; [plain|apply Vv].
        + destruct (dk true (fst e)); [contradiction|discriminate]. }
    unfold nodit_debug, struct_text, padded_lines. cbn [map List.concat]. rewrite app_nil_r. rewrite (pad_line (named "phantom" (phantom_text tn))); [|apply named_one_line; [plain|apply phantom_one_line, T]|discriminate].
    rewrite M. assert (E : pad true (named "inner" ("{"%char :: newline :: List.concat (map (fun t => t ++ [newline]) ls) ++ ["}"%char]) ++ txt "," ++ [newline]) =
      txt "    inner: {" ++ newline :: pad true (List.concat (map (fun t => t ++ [newline]) ls) ++ txt "}," ++ [newline])).
    { unfold named. rewrite <- !app_assoc. cbn [app]. rewrite <- !app_assoc. reflexivity. }
    rewrite E. rewrite pad_indent.
    - unfold ls, named, phantom_text, entry_text. rewrite !map_map. unfold iter. rewrite (map_ext (fun x => txt "    " ++ (txt "    " ++ (dk true (fst x) ++ txt ": " ++ dv true (snd x)) ++ txt ",") ++ [newline])
        (fun e => txt "        " ++ dk true (fst e) ++ txt ": " ++ dv true (snd e) ++ txt "," ++ [newline])) by (intros e; rewrite <- !app_assoc; reflexivity).
      rewrite <- !app_assoc. cbn [app]. rewrite <- !app_assoc. reflexivity.
    - apply Forall_forall. intros t Ht. apply in_map_iff in Ht. destruct Ht as (e & <- & _). split; [|discriminate]. unfold entry_text. destruct (Kk (fst e)) as [A B].
      apply one_line_app; [plain|]. apply one_line_app; [|plain]. apply one_line_app; [exact A|]. apply one_line_app; [plain|apply Vv].
  Qed.
End Layout.

(** Texts of a NoditMap of [u8] intervals, of the others, and of maps that cannot be told
    apart because the text of a value does not show where it ends. *)
Definition ex_debug_map : NoditMap (Interval u8) Z := [(1 --> 9, 7%Z); (11 --> 20, (-8)%Z)].
Definition raw_debug : debug string := fun _ s => txt s.
Example C168_example :
  nodit_debug (txt "u8") (interval_debug point_debug) int_debug false ex_debug_map =
    txt "NoditMap { inner: {Interval { start: 1, end: 9 }: 7, Interval { start: 11, end: 20 }: -8}, phantom: PhantomData<u8> }" /\
  string_of_list_ascii (nodit_debug (txt "u8") (interval_debug point_debug) int_debug true ex_debug_map) =
"NoditMap {
    inner: {
        Interval {
            start: 1,
            end: 9,
        }: 7,
        Interval {
            start: 11,
            end: 20,
        }: -8,
    },
    phantom: PhantomData<u8>,
}"%string /\
  zosdit_debug (txt "u8") (interval_debug point_debug) int_debug false (mkZosdit 3 [(1 --> 9, [7; 8]); (9 --> 20, [5])]%Z : ZosditMap (Interval u8) Z) =
    txt "ZosditMap { len: 3, inner: {Interval { start: 1, end: 9 }: [7, 8], Interval { start: 9, end: 20 }: [5]}, phantom: PhantomData<u8> }" /\
  gqdit_debug (txt "u8") (interval_debug point_debug) point_debug false ([(1 --> 9, ['3; '4]); (10 --> 20, ['5])] : Gqdit (Interval u8) u8) =
    txt "Gqdit { inner: NoditMap { inner: {Interval { start: 1, end: 9 }: {3, 4}, Interval { start: 10, end: 20 }: {5}}, phantom: PhantomData<u8> } }" /\
  nodit_set_debug (txt "u8") (interval_debug point_debug) false ([(1 --> 9, tt)] : NoditSet (Interval u8)) =
    txt "NoditSet { inner: NoditMap { inner: {Interval { start: 1, end: 9 }: ()}, phantom: PhantomData<u8> } }" /\
  overlap_error_debug int_debug false 5%Z = txt "OverlapError { value: 5 }" /\
  cut_result_debug (I := u8) point_debug false (mkCut None (Some (1 --> 9)) None) = txt "CutResult { before_cut: None, inside_cut: Some(Interval { start: 1, end: 9 }), after_cut: None }" /\
  nodit_debug (txt "u8") point_debug raw_debug false [('1 : u8, "7, 2: 8"%string)] = nodit_debug (txt "u8") point_debug raw_debug false [('1, "7"%string); ('2, "8"%string)].
Proof. vm_compute. repeat split; reflexivity. Qed.

Print Assumptions C168_integers.
Print Assumptions C168_interval.
Print Assumptions C168_nodit.
Print Assumptions C168_set.
Print Assumptions C168_zosdit.
Print Assumptions C168_gqdit.
Print Assumptions C168_errors.
Print Assumptions C168_helpers.
Print Assumptions C168_same_text.
Print Assumptions C168_text_and_eq.
Print Assumptions C168_one_line.
Print Assumptions C168_pretty_interval.
Print Assumptions C168_pretty_nodit.
