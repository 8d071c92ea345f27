(** * PropsPadding: the derived [Debug] impls with every option of [core::fmt] (C179). *)
From Coq Require Import String Ascii Bool Arith ZArith Lia List.
From Verif Require Import Base BTree UtilsModel IntervalModel NoditModel NoditSetModel ZosditModel GqditModel InstancesModel Instances DebugModel OptionsModel PaddingModel DebugFacts OptionsFacts PaddingFacts.
Import ListNotations.
Open Scope list_scope.

(** ** C179 *)
(** With a fill that cannot be part of a number, or with the zero flag, which ignores the fill,
    integers can be told apart ([usize]: the counter of a ZosditMap). *)
Theorem C179_integers : forall f lo hi alt, (0 <= hi)%Z -> f_zero f = true \/ ~ number_char (f_fill f) ->
  apart (point_debug_f f (lo := lo) (hi := hi) alt) /\ apart (usize_debug_f f alt) /\
  (~ stop_char (f_fill f) -> delimited (point_debug_f f (lo := lo) (hi := hi) alt)) /\
  (~ In (f_fill f) (txt "]}") -> readable (point_debug_f f (lo := lo) (hi := hi) alt)).
Proof. intros f lo hi alt H C. split; [exact (point_apart f alt H C)|]. split; [exact (usize_apart f alt C)|]. split; [exact (point_f_delimited f alt H C)|exact (point_readable f alt H C)]. Qed.
(** So can intervals and containers. *)
Theorem C179_interval : forall f lo hi alt, (0 <= hi)%Z -> f_zero f = true \/ ~ number_char (f_fill f) -> delimited (interval_debug (point_debug_f f (lo := lo) (hi := hi)) alt).
Proof. intros f lo hi alt H C. exact (interval_f_delimited f alt H C). Qed.
Theorem C179_nodit : forall f {V} lo hi tn (dv : debug V) alt, (0 <= hi)%Z -> f_zero f = true \/ ~ number_char (f_fill f) -> apart (dv alt) ->
  delimited (nodit_debug tn (interval_debug (point_debug_f f (lo := lo) (hi := hi))) dv alt).
Proof. intros f V lo hi tn dv alt H C. apply nodit_apart, interval_f_delimited; assumption. Qed.
Theorem C179_gqdit : forall f {D} lo hi tn (dd : debug D) alt, (0 <= hi)%Z -> f_zero f = true \/ ~ number_char (f_fill f) -> readable (dd alt) ->
  delimited (gqdit_debug tn (interval_debug (point_debug_f f (lo := lo) (hi := hi))) dd alt).
Proof. intros f D lo hi tn dd alt H C. apply gqdit_readable, interval_f_delimited; assumption. Qed.
Theorem C179_zosdit : forall f {K V} tn (dk : debug K) (dv : debug V) alt, f_zero f = true \/ ~ number_char (f_fill f) -> delimited (dk alt) -> readable (dv alt) -> delimited (zosdit_debug_f f tn dk dv alt).
Proof. intros f K V tn dk dv alt C. exact (zosdit_readable f tn dk dv alt C). Qed.
(** Equal texts of containers of integers with integer points: equal contents. *)
Theorem C179_same_text : forall f lo hi lo' hi' tn alt, (0 <= hi)%Z -> (0 <= hi')%Z -> f_zero f = true \/ ~ number_char (f_fill f) -> ~ In (f_fill f) (txt "]}") ->
  let dk := interval_debug (point_debug_f f (lo := lo) (hi := hi)) in let dv := point_debug_f f (lo := lo') (hi := hi') in
  (forall m m', nodit_debug tn dk dv alt m = nodit_debug tn dk dv alt m' -> iter m = iter m') /\
  (forall s s', nodit_set_debug_f f tn dk alt s = nodit_set_debug_f f tn dk alt s' -> set_iter s = set_iter s') /\
  (forall z z', zosdit_debug_f f tn dk dv alt z = zosdit_debug_f f tn dk dv alt z' -> zosdit_len z = zosdit_len z' /\ z_inner z = z_inner z') /\
  (forall g g', gqdit_debug tn dk dv alt g = gqdit_debug tn dk dv alt g' -> g = g').
Proof.
  intros f lo hi lo' hi' tn alt H H' C S dk dv. pose proof (interval_f_delimited f (lo := lo) (hi := hi) alt H C) as DK. pose proof (point_readable f (lo := lo') (hi := hi') alt H' C S) as DV. split; [|split; [|split]].
  - intros m m' E. apply (delimited_inj _ _ _ (nodit_apart tn dk dv alt DK (proj1 DV))) in E. subst. reflexivity.
  - intros s s' E. apply (delimited_inj _ _ _ (nodit_set_f_delimited f tn dk alt DK)) in E. subst. reflexivity.
  - intros z z' E. apply (delimited_inj _ _ _ (zosdit_readable f tn dk dv alt C DK DV)) in E. subst. auto.
  - intros g g' E. exact (delimited_inj _ _ _ (gqdit_readable tn dk dv alt DK DV) E).
Qed.
(** A NoditSet even with any fill and any precision, which cuts its values [()]. *)
Theorem C179_set : forall f {K} tn (dk : debug K) alt, delimited (dk alt) -> delimited (nodit_set_debug_f f tn dk alt).
Proof. intros f K tn dk alt. exact (nodit_set_f_delimited f tn dk alt). Qed.
(** With any fill the texts of different intervals can be equal. *)
Definition ex_ones : format := mkFormat "1" None false false 3 None RDec.
Theorem C179_digit_fill : exists (f : format) (i j : Interval u8), i <> j /\ interval_debug (point_debug_f f) false i = interval_debug (point_debug_f f) false j.
Proof. exists ex_ones, (mkInterval (lit 1) (lit 200)), (mkInterval (lit 11) (lit 200)). split; [intros E; injection E as E; discriminate E|vm_compute; reflexivity]. Qed.
(** Where the fill goes: a number without a width, as in C177, between two runs of it, none on
    the right without an alignment. *)
Theorem C179_where : forall f lo hi alt (p : int lo hi), f_zero f = false ->
  exists l r, point_debug_f f alt p = repeat (f_fill f) l ++ point_debug_o (mkOptions (f_plus f) 0 (f_radix f)) alt p ++ repeat (f_fill f) r /\
    match f_align f with Some ALeft => l = 0 | Some ACenter => l = r \/ S l = r | _ => r = 0 end%nat /\
    List.length (point_debug_f f alt p) = Nat.max (f_width f) (List.length (point_debug_o (mkOptions (f_plus f) 0 (f_radix f)) alt p)).
Proof.
  intros f lo hi alt p Z0. rewrite point_f_eq, Z0. cbv zeta. rewrite padding_length. change (mkOptions (f_plus f) 0 (f_radix f)) with (bare f).
  set (s := point_debug_o (bare f) alt p). set (n := (f_width f - List.length s)%nat). unfold padding.
  eexists. eexists. split; [reflexivity|]. split; [|unfold n; lia]. destruct (f_align f) as [[]|]; [reflexivity| |lia|lia].
  destruct (Nat.Even_or_Odd n) as [[k ->]|[k ->]]; [rewrite Nat.div2_double; lia|]. replace (2 * k + 1)%nat with (S (2 * k)) by lia. rewrite Nat.div2_succ_double. lia.
Qed.
(** With the zero flag, or without a width, fill, alignment and precision do not matter: the
    texts are those of C177. *)
Theorem C179_zeros : forall f, f_zero f = true \/ f_width f = 0%nat -> forall lo hi alt,
  (forall p : int lo hi, point_debug_f f alt p = point_debug_o (mkOptions (f_plus f) (f_width f) (f_radix f)) alt p) /\
  (forall n, usize_debug_f f alt n = usize_debug_o (mkOptions (f_plus f) (f_width f) (f_radix f)) alt n).
Proof.
  intros f H lo hi alt. assert (X : f_width f = 0%nat -> forall t, padding f ARight (f_width f - List.length t) t = t).
  { intros -> t. unfold padding. cbn [Nat.sub]. destruct (match f_align f with Some a => a | None => ARight end); cbn; apply app_nil_r. }
  split; intros p; [rewrite point_f_eq|rewrite usize_f_eq]; (destruct (f_zero f); [reflexivity|]); (destruct H as [H|H]; [discriminate H|]); cbv zeta; rewrite (X H); unfold bare; rewrite H; reflexivity.
Qed.
(** The values [()] of a NoditSet: cut to the precision, then filled, on the right without an
    alignment; without precision, fill and alignment as in C177. *)
Theorem C179_units : forall f alt u,
  exists l r, unit_debug_f f alt u = repeat (f_fill f) l ++ match f_precision f with Some 0 => [] | Some 1 => txt "(" | _ => txt "()" end%nat ++ repeat (f_fill f) r /\
    match f_align f with Some ARight => r = 0 | Some ACenter => l = r \/ S l = r | _ => l = 0 end%nat /\
    List.length (unit_debug_f f alt u) = Nat.max (f_width f) match f_precision f with Some 0 => 0 | Some 1 => 1 | _ => 2 end%nat /\
    forall o, f_fill f = " "%char -> f_align f = None -> f_precision f = None -> f_width f = o_zeros o -> unit_debug_f f alt u = unit_debug_o o alt u.
Proof.
  intros f alt u. assert (T : match f_precision f with Some n => firstn n (txt "()") | None => txt "()" end = match f_precision f with Some 0 => [] | Some 1 => txt "(" | _ => txt "()" end%nat) by (destruct (f_precision f) as [[|[|[|n]]]|]; reflexivity).
  unfold unit_debug_f, pad_str. rewrite T, padding_length. set (t := match f_precision f with Some 0 => [] | Some 1 => txt "(" | _ => txt "()" end%nat). set (n := (f_width f - List.length t)%nat).
  assert (L : List.length t = match f_precision f with Some 0 => 0 | Some 1 => 1 | _ => 2 end%nat) by (unfold t; destruct (f_precision f) as [[|[|[|k]]]|]; reflexivity).
  eexists. eexists. split; [reflexivity|]. split; [|split].
  - destruct (f_align f) as [[]|]; [reflexivity| |lia|reflexivity].
    destruct (Nat.Even_or_Odd n) as [[k ->]|[k ->]]; [rewrite Nat.div2_double; lia|]. replace (2 * k + 1)%nat with (S (2 * k)) by lia. rewrite Nat.div2_succ_double. lia.
  - rewrite <- L. unfold n. lia.
  - intros o F A P W. unfold unit_debug_o, padding, n, t. rewrite F, A, P, W. cbn [repeat app]. rewrite Nat.sub_0_r. reflexivity.
Qed.

(** The hypotheses are met, non-trivially. *)
Open Scope Z_scope.
Definition ex_wide : format := mkFormat " " None false false 5 None RDec.
Definition ex_stars : format := mkFormat "*" (Some ACenter) true false 6 (Some 1%nat) RUp.
Example C179_fills_example : ~ number_char (f_fill ex_wide) /\ ~ number_char (f_fill ex_stars) /\ ~ stop_char (f_fill ex_stars) /\ ~ In (f_fill ex_wide) (txt "]}") /\ number_char (f_fill ex_ones).
Proof. unfold number_char, stop_char. cbn. intuition discriminate. Qed.
Example C179_example :
  interval_debug (point_debug_f ex_wide) false (10 --> 255 : Interval u8) = txt "Interval { start:    10, end:   255 }" /\
  interval_debug (point_debug_f (mkFormat " " (Some ALeft) false false 5 None RDec)) false ((-7) --> 12 : Interval i8) = txt "Interval { start: -7   , end: 12    }" /\
  interval_debug (point_debug_f ex_stars) true (10 --> 255 : Interval u8) =
    txt "Interval {" ++ [newline] ++ txt "    start: *+0xA*," ++ [newline] ++ txt "    end: +0xFF*," ++ [newline] ++ txt "}" /\
  nodit_set_debug_f ex_stars (txt "u8") (interval_debug (point_debug_f ex_stars)) false ([(1 --> 9, tt)] : NoditSet (Interval u8)) =
    txt "NoditSet { inner: NoditMap { inner: {Interval { start: **+1**, end: **+9** }: **(***}, phantom: PhantomData<u8> } }" /\
  interval_debug (point_debug_f ex_ones) false (1 --> 200 : Interval u8) = txt "Interval { start: 111, end: 200 }" /\
  zosdit_debug_f ex_wide (txt "u8") (interval_debug (point_debug_f ex_wide)) (point_debug_f ex_wide) false (mkZosdit 1 [(1 --> 9, ['4])] : ZosditMap (Interval u8) u8) =
    txt "ZosditMap { len:     1, inner: {Interval { start:     1, end:     9 }: [    4]}, phantom: PhantomData<u8> }".
Proof. vm_compute. repeat split. Qed.
Print Assumptions C179_integers.
Print Assumptions C179_interval.
Print Assumptions C179_nodit.
Print Assumptions C179_gqdit.
Print Assumptions C179_zosdit.
Print Assumptions C179_same_text.
Print Assumptions C179_set.
Print Assumptions C179_digit_fill.
Print Assumptions C179_where.
Print Assumptions C179_zeros.
Print Assumptions C179_units.
