(** * PropsOptions: the derived [Debug] impls with the options [+], [0w], [x] and [X] (C177). *)
From Coq Require Import String Ascii Bool Arith ZArith Lia List.
From Verif Require Import Base BTree UtilsModel IntervalModel NoditModel NoditSetModel ZosditModel GqditModel InstancesModel Instances DebugModel OptionsModel DebugFacts OptionsFacts.
Import ListNotations.
Open Scope list_scope.

(** ** C177 *)
(** The texts tell values apart, whatever the options. *)
Theorem C177_integers : forall o lo hi alt, (0 <= hi)%Z -> delimited (point_debug_o o (lo := lo) (hi := hi) alt).
Proof. intros o lo hi alt H. exact (point_o_delimited o alt H). Qed.
Theorem C177_interval : forall o lo hi alt, (0 <= hi)%Z -> delimited (interval_debug (point_debug_o o (lo := lo) (hi := hi)) alt).
Proof. intros o lo hi alt H. exact (interval_delimited _ alt (point_o_delimited o alt H)). Qed.
Theorem C177_nodit : forall o {V} lo hi tn (dv : debug V) alt, (0 <= hi)%Z -> delimited (dv alt) ->
  delimited (nodit_debug tn (interval_debug (point_debug_o o (lo := lo) (hi := hi))) dv alt).
Proof. intros o V lo hi tn dv alt H. apply nodit_delimited, interval_delimited, point_o_delimited, H. Qed.
Theorem C177_set : forall o {K} tn (dk : debug K) alt, delimited (dk alt) -> delimited (nodit_set_debug_o o tn dk alt).
Proof. intros o K tn dk alt. exact (nodit_set_o_delimited o tn dk alt). Qed.
Theorem C177_zosdit : forall o {K V} tn (dk : debug K) (dv : debug V) alt, delimited (dk alt) -> delimited (dv alt) -> delimited (zosdit_debug_o o tn dk dv alt).
Proof. intros o K V tn dk dv alt. exact (zosdit_o_delimited o tn dk dv alt). Qed.
Theorem C177_gqdit : forall o {D} lo hi tn (dd : debug D) alt, (0 <= hi)%Z -> delimited (dd alt) ->
  delimited (gqdit_debug tn (interval_debug (point_debug_o o (lo := lo) (hi := hi))) dd alt).
Proof. intros o D lo hi tn dd alt H. apply gqdit_delimited, interval_delimited, point_o_delimited, H. Qed.
(** Equal texts: equal contents. *)
Theorem C177_same_text : forall o {K V} tn (dk : debug K) (dv : debug V) alt, delimited (dk alt) -> delimited (dv alt) ->
  (forall s s', nodit_set_debug_o o tn dk alt s = nodit_set_debug_o o tn dk alt s' -> set_iter s = set_iter s') /\
  (forall z z', zosdit_debug_o o tn dk dv alt z = zosdit_debug_o o tn dk dv alt z' -> zosdit_len z = zosdit_len z' /\ z_inner z = z_inner z').
Proof.
  intros o K V tn dk dv alt H H'. split.
  - intros s s' E. apply (delimited_inj _ _ _ (nodit_set_o_delimited o tn dk alt H)) in E. subst. reflexivity.
  - intros z z' E. apply (delimited_inj _ _ _ (zosdit_o_delimited o tn dk dv alt H H')) in E. subst. auto.
Qed.
(** A number has at least the width asked for. *)
Theorem C177_width : forall o lo hi alt (p : int lo hi), (o_zeros o <= List.length (point_debug_o o alt p))%nat.
Proof. intros o lo hi alt p. unfold point_debug_o. destruct (o_radix o); apply pad_length. Qed.
(** The text is a sign, perhaps "0x", and digits of the asked case that read as the number, in
    hexadecimal as that of the unsigned type with the same bits. *)
Theorem C177_value : forall o lo hi alt (p : int lo hi), (lo <= 0 <= hi)%Z ->
  exists t, point_debug_o o alt p =
      match o_radix o with RDec => if (ival p <? 0)%Z then txt "-" else if o_plus o then txt "+" else [] | _ => (if o_plus o then txt "+" else []) ++ (if alt then txt "0x" else []) end ++ t /\
    (forall c, In c t -> digit_of (o_radix o) c) /\
    read (base_of (o_radix o)) t = match o_radix o with RDec => Z.abs (ival p) | _ => (ival p mod (hi - lo + 1))%Z end.
Proof.
  intros o lo hi alt p Hh. pose proof (int_range p) as B.
  assert (U : (if (ival p <? 0)%Z then (ival p + (hi - lo + 1))%Z else ival p) = (ival p mod (hi - lo + 1))%Z).
  { destruct (Z.ltb_spec (ival p) 0); [|symmetry; apply Z.mod_small; lia]. rewrite <- (Z_mod_plus_full _ 1). rewrite Z.mod_small by lia. lia. }
  unfold point_debug_o. rewrite U. destruct (o_radix o) eqn:R; rewrite <- R.
  - destruct (pad_value o alt (ival p <? 0)%Z (Z.abs (ival p)) (Z.abs_nonneg _)) as (t & E & A & V). exists t. rewrite R in *. auto.
  - destruct (pad_value o alt false (ival p mod (hi - lo + 1))) as (t & E & A & V); [apply Z.mod_pos_bound; lia|]. exists t. rewrite R in *. rewrite <- app_assoc. auto.
  - destruct (pad_value o alt false (ival p mod (hi - lo + 1))) as (t & E & A & V); [apply Z.mod_pos_bound; lia|]. exists t. rewrite R in *. rewrite <- app_assoc. auto.
Qed.
(** Without options the texts are those of C168. *)
Theorem C177_no_options :
  (forall lo hi alt (p : int lo hi), point_debug_o no_options alt p = point_debug alt p) /\
  (forall {K} tn (dk : debug K) alt s, nodit_set_debug_o no_options tn dk alt s = nodit_set_debug tn dk alt s) /\
  (forall {K V} tn (dk : debug K) (dv : debug V) alt z, zosdit_debug_o no_options tn dk dv alt z = zosdit_debug tn dk dv alt z).
Proof.
  split; [|split; reflexivity]. intros lo hi alt p. unfold point_debug_o, point_debug, int_debug, pad_integral. cbn -[Z_digits]. destruct (ival p) as [|q|q]; reflexivity.
Qed.

(** The hypotheses are met, non-trivially. *)
Open Scope Z_scope.
Example C177_example :
  interval_debug (point_debug_o (mkOptions false 2 RLow)) false (10 --> 255 : Interval u8) = txt "Interval { start: 0a, end: ff }" /\
  interval_debug (point_debug_o (mkOptions true 4 RUp)) true (10 --> 255 : Interval u8) =
    txt "Interval {" ++ [newline] ++ txt "    start: +0xA," ++ [newline] ++ txt "    end: +0xFF," ++ [newline] ++ txt "}" /\
  interval_debug (point_debug_o (mkOptions true 4 RDec)) false ((-7) --> 12 : Interval i8) = txt "Interval { start: -007, end: +012 }" /\
  interval_debug (point_debug_o (mkOptions false 0 RLow)) false ((-7) --> 12 : Interval i8) = txt "Interval { start: f9, end: c }" /\
  nodit_set_debug_o (mkOptions false 3 RDec) (txt "u8") (interval_debug (point_debug_o (mkOptions false 3 RDec))) false ([(1 --> 9, tt)] : NoditSet (Interval u8)) =
    txt "NoditSet { inner: NoditMap { inner: {Interval { start: 001, end: 009 }: () }, phantom: PhantomData<u8> } }" /\
  zosdit_debug_o (mkOptions false 2 RDec) (txt "u8") (interval_debug (point_debug_o (mkOptions false 2 RDec))) (point_debug_o (mkOptions false 2 RDec)) false
    (mkZosdit 2 [(1 --> 9, ['4; '5])] : ZosditMap (Interval u8) u8) =
    txt "ZosditMap { len: 02, inner: {Interval { start: 01, end: 09 }: [04, 05]}, phantom: PhantomData<u8> }".
Proof. vm_compute. repeat split. Qed.
Print Assumptions C177_integers.
Print Assumptions C177_interval.
Print Assumptions C177_nodit.
Print Assumptions C177_set.
Print Assumptions C177_zosdit.
Print Assumptions C177_gqdit.
Print Assumptions C177_same_text.
Print Assumptions C177_width.
Print Assumptions C177_value.
Print Assumptions C177_no_options.
