(** * OptionsFacts: the derived [Debug] impls with options (the proofs of C177). *)
From Coq Require DecimalNat DecimalZ DecimalPos HexadecimalNat HexadecimalZ HexadecimalPos.
From Coq Require Import String Ascii Bool Arith ZArith DecimalString HexadecimalString Lia List.
From Verif Require Import Base BTree UtilsModel IntervalModel NoditModel NoditSetModel ZosditModel GqditModel InstancesModel Instances DebugModel OptionsModel DebugFacts.
Import ListNotations.
Open Scope list_scope.

Definition hexdigit (c : ascii) : Prop := In c (txt "0123456789abcdefABCDEF").
Definition lowdigit (c : ascii) : Prop := In c (txt "0123456789abcdef").
(** Digits without zeros in front. *)
Definition canonical (t : text) : Prop := t = txt "0" \/ exists c r, t = c :: r /\ c <> "0"%char.

Ltac hexes H := unfold hexdigit in H; cbn in H; repeat (destruct H as [<-|H]); [..|destruct H].

(** ** Decimal *)
Lemma dec_chars d c : In c (txt (DecimalString.NilEmpty.string_of_uint d)) -> hexdigit c.
Proof. induction d; cbn; [tauto|..]; (intros [<-|Hc]; [unfold hexdigit, lowdigit; cbn; tauto|apply IHd; exact Hc]). Qed.
Lemma dec_zchars d c : In c (txt (DecimalString.NilZero.string_of_uint d)) -> hexdigit c.
Proof. destruct d; [|apply dec_chars..]. unfold hexdigit, lowdigit. cbn. tauto. Qed.
Lemma dec_nzhead d : match Decimal.nzhead d with Decimal.D0 _ => False | _ => True end.
Proof. induction d; cbn; auto. Qed.
Lemma dec_unorm d : canonical (txt (DecimalString.NilZero.string_of_uint (Decimal.unorm d))).
Proof. unfold Decimal.unorm. pose proof (dec_nzhead d) as N. destruct (Decimal.nzhead d); [left; reflexivity|destruct N|..]; right; cbn; (eexists; eexists; split; [reflexivity|discriminate]). Qed.
Lemma dec_nat n : canonical (nat_digits RDec n).
Proof. cbn. rewrite <- (DecimalNat.Unsigned.of_to n), DecimalNat.Unsigned.to_of. apply dec_unorm. Qed.
(** ** Hexadecimal *)
Lemma hex_chars d c : In c (txt (HexadecimalString.NilEmpty.string_of_uint d)) -> hexdigit c.
Proof. induction d; cbn; [tauto|..]; (intros [<-|Hc]; [unfold hexdigit, lowdigit; cbn; tauto|apply IHd; exact Hc]). Qed.
Lemma hex_zchars d c : In c (txt (HexadecimalString.NilZero.string_of_uint d)) -> hexdigit c.
Proof. destruct d; [|apply hex_chars..]. unfold hexdigit, lowdigit. cbn. tauto. Qed.
Lemma hex_nzhead d : match Hexadecimal.nzhead d with Hexadecimal.D0 _ => False | _ => True end.
Proof. induction d; cbn; auto. Qed.
Lemma hex_unorm d : canonical (txt (HexadecimalString.NilZero.string_of_uint (Hexadecimal.unorm d))).
Proof. unfold Hexadecimal.unorm. pose proof (hex_nzhead d) as N. destruct (Hexadecimal.nzhead d); [left; reflexivity|destruct N|..]; right; cbn; (eexists; eexists; split; [reflexivity|discriminate]). Qed.
Lemma hex_nat n : canonical (nat_digits RLow n).
Proof. cbn. rewrite <- (HexadecimalNat.Unsigned.of_to n), HexadecimalNat.Unsigned.to_of. apply hex_unorm. Qed.
(** ** Lower case and upper case *)
Lemma hex_low d c : In c (txt (HexadecimalString.NilEmpty.string_of_uint d)) -> lowdigit c.
Proof. induction d; cbn; [tauto|..]; (intros [<-|Hc]; [unfold hexdigit, lowdigit; cbn; tauto|apply IHd; exact Hc]). Qed.
Lemma hex_zlow d c : In c (txt (HexadecimalString.NilZero.string_of_uint d)) -> lowdigit c.
Proof. destruct d; [|apply hex_low..]. unfold hexdigit, lowdigit. cbn. tauto. Qed.
Lemma low_hex c : lowdigit c -> hexdigit c /\ hexdigit (upper_char c) /\ (upper_char c = "0"%char -> c = "0"%char).
Proof. intros H. unfold lowdigit in H. cbn in H. repeat (destruct H as [<-|H]; [split; [unfold hexdigit; cbn; tauto|split; [unfold hexdigit; vm_compute; tauto|intros E; first [reflexivity|vm_compute in E; discriminate E]]]|]). destruct H. Qed.
Lemma upper_inj c c' : lowdigit c -> lowdigit c' -> upper_char c = upper_char c' -> c = c'.
Proof.
  intros H H' E. unfold lowdigit in H, H'. cbn in H. repeat (destruct H as [<-|H]; [cbn in H'; repeat (destruct H' as [<-|H']; [first [reflexivity|vm_compute in E; discriminate E]|]); destruct H'|]). destruct H.
Qed.
Lemma uppers_inj : forall t t', (forall c, In c t -> lowdigit c) -> (forall c, In c t' -> lowdigit c) -> map upper_char t = map upper_char t' -> t = t'.
Proof.
  induction t as [|c t IH]; intros [|c' t'] H H' E; try discriminate; [reflexivity|]. cbn in E. injection E as E1 E2. f_equal.
  - apply upper_inj; [apply H; left; reflexivity|apply H'; left; reflexivity|exact E1].
  - apply IH; [intros x Hx; apply H; right; exact Hx|intros x Hx; apply H'; right; exact Hx|exact E2].
Qed.
Lemma uppers_canonical t : (forall c, In c t -> lowdigit c) -> canonical t -> canonical (map upper_char t).
Proof. intros H [->|(c & r & -> & N)]; [left; reflexivity|right]. exists (upper_char c), (map upper_char r). split; [reflexivity|]. intros E. apply N. apply low_hex; [apply H; left; reflexivity|exact E]. Qed.
Lemma uppers_hex t : (forall c, In c t -> lowdigit c) -> forall c, In c (map upper_char t) -> hexdigit c.
Proof. intros H c Hc. apply in_map_iff in Hc. destruct Hc as (x & <- & Hx). apply low_hex, H, Hx. Qed.

(** ** Digits: what is needed below *)
Definition good_digits {A} (P : A -> Prop) (f : A -> text) : Prop :=
  (forall x, P x -> canonical (f x)) /\ (forall x c, P x -> In c (f x) -> hexdigit c) /\ forall x y, P x -> P y -> f x = f y -> x = y.
Lemma hex_nonnil n : Nat.to_hex_uint n <> Hexadecimal.Nil.
Proof. intros E. pose proof (HexadecimalNat.Unsigned.of_to n) as T. rewrite E in T. subst n. discriminate E. Qed.
Lemma good_nat r : good_digits (fun _ => True) (nat_digits r).
Proof.
  assert (J : forall x y, nat_digits RLow x = nat_digits RLow y -> x = y).
  { cbn. intros x y E. apply txt_inj in E. apply HexadecimalNat.Unsigned.to_uint_inj. pose proof (HexadecimalString.NilZero.usu _ (hex_nonnil x)) as A. pose proof (HexadecimalString.NilZero.usu _ (hex_nonnil y)) as B. rewrite E in A. congruence. }
  assert (L : forall x c, In c (nat_digits RLow x) -> lowdigit c) by (cbn; intros x c; apply hex_zlow).
  destruct r; (split; [intros x _|split; [intros x c _|intros x y _ _]]).
  - apply dec_nat.
  - apply dec_zchars.
  - intros E. exact (delimited_inj _ _ _ (usize_delimited false) E).
  - apply hex_nat.
  - intros H. apply low_hex, (L x c H).
  - apply J.
  - apply (uppers_canonical (nat_digits RLow x)); [apply L|apply hex_nat].
  - apply (uppers_hex (nat_digits RLow x)), L.
  - intros E. apply J, uppers_inj; [apply L|apply L|exact E].
Qed.
Lemma Z_dec z : (0 <= z)%Z -> exists d, Z.to_int z = Decimal.Pos d /\ Decimal.unorm d = d.
Proof.
  intros L. pose proof (DecimalZ.to_of (Z.to_int z)) as E. rewrite DecimalZ.of_to in E. destruct z as [|p|p]; [exists (Decimal.D0 Decimal.Nil); split; reflexivity| |lia].
  cbn in E |- *. injection E as E. eauto.
Qed.
Lemma Z_hex z : (0 <= z)%Z -> exists d, Z.to_hex_int z = Hexadecimal.Pos d /\ Hexadecimal.unorm d = d.
Proof.
  intros L. pose proof (HexadecimalZ.to_of (Z.to_hex_int z)) as E. rewrite HexadecimalZ.of_to in E. destruct z as [|p|p]; [exists (Hexadecimal.D0 Hexadecimal.Nil); split; reflexivity| |lia].
  cbn in E |- *. injection E as E. eauto.
Qed.
Lemma hexint_nonnil z : Z.to_hex_int z <> Hexadecimal.Pos Hexadecimal.Nil /\ Z.to_hex_int z <> Hexadecimal.Neg Hexadecimal.Nil.
Proof. destruct z as [|p|p]; cbn; split; try discriminate; intros E; injection E as E; exact (HexadecimalPos.Unsigned.to_uint_nonnil p E). Qed.
Lemma good_Z r : good_digits (fun z => 0 <= z)%Z (Z_digits r).
Proof.
  assert (J : forall x y, Z_digits RLow x = Z_digits RLow y -> x = y).
  { cbn. intros x y E. apply txt_inj in E. apply HexadecimalZ.to_int_inj. destruct (hexint_nonnil x) as [X X'], (hexint_nonnil y) as [Y Y'].
    pose proof (HexadecimalString.NilZero.isi _ X X') as A. pose proof (HexadecimalString.NilZero.isi _ Y Y') as B. rewrite E in A. congruence. }
  assert (L : forall x c, (0 <= x)%Z -> In c (Z_digits RLow x) -> lowdigit c) by (cbn; intros x c P; destruct (Z_hex x P) as (d & -> & _); apply hex_zlow).
  assert (C : forall x, (0 <= x)%Z -> canonical (Z_digits RLow x)) by (cbn; intros x P; destruct (Z_hex x P) as (d & -> & <-); apply hex_unorm).
  destruct r; (split; [intros x P|split; [intros x c P|intros x y P P']]).
  - cbn. destruct (Z_dec x P) as (d & -> & <-). apply dec_unorm.
  - cbn. destruct (Z_dec x P) as (d & -> & _). apply dec_zchars.
  - intros E. exact (delimited_inj _ _ _ (int_delimited false) E).
  - apply C, P.
  - intros H. apply low_hex, (L x c P H).
  - apply J.
  - apply (uppers_canonical (Z_digits RLow x)); [intros c; apply L, P|apply C, P].
  - apply (uppers_hex (Z_digits RLow x)). intros c'. apply L, P.
  - intros E. apply J, uppers_inj; [intros c; apply L, P|intros c; apply L, P'|exact E].
Qed.

(** ** [pad_integral] *)
Lemma zeros_inj : forall n n' t t', canonical t -> canonical t' -> repeat "0"%char n ++ t = repeat "0"%char n' ++ t' -> t = t'.
Proof.
  assert (Z : forall n t t', canonical t -> canonical t' -> t = repeat "0"%char n ++ t' -> t = t').
  { intros [|n] t t' C C' E; [exact E|]. cbn in E. destruct C as [->|(c & r & -> & N)]; [|injection E as E _; contradiction].
    injection E as E. symmetry in E. apply app_eq_nil in E. destruct E as [_ ->]. destruct C' as [X|(c & r & X & _)]; discriminate. }
  induction n as [|n IH]; intros n' t t' C C' E; [exact (Z n' t t' C C' E)|]. destruct n' as [|n']; [symmetry; apply (Z (S n) t' t C' C); symmetry; exact E|].
  cbn in E. injection E as E. exact (IH n' t t' C C' E).
Qed.
Lemma front (o : options) (alt : bool) (n : nat) (t : text) : canonical t -> (forall c, In c t -> hexdigit c) ->
  exists c r, match o_radix o with RDec => [] | _ => if alt then txt "0x" else [] end ++ repeat "0"%char n ++ t = c :: r /\ c <> "-"%char.
Proof.
  intros C H. assert (No : forall c, hexdigit c -> c <> "-"%char) by (intros c X ->; unfold hexdigit in X; cbn in X; repeat (destruct X as [X|X]; [discriminate X|]); exact X).
  assert (X : exists c r, repeat "0"%char n ++ t = c :: r /\ c <> "-"%char).
  { destruct n as [|n]; [|cbn; eexists; eexists; split; [reflexivity|discriminate]]. cbn. destruct C as [->|(c & r & -> & _)]; (eexists; eexists; split; [reflexivity|apply No, H; left; reflexivity]). }
  destruct (o_radix o), alt; try exact X; (exists "0"%char; eexists; split; [reflexivity|discriminate]).
Qed.
Lemma pad_inj o alt neg neg' t t' : canonical t -> canonical t' -> (forall c, In c t -> hexdigit c) -> (forall c, In c t' -> hexdigit c) -> pad_integral o alt neg t = pad_integral o alt neg' t' -> neg = neg' /\ t = t'.
Proof.
  assert (X : forall s s', canonical s' -> (forall c, In c s' -> hexdigit c) -> pad_integral o alt true s <> pad_integral o alt false s').
  { intros s s' C H E. unfold pad_integral in E. destruct (o_plus o); [discriminate E|]. cbn [app] in E.
    match type of E with _ = _ ++ repeat _ ?n ++ _ => destruct (front o alt n s' C H) as (c & r & Ec & Nc) end. rewrite Ec in E. injection E as E _. apply Nc. symmetry. exact E. }
  intros C C' H H' E. destruct neg, neg'; [|destruct (X t t' C' H' E)|symmetry in E; destruct (X t' t C H E)|]; (split; [reflexivity|]); unfold pad_integral in E; apply app_inv_head, app_inv_head in E; exact (zeros_inj _ _ _ _ C C' E).
Qed.
Lemma hex_nostop c : hexdigit c -> ~ stop_char c.
Proof. intros H. unfold hexdigit in H. cbn in H. repeat (destruct H as [<-|H]; [intros X; nostop X|]). destruct H. Qed.
Lemma pad_chars o alt neg t c : (forall c, In c t -> hexdigit c) -> In c (pad_integral o alt neg t) -> ~ stop_char c.
Proof.
  intros H Hc. unfold pad_integral in Hc. apply in_app_iff in Hc. destruct Hc as [Hc|Hc]; [destruct neg; [|destruct (o_plus o)]; cbn in Hc; [destruct Hc as [<-|[]]; intros X; nostop X..|destruct Hc]|].
  apply in_app_iff in Hc. destruct Hc as [Hc|Hc].
  - destruct (o_radix o), alt; cbn in Hc; try (destruct Hc; fail); (destruct Hc as [<-|[<-|[]]]; intros X; nostop X).
  - apply in_app_iff in Hc. destruct Hc as [Hc|Hc]; [apply repeat_spec in Hc; subst c; intros X; nostop X|apply hex_nostop, H, Hc].
Qed.
Lemma canonical_nonempty t : canonical t -> t <> [].
Proof. intros [->|(c & r & -> & _)]; discriminate. Qed.
Lemma pad_nonempty o alt neg t : t <> [] -> pad_integral o alt neg t <> [].
Proof. intros N E. unfold pad_integral in E. apply app_eq_nil in E. destruct E as [_ E]. apply app_eq_nil in E. destruct E as [_ E]. apply app_eq_nil in E. destruct E as [_ E]. exact (N E). Qed.
Lemma pad_length o alt neg t : (o_zeros o <= List.length (pad_integral o alt neg t))%nat.
Proof. unfold pad_integral. rewrite !app_length, repeat_length. lia. Qed.

Lemma usize_o_delimited o alt : delimited (usize_debug_o o alt).
Proof.
  destruct (good_nat (o_radix o)) as (C & H & J). apply plain_delimited; unfold usize_debug_o.
  - intros x y E. apply pad_inj in E; [|apply C; exact I|apply C; exact I|intros c; apply H; exact I|intros c; apply H; exact I]. apply J; [exact I|exact I|apply E].
  - intros x. apply pad_nonempty, canonical_nonempty, C. exact I.
  - intros x c. apply pad_chars. intros c'. apply H. exact I.
Qed.
Lemma point_o_delimited o {lo hi} alt : (0 <= hi)%Z -> delimited (point_debug_o o (lo := lo) (hi := hi) alt).
Proof.
  intros Hh. set (u := fun p : int lo hi => (if (ival p <? 0)%Z then (ival p + (hi - lo + 1))%Z else ival p)).
  destruct (o_radix o) eqn:R.
  1: { destruct (good_Z RDec) as (C & H & J). apply plain_delimited; unfold point_debug_o; rewrite R.
    - intros x y E. apply pad_inj in E; [|apply C, Z.abs_nonneg|apply C, Z.abs_nonneg|intros c; apply H, Z.abs_nonneg|intros c; apply H, Z.abs_nonneg]. destruct E as [E1 E2]. apply J in E2; [|apply Z.abs_nonneg..]. apply int_eq. destruct (Z.ltb_spec (ival x) 0), (Z.ltb_spec (ival y) 0); try discriminate E1; lia.
    - intros x. apply pad_nonempty, canonical_nonempty, C, Z.abs_nonneg.
    - intros x c. apply pad_chars. intros c'. apply H, Z.abs_nonneg. }
  all: assert (U : forall p, (0 <= u p)%Z) by (intros p; unfold u; pose proof (int_range p); destruct (Z.ltb_spec (ival p) 0); lia).
  all: assert (UJ : forall p q, u p = u q -> p = q) by (intros p q; unfold u; intros E; apply int_eq; pose proof (int_range p); pose proof (int_range q); destruct (Z.ltb_spec (ival p) 0), (Z.ltb_spec (ival q) 0); lia).
  - destruct (good_Z RLow) as (C & H & J). apply plain_delimited; unfold point_debug_o; rewrite R.
    + intros x y E. apply pad_inj in E; [|apply C, U|apply C, U|intros c; apply H, U|intros c; apply H, U]. destruct E as [_ E]. apply J in E; [apply UJ, E|apply U..].
    + intros x. apply pad_nonempty, canonical_nonempty, C, U.
    + intros x c. apply pad_chars. intros c'. apply H, U.
  - destruct (good_Z RUp) as (C & H & J). apply plain_delimited; unfold point_debug_o; rewrite R.
    + intros x y E. apply pad_inj in E; [|apply C, U|apply C, U|intros c; apply H, U|intros c; apply H, U]. destruct E as [_ E]. apply J in E; [apply UJ, E|apply U..].
    + intros x. apply pad_nonempty, canonical_nonempty, C, U.
    + intros x c. apply pad_chars. intros c'. apply H, U.
Qed.
Lemma unit_o_delimited o alt : delimited (unit_debug_o o alt).
Proof.
  split; [intros x X; nostop X|]. intros [] [] r r' _ _ E. split; [reflexivity|]. exact (app_inv_head _ _ _ E).
Qed.
Lemma zosdit_o_delimited o {K V} tn (dk : debug K) (dv : debug V) alt : delimited (dk alt) -> delimited (dv alt) -> delimited (zosdit_debug_o o tn dk dv alt).
Proof.
  intros H H'. pose proof (map_delimited dk (list_text dv) alt H (list_delimited dv alt H')) as M. apply (struct_delimited alt "Z" "osditMap"); [intros X; nostop X|..].
  - intros x y. fields; [apply (delimited_unmix (usize_debug_o o alt)), usize_o_delimited|apply (delimited_unmix (map_text dk (list_text dv) alt)), M|apply unmix_same].
  - intros [n l] [n' l'] E. injection E as E1 E2. apply (delimited_inj _ _ _ (usize_o_delimited o alt)) in E1. apply (delimited_inj _ _ _ M) in E2. cbn in E1, E2. subst. reflexivity.
Qed.
Lemma nodit_set_o_delimited o {K} tn (dk : debug K) alt : delimited (dk alt) -> delimited (nodit_set_debug_o o tn dk alt).
Proof.
  intros H. pose proof (nodit_delimited tn dk (unit_debug_o o) alt H (unit_o_delimited o alt)) as M. apply (struct_delimited alt "N" "oditSet"); [intros X; nostop X|..].
  - intros x y. fields. apply (delimited_unmix (nodit_debug tn dk (unit_debug_o o) alt)), M.
  - intros x y E. injection E as E. exact (delimited_inj _ _ _ M E).
Qed.

(** ** Reading the numbers back *)
Definition step (base : Z) (n : Z) (c : ascii) : Z := (n * base + char_value c)%Z.
Lemma read_hex_acc : forall d p, fold_left (step 16) (txt (HexadecimalString.NilEmpty.string_of_uint d)) (Zpos p) = Zpos (Pos.of_hex_uint_acc d p).
Proof.
  induction d; intros p; [reflexivity|..]; cbn [HexadecimalString.NilEmpty.string_of_uint txt list_ascii_of_string fold_left Pos.of_hex_uint_acc]; rewrite <- IHd; f_equal; unfold step; cbn [char_value nat_of_ascii];
    match goal with |- context[char_value ?c] => let v := eval vm_compute in (char_value c) in change (char_value c) with v end; lia.
Qed.
Lemma read_dec_acc : forall d p, fold_left (step 10) (txt (DecimalString.NilEmpty.string_of_uint d)) (Zpos p) = Zpos (Pos.of_uint_acc d p).
Proof.
  induction d; intros p; [reflexivity|..]; cbn [DecimalString.NilEmpty.string_of_uint txt list_ascii_of_string fold_left Pos.of_uint_acc]; rewrite <- IHd; f_equal; unfold step;
    match goal with |- context[char_value ?c] => let v := eval vm_compute in (char_value c) in change (char_value c) with v end; lia.
Qed.
Lemma read_hex_uint : forall d, fold_left (step 16) (txt (HexadecimalString.NilEmpty.string_of_uint d)) 0%Z = Z.of_N (Pos.of_hex_uint d).
Proof. induction d; [reflexivity|exact IHd|..]; exact (read_hex_acc d _). Qed.
Lemma read_dec_uint : forall d, fold_left (step 10) (txt (DecimalString.NilEmpty.string_of_uint d)) 0%Z = Z.of_N (Pos.of_uint d).
Proof. induction d; [reflexivity|exact IHd|..]; exact (read_dec_acc d _). Qed.
Lemma read_upper : forall t n, (forall c, In c t -> lowdigit c) -> fold_left (step 16) (map upper_char t) n = fold_left (step 16) t n.
Proof.
  induction t as [|c t IH]; intros n H; [reflexivity|]. cbn [map fold_left]. rewrite IH by (intros c' Hc; apply H; right; exact Hc). f_equal. unfold step. f_equal.
  pose proof (H c (or_introl eq_refl)) as L. unfold lowdigit in L. cbn in L. repeat (destruct L as [<-|L]; [reflexivity|]). destruct L.
Qed.
Lemma upper_digit c : lowdigit c -> digit_of RUp (upper_char c).
Proof. intros L. unfold lowdigit in L. cbn in L. repeat (destruct L as [<-|L]; [unfold digit_of; vm_compute; tauto|]). destruct L. Qed.
Lemma dec_digit d c : In c (txt (DecimalString.NilEmpty.string_of_uint d)) -> digit_of RDec c.
Proof. induction d; cbn; [tauto|..]; (intros [<-|Hc]; [unfold digit_of; cbn; tauto|apply IHd; exact Hc]). Qed.
Lemma zero_digit r : digit_of r "0"%char.
Proof. destruct r; unfold digit_of; cbn; tauto. Qed.
Lemma digits_value r z : (0 <= z)%Z -> (forall c, In c (Z_digits r z) -> digit_of r c) /\ read (base_of r) (Z_digits r z) = z.
Proof.
  intros P.
  assert (L : forall d, let t := txt (HexadecimalString.NilZero.string_of_uint d) in (forall c, In c t -> lowdigit c) /\ read 16 t = Z.of_N (Pos.of_hex_uint d)).
  { intros d. split; [apply hex_zlow|]. destruct d; [reflexivity|exact (read_hex_uint _)..]. }
  pose proof (HexadecimalZ.of_to z) as E. pose proof (DecimalZ.of_to z) as E'.
  destruct r; unfold Z_digits.
  - destruct (Z_dec z P) as (d & Ed & _). rewrite Ed in *. cbn [DecimalString.NilZero.string_of_int]. split.
    + destruct d; [intros c [<-|[]]; exact (zero_digit RDec)|intros c; apply dec_digit..].
    + rewrite <- E'. destruct d; [reflexivity|exact (read_dec_uint _)..].
  - destruct (Z_hex z P) as (d & Ed & _). rewrite Ed in *. cbn [HexadecimalString.NilZero.string_of_int]. destruct (L d) as [A B]. split; [exact A|]. rewrite <- E. exact B.
  - destruct (Z_hex z P) as (d & Ed & _). rewrite Ed in *. cbn [HexadecimalString.NilZero.string_of_int]. destruct (L d) as [A B]. split.
    + intros c Hc. apply in_map_iff in Hc. destruct Hc as (c' & <- & Hc). apply upper_digit, A, Hc.
    + transitivity (Z.of_N (Pos.of_hex_uint d)); [|exact E]. rewrite <- B. exact (read_upper _ 0%Z A).
Qed.
Lemma read_zeros base : forall n t, read base (repeat "0"%char n ++ t) = read base t.
Proof. induction n as [|n IH]; intros t; [reflexivity|]. cbn [repeat app]. exact (IH t). Qed.
Lemma pad_value o alt neg z : (0 <= z)%Z ->
  exists t, pad_integral o alt neg (Z_digits (o_radix o) z) =
      (if neg then txt "-" else if o_plus o then txt "+" else []) ++ match o_radix o with RDec => [] | _ => if alt then txt "0x" else [] end ++ t /\
    (forall c, In c t -> digit_of (o_radix o) c) /\ read (base_of (o_radix o)) t = z.
Proof.
  intros P. destruct (digits_value (o_radix o) z P) as [A B]. eexists. split; [reflexivity|]. split.
  - intros c Hc. apply in_app_iff in Hc. destruct Hc as [Hc|Hc]; [|exact (A c Hc)]. apply repeat_spec in Hc. subst. apply zero_digit.
  - rewrite read_zeros. exact B.
Qed.
