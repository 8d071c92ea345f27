(** * PaddingFacts: the derived [Debug] impls with every option (the proofs of C179). *)
From Coq Require Import String Ascii Bool Arith ZArith Lia List.
From Verif Require Import Base BTree UtilsModel IntervalModel NoditModel NoditSetModel ZosditModel GqditModel InstancesModel Instances DebugModel OptionsModel PaddingModel DebugFacts OptionsFacts.
Import ListNotations.
Open Scope list_scope.

(** ** Numbers with fills *)
Lemma stop_no_number c : stop_char c -> ~ number_char c.
Proof. intros S N. unfold number_char in N. cbn in N. repeat (destruct N as [<-|N]; [nostop S|]). exact N. Qed.
Lemma hex_number c : hexdigit c -> number_char c.
Proof. unfold hexdigit, number_char. cbn. tauto. Qed.
Lemma pad_integral_chars o alt neg t c : (forall c, In c t -> hexdigit c) -> In c (pad_integral o alt neg t) -> number_char c.
Proof.
  intros H Hc. unfold pad_integral in Hc. apply in_app_iff in Hc. destruct Hc as [Hc|Hc]; [destruct neg; [|destruct (o_plus o)]; cbn in Hc; [destruct Hc as [<-|[]]; unfold number_char; cbn; tauto..|destruct Hc]|].
  apply in_app_iff in Hc. destruct Hc as [Hc|Hc].
  - destruct (o_radix o), alt; cbn in Hc; try (destruct Hc; fail); (destruct Hc as [<-|[<-|[]]]; unfold number_char; cbn; tauto).
  - apply in_app_iff in Hc. destruct Hc as [Hc|Hc]; [apply repeat_spec in Hc; subst c; unfold number_char; cbn; tauto|apply hex_number, H, Hc].
Qed.
Definition ends (r : text) : Prop := match r with [] => True | c :: _ => ~ number_char c end.
Lemma split_numbers : forall t t' r r', (forall c, In c t -> number_char c) -> (forall c, In c t' -> number_char c) -> ends r -> ends r' -> t ++ r = t' ++ r' -> t = t' /\ r = r'.
Proof.
  induction t as [|c t IH]; intros [|c' t'] r r' Q Q' S S' E; cbn [app] in E.
  - split; [reflexivity|exact E].
  - subst r. destruct (S (Q' c' (or_introl eq_refl))).
  - subst r'. destruct (S' (Q c (or_introl eq_refl))).
  - injection E as <- E. destruct (IH t' r r') as [-> ->]; [intros d Hd; apply Q; right; exact Hd|intros d Hd; apply Q'; right; exact Hd|assumption..|split; reflexivity].
Qed.
Lemma skip_fills (fill : ascii) : ~ number_char fill -> forall n n' t t', t <> [] -> t' <> [] -> (forall c, In c t -> number_char c) -> (forall c, In c t' -> number_char c) -> forall r r',
  repeat fill n ++ t ++ r = repeat fill n' ++ t' ++ r' -> t ++ r = t' ++ r'.
Proof.
  intros F. assert (X : forall n t t' r r', t <> [] -> (forall c, In c t -> number_char c) -> t ++ r = repeat fill n ++ t' ++ r' -> t ++ r = t' ++ r').
  { intros [|n] [|c t] t' r r' N Q E; [contradiction|exact E|contradiction|]. cbn in E. injection E as -> _. destruct (F (Q fill (or_introl eq_refl))). }
  induction n as [|n IH]; intros n' t t' N N' Q Q' r r' E; [exact (X n' t t' r r' N Q E)|]. destruct n' as [|n']; [symmetry; apply (X (S n) t' t r' r N' Q'); symmetry; exact E|].
  cbn in E. injection E as E. exact (IH n' t t' N N' Q Q' r r' E).
Qed.
Lemma fills_end fill n r : ~ number_char fill -> stops r -> ends (repeat fill n ++ r).
Proof. intros F S. destruct n as [|n]; [|exact F]. destruct r as [|c r]; [exact Logic.I|]. exact (stop_no_number c S). Qed.
(** A text with fills around it can still be told apart. *)
Lemma padding_apart {A} (f : format) def (n : A -> nat) (g : A -> text) : ~ number_char (f_fill f) -> (forall x y, g x = g y -> x = y) -> (forall x, g x <> []) -> (forall x c, In c (g x) -> number_char c) ->
  apart (fun x => padding f def (n x) (g x)).
Proof.
  intros F J N P x y r r' S S' E. assert (X : x = y).
  { unfold padding in E. rewrite <- !app_assoc in E. apply (skip_fills _ F) in E; [|apply N|apply N|apply P|apply P]. apply split_numbers in E; [|apply P|apply P|apply fills_end; assumption..]. apply J, E. }
  subst y. split; [reflexivity|exact (app_inv_head _ _ _ E)].
Qed.
Lemma padding_length f def n t : List.length (padding f def n t) = (n + List.length t)%nat.
Proof.
  unfold padding. rewrite !app_length, !repeat_length. destruct (match f_align f with Some a => a | None => def end); [lia| |lia]. destruct n; [cbn; lia|]. pose proof (Nat.lt_div2 (S n)). lia.
Qed.

(** ** What the options amount to *)
Definition opts (f : format) : options := mkOptions (f_plus f) (f_width f) (f_radix f).
Definition bare (f : format) : options := mkOptions (f_plus f) 0 (f_radix f).
Lemma pad_number_eq f alt neg t :
  pad_number f alt neg t = if f_zero f then pad_integral (opts f) alt neg t else let s := pad_integral (bare f) alt neg t in padding f ARight (f_width f - List.length s) s.
Proof.
  unfold pad_number. destruct (f_zero f); [reflexivity|]. unfold pad_integral, bare. cbn [o_plus o_zeros o_radix Nat.sub repeat app]. f_equal. rewrite !app_length. lia.
Qed.
Lemma point_f_eq f {lo hi} alt (p : int lo hi) :
  point_debug_f f alt p = if f_zero f then point_debug_o (opts f) alt p else let s := point_debug_o (bare f) alt p in padding f ARight (f_width f - List.length s) s.
Proof. unfold point_debug_f, point_debug_o. cbn [opts bare o_radix]. destruct (f_radix f); rewrite pad_number_eq; reflexivity. Qed.
Lemma usize_f_eq f alt n : usize_debug_f f alt n = if f_zero f then usize_debug_o (opts f) alt n else let s := usize_debug_o (bare f) alt n in padding f ARight (f_width f - List.length s) s.
Proof. exact (pad_number_eq f alt false (nat_digits (f_radix f) n)). Qed.
Lemma apart_ext {A} (d e : A -> text) : (forall x, d x = e x) -> apart e -> apart d.
Proof. intros E H x y r r'. rewrite !E. apply H. Qed.
Lemma unmix_apart {A} (d : A -> text) x y : apart d -> unmix (d x) (d y).
Proof. intros H r r' S S' E. destruct (H x y r r' S S' E) as [-> ->]. split; reflexivity. Qed.
Lemma apart_inj {A} (d : A -> text) x y : apart d -> d x = d y -> x = y.
Proof. intros H E. apply (H x y [] []); [exact Logic.I..|]. rewrite !app_nil_r. exact E. Qed.
Lemma delimited_nonempty {A} (d : A -> text) x : delimited d -> d x <> [].
Proof. intros [H _] E. specialize (H x). rewrite E in H. exact H. Qed.
Definition clear (f : format) : Prop := f_zero f = true \/ ~ number_char (f_fill f).

Lemma usize_chars o alt n c : In c (usize_debug_o o alt n) -> number_char c.
Proof. apply pad_integral_chars. destruct (good_nat (o_radix o)) as (_ & H & _). intros c'. apply H. exact Logic.I. Qed.
Lemma point_chars o {lo hi} alt (p : int lo hi) c : (0 <= hi)%Z -> In c (point_debug_o o alt p) -> number_char c.
Proof.
  intros Hh. pose proof (int_range p) as B. assert (U : (0 <= if (ival p <? 0)%Z then ival p + (hi - lo + 1) else ival p)%Z) by (destruct (Z.ltb_spec (ival p) 0); lia).
  unfold point_debug_o. destruct (o_radix o); apply pad_integral_chars; intros c'; [destruct (good_Z RDec) as (_ & H & _)|destruct (good_Z RLow) as (_ & H & _)|destruct (good_Z RUp) as (_ & H & _)]; apply H; [apply Z.abs_nonneg|exact U|exact U].
Qed.
Lemma usize_apart f alt : clear f -> apart (usize_debug_f f alt).
Proof.
  intros C. destruct (f_zero f) eqn:Z0.
  - apply (apart_ext _ (usize_debug_o (opts f) alt)); [intros n; rewrite usize_f_eq, Z0; reflexivity|exact (proj2 (usize_o_delimited (opts f) alt))].
  - destruct C as [C|C]; [congruence|]. apply (apart_ext _ (fun n => padding f ARight (f_width f - List.length (usize_debug_o (bare f) alt n)) (usize_debug_o (bare f) alt n))); [intros n; rewrite usize_f_eq, Z0; reflexivity|].
    apply padding_apart; [exact C|intros x y; apply delimited_inj, usize_o_delimited|intros x; apply (delimited_nonempty (usize_debug_o (bare f) alt)), usize_o_delimited|intros x c; apply usize_chars].
Qed.
Lemma point_apart f {lo hi} alt : (0 <= hi)%Z -> clear f -> apart (point_debug_f f (lo := lo) (hi := hi) alt).
Proof.
  intros Hh C. pose proof (fun o => point_o_delimited o (lo := lo) (hi := hi) alt Hh) as PD. destruct (f_zero f) eqn:Z0.
  - apply (apart_ext _ (point_debug_o (opts f) alt)); [intros n; rewrite point_f_eq, Z0; reflexivity|exact (proj2 (PD (opts f)))].
  - destruct C as [C|C]; [congruence|]. apply (apart_ext _ (fun n => padding f ARight (f_width f - List.length (point_debug_o (bare f) alt n)) (point_debug_o (bare f) alt n))); [intros n; rewrite point_f_eq, Z0; reflexivity|].
    apply padding_apart; [exact C|intros x y; apply delimited_inj, PD|intros x; apply (delimited_nonempty (point_debug_o (bare f) alt)), PD|intros x c; apply point_chars, Hh].
Qed.
Lemma point_f_delimited f {lo hi} alt : (0 <= hi)%Z -> clear f -> ~ stop_char (f_fill f) -> delimited (point_debug_f f (lo := lo) (hi := hi) alt).
Proof.
  intros Hh C S. split; [|exact (point_apart f alt Hh C)]. intros p. pose proof (fun o => proj1 (point_o_delimited o (lo := lo) (hi := hi) alt Hh) p) as H. rewrite point_f_eq. destruct (f_zero f); [apply H|].
  cbv zeta. unfold padding. match goal with |- context[repeat _ ?k ++ ?t ++ _] => destruct k as [|m]; [|exact S] end. cbn [repeat app]. specialize (H (bare f)). destruct (point_debug_o (bare f) alt p); [destruct H|exact H].
Qed.

(** ** The derived impls *)
Lemma interval_f_delimited f {lo hi} alt : (0 <= hi)%Z -> clear f -> delimited (interval_debug (point_debug_f f (lo := lo) (hi := hi)) alt).
Proof.
  intros Hh C. pose proof (point_apart f (lo := lo) (hi := hi) alt Hh C) as H. apply (struct_delimited alt "I" "nterval"); [intros X; nostop X|..].
  - intros x y. fields; apply unmix_apart, H.
  - intros [s e] [s' e'] E. injection E as E1 E2. cbn [ivl_start ivl_end] in *. apply (apart_inj _ _ _ H) in E1. apply (apart_inj _ _ _ H) in E2. subst. reflexivity.
Qed.
Lemma const_entry_delimited {A} (da : debug A) (u : text) alt : delimited (da alt) -> delimited (entry_text da (fun _ (_ : unit) => u) alt).
Proof.
  intros [NA DA]. split.
  - intros [a v]. unfold entry_text. cbn [fst snd]. specialize (NA a). destruct (da alt a); [destruct NA|exact NA].
  - intros [a []] [a' []] r r' S S' E. unfold entry_text in E. cbn [fst snd] in E. rewrite <- !app_assoc in E. apply DA in E; [|stop..]. destruct E as [-> E]. apply app_inv_head, app_inv_head in E. subst. split; reflexivity.
Qed.
Lemma nodit_set_f_delimited f {K} tn (dk : debug K) alt : delimited (dk alt) -> delimited (nodit_set_debug_f f tn dk alt).
Proof.
  intros H. assert (M : delimited (map_text dk (unit_debug_f f) alt)).
  { apply group_delimited; [apply (const_entry_delimited dk (pad_str f (txt "()")) alt H)|intros X; nostop X|stop|discriminate..]. }
  assert (N : delimited (nodit_debug tn dk (unit_debug_f f) alt)).
  { apply (struct_delimited alt "N" "oditMap"); [intros X; nostop X|..].
    - intros x y. fields; [apply (delimited_unmix (map_text dk (unit_debug_f f) alt)), M|apply unmix_same].
    - intros x y E. injection E as E. exact (delimited_inj _ _ _ M E). }
  apply (struct_delimited alt "N" "oditSet"); [intros X; nostop X|..].
  - intros x y. fields. apply (delimited_unmix (nodit_debug tn dk (unit_debug_f f) alt)), N.
  - intros x y E. injection E as E. exact (delimited_inj _ _ _ N E).
Qed.

(** ** Containers of values that are filled themselves *)
Lemma delimited_readable {A} (d : A -> text) : delimited d -> readable d.
Proof. intros [H H']. split; [exact H'|]. intros x. specialize (H x). destruct (d x) as [|c t]; [exact H|]. split; intros ->; apply H; stop. Qed.
Lemma point_readable f {lo hi} alt : (0 <= hi)%Z -> clear f -> ~ In (f_fill f) (txt "]}") -> readable (point_debug_f f (lo := lo) (hi := hi) alt).
Proof.
  intros Hh C S. split; [exact (point_apart f alt Hh C)|]. intros p. rewrite point_f_eq. pose proof (fun o => proj2 (delimited_readable _ (point_o_delimited o (lo := lo) (hi := hi) alt Hh)) p) as H. destruct (f_zero f); [apply H|].
  cbv zeta. unfold padding. match goal with |- context[repeat _ ?k ++ ?t ++ _] => destruct k as [|m] end; [|cbn; cbn in S; split; intros E; apply S; rewrite E; auto].
  cbn [repeat app]. specialize (H (bare f)). destruct (point_debug_o (bare f) alt p); [destruct H|exact H].
Qed.
Lemma lines_map_apart {A} (f : A -> text) : apart f -> forall l l', lines (map f l) = lines (map f l') -> l = l'.
Proof.
  intros Df. induction l as [|x l IH]; intros [|y l'] E; [reflexivity|..]; unfold lines in E; cbn [map List.concat] in E.
  - destruct (f y); discriminate.
  - destruct (f x); discriminate.
  - rewrite <- !app_assoc in E. apply Df in E; [|stop..]. destruct E as [-> E]. rewrite !app_assoc in E. apply app_inv_head in E. rewrite (IH _ E). reflexivity.
Qed.
Lemma separated_map_apart {A} (f : A -> text) cl : apart f -> stop_char cl -> cl <> ","%char -> forall l l' r r', l <> [] -> l' <> [] ->
  separated_by (txt ", ") (map f l) ++ cl :: r = separated_by (txt ", ") (map f l') ++ cl :: r' -> l = l' /\ r = r'.
Proof.
  intros Df C NC. induction l as [|x l IH]; intros [|y l'] r r' L L' E; try congruence. clear L L'. cbn [map separated_by] in E. rewrite <- !app_assoc in E.
  apply Df in E; [|destruct l; [exact C|stop]|destruct l'; [exact C|stop]]. destruct E as [-> E]. destruct l as [|x l], l' as [|y' l']; cbn [map] in E.
  - injection E as ->. split; reflexivity.
  - injection E as E _. contradiction.
  - injection E as E _. symmetry in E. contradiction.
  - rewrite <- !app_assoc in E. apply app_inv_head in E. apply (IH (y' :: l')) in E; [|discriminate..]. destruct E as [-> ->]. split; reflexivity.
Qed.
Lemma group_apart {A} (f : A -> text) alt op cl : apart f -> (forall x, match f x with [] => False | c :: _ => c <> cl end) -> ~ stop_char op -> stop_char cl -> cl <> ","%char -> cl <> " "%char ->
  delimited (fun l => group_text alt op cl (map f l)).
Proof.
  intros Df N O C NC NS. assert (CN : cl <> newline) by (intros ->; nostop C). split.
  - intros [|x l]; [exact O|]. cbn [map group_text]. destruct alt; exact O.
  - assert (Z : forall x l r r', group_text alt op cl [] ++ r = group_text alt op cl (map f (x :: l)) ++ r' -> False).
    { intros x l r r' E. cbn [map group_text] in E. destruct alt; injection E as E.
      - contradiction.
      - cbn [separated_by] in E. specialize (N x). destruct (f x) as [|c t]; [exact N|]. injection E as E _. subst c. contradiction. }
    intros [|x l] [|y l'] r r' _ _ E.
    + injection E as ->. split; reflexivity.
    + destruct (Z _ _ _ _ E).
    + symmetry in E. destruct (Z _ _ _ _ E).
    + change (group_text alt op cl (map f (x :: l))) with (if alt then op :: newline :: padded_lines (map f (x :: l)) ++ [cl] else op :: separated_by (txt ", ") (map f (x :: l)) ++ [cl]) in E.
      change (group_text alt op cl (map f (y :: l'))) with (if alt then op :: newline :: padded_lines (map f (y :: l')) ++ [cl] else op :: separated_by (txt ", ") (map f (y :: l')) ++ [cl]) in E.
      destruct alt.
      * injection E as E. rewrite <- !app_assoc in E.
        assert (E' : padded_lines (map f (x :: l)) ++ cl :: r = padded_lines (map f (y :: l')) ++ cl :: r') by exact E.
        rewrite !padded_lines_eq in E'. apply unpad in E'; [|exact NS|apply lines_close..]. destruct E' as [E' ->]. split; [apply (lines_map_apart f Df), E'|reflexivity].
      * injection E as E. assert (E' : separated_by (txt ", ") (map f (x :: l)) ++ cl :: r = separated_by (txt ", ") (map f (y :: l')) ++ cl :: r').
        { rewrite <- !app_assoc in E. cbn [map separated_by]. rewrite <- !app_assoc. exact E. }
        apply (separated_map_apart f cl Df C NC) in E'; [exact E'|discriminate..].
Qed.
Lemma list_readable {A} (d : debug A) alt : readable (d alt) -> delimited (list_text d alt).
Proof. intros [H N]. apply group_apart; [exact H|intros x; specialize (N x); destruct (d alt x); [exact N|apply N]|intros X; nostop X|stop|discriminate..]. Qed.
Lemma set_readable {A} (d : debug A) alt : readable (d alt) -> delimited (set_text d alt).
Proof. intros [H N]. apply group_apart; [exact H|intros x; specialize (N x); destruct (d alt x); [exact N|apply N]|intros X; nostop X|stop|discriminate..]. Qed.
Lemma entry_apart {A B} (da : debug A) (db : debug B) alt : delimited (da alt) -> apart (db alt) -> delimited (entry_text da db alt).
Proof.
  intros [NA DA] DB. split.
  - intros [a b]. unfold entry_text. cbn [fst snd]. specialize (NA a). destruct (da alt a); [destruct NA|exact NA].
  - intros [a b] [a' b'] r r' S S' E. unfold entry_text in E. cbn [fst snd] in E. rewrite <- !app_assoc in E. apply DA in E; [|stop..]. destruct E as [-> E]. apply app_inv_head in E.
    apply DB in E; [|assumption..]. destruct E as [-> ->]. split; reflexivity.
Qed.
Lemma nodit_apart {K V} tn (dk : debug K) (dv : debug V) alt : delimited (dk alt) -> apart (dv alt) -> delimited (nodit_debug tn dk dv alt).
Proof.
  intros H H'. assert (M : delimited (map_text dk dv alt)) by (apply group_delimited; [apply entry_apart; assumption|intros X; nostop X|stop|discriminate..]).
  apply (struct_delimited alt "N" "oditMap"); [intros X; nostop X|..].
  - intros x y. fields; [apply (delimited_unmix (map_text dk dv alt)), M|apply unmix_same].
  - intros x y E. injection E as E. exact (delimited_inj _ _ _ M E).
Qed.
Lemma gqdit_readable {K D} tn (dk : debug K) (dd : debug D) alt : delimited (dk alt) -> readable (dd alt) -> delimited (gqdit_debug tn dk dd alt).
Proof.
  intros H H'. pose proof (nodit_apart tn dk (set_text dd) alt H (proj2 (set_readable dd alt H'))) as M. apply (struct_delimited alt "G" "qdit"); [intros X; nostop X|..].
  - intros x y. fields. apply (delimited_unmix (nodit_debug tn dk (set_text dd) alt)), M.
  - intros x y E. injection E as E. exact (delimited_inj _ _ _ M E).
Qed.
Lemma zosdit_readable f {K V} tn (dk : debug K) (dv : debug V) alt : clear f -> delimited (dk alt) -> readable (dv alt) -> delimited (zosdit_debug_f f tn dk dv alt).
Proof.
  intros C H H'. pose proof (map_delimited dk (list_text dv) alt H (list_readable dv alt H')) as M. apply (struct_delimited alt "Z" "osditMap"); [intros X; nostop X|..].
  - intros x y. fields; [apply (unmix_apart (usize_debug_f f alt)), usize_apart, C|apply (delimited_unmix (map_text dk (list_text dv) alt)), M|apply unmix_same].
  - intros [n l] [n' l'] E. injection E as E1 E2. apply (apart_inj _ _ _ (usize_apart f alt C)) in E1. apply (delimited_inj _ _ _ M) in E2. cbn in E1, E2. subst. reflexivity.
Qed.
