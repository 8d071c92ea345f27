(** * DebugFacts: lemmas about [DebugModel]. *)
From Coq Require DecimalNat DecimalZ DecimalPos.
From Coq Require Import List ZArith Bool Arith String Ascii DecimalString Lia.
From Verif Require Import Base BTree UtilsModel IntervalModel NoditModel NoditSetModel ZosditModel GqditModel InstancesModel Instances DebugModel.
Import ListNotations.
Open Scope list_scope.

Ltac stop := cbn; unfold stop_char; cbn; tauto.
Ltac nostop H := unfold stop_char in H; cbn in H; repeat (destruct H as [H|H]; [discriminate H|]); exact H.

(** Texts that can be told from each other. *)
Definition unmix (t t' : text) : Prop := forall r r', stops r -> stops r' -> t ++ r = t' ++ r' -> t = t' /\ r = r'.
Lemma unmix_same t : unmix t t. Proof. intros r r' _ _ H. split; [reflexivity|exact (app_inv_head _ _ _ H)]. Qed.
Lemma delimited_unmix {A} (f : A -> text) x y : delimited f -> unmix (f x) (f y).
Proof. intros [_ H] r r' S S' E. destruct (H x y r r' S S' E) as [-> ->]. split; reflexivity. Qed.
Lemma delimited_inj {A} (f : A -> text) x y : delimited f -> f x = f y -> x = y.
Proof. intros [_ H] E. apply (H x y [] []); [exact Logic.I..|]. rewrite !app_nil_r. exact E. Qed.
Lemma unmix_named n t t' : unmix t t' -> unmix (named n t) (named n t').
Proof.
  intros U r r' S S' E. unfold named in *. rewrite <- !app_assoc in E. apply app_inv_head, app_inv_head in E. destruct (U r r' S S' E) as [-> ->]. split; reflexivity.
Qed.
Lemma named_inj n t t' : named n t = named n t' -> t = t'.
Proof. unfold named. intros E. apply app_inv_head, app_inv_head in E. exact E. Qed.

(** ** Padding *)
Fixpoint closes (nl : bool) (t : text) : Prop := match t with [] => nl = true | c :: t => closes (Ascii.eqb c newline) t end.
Lemma closes_app : forall t nl s, closes true s -> closes nl t -> closes nl (t ++ s).
Proof. induction t as [|c t IH]; intros nl s Hs Ht; cbn in *; [subst nl; exact Hs|apply IH; assumption]. Qed.
Lemma closes_line : forall t nl, closes nl (t ++ txt "," ++ [newline]).
Proof. induction t as [|c t IH]; intros nl; [reflexivity|cbn [app closes]; apply IH]. Qed.
Lemma pad_app : forall t nl s, closes nl t -> pad nl (t ++ s) = pad nl t ++ pad true s.
Proof. induction t as [|c t IH]; intros nl s Ht; cbn [app pad closes] in *; [subst nl; reflexivity|]. rewrite IH by exact Ht. rewrite <- !app_assoc. reflexivity. Qed.
Definition lines (ts : list text) : text := List.concat (map (fun t => t ++ txt "," ++ [newline]) ts).
Lemma lines_close ts : closes true (lines ts).
Proof. induction ts as [|t ts IH]; [reflexivity|]. unfold lines in *. cbn [map List.concat]. apply closes_app; [exact IH|apply closes_line]. Qed.
Lemma padded_lines_eq ts : padded_lines ts = pad true (lines ts).
Proof.
  induction ts as [|t ts IH]; [reflexivity|]. unfold padded_lines, lines in *. cbn [map List.concat]. rewrite (pad_app (t ++ txt "," ++ [newline]) true) by apply closes_line. rewrite IH. reflexivity.
Qed.
Lemma unpad c (C : c <> " "%char) : forall t nl t' r r', closes nl t -> closes nl t' -> pad nl t ++ c :: r = pad nl t' ++ c :: r' -> t = t' /\ r = r'.
Proof.
  induction t as [|x t IH]; intros nl [|y t'] r r' H H' E; cbn [pad closes app] in *.
  - injection E as ->. split; reflexivity.
  - subst nl. cbn in E. injection E as E _. contradiction.
  - subst nl. cbn in E. injection E as E _. symmetry in E. contradiction.
  - rewrite <- !app_assoc in E. apply app_inv_head in E. cbn [app] in E. injection E as <- E. destruct (IH _ _ _ _ H H' E) as [-> ->]. split; reflexivity.
Qed.

(** ** Structs *)
Lemma lines_inj : forall ts ts', Forall2 unmix ts ts' -> lines ts = lines ts' -> ts = ts'.
Proof.
  intros ts ts' H. induction H as [|t t' ts ts' U _ IH]; intros E; [reflexivity|]. unfold lines in E. cbn [map List.concat] in E. rewrite <- !app_assoc in E.
  apply U in E; [|stop..]. destruct E as [-> E]. rewrite !app_assoc in E. apply app_inv_head in E. rewrite (IH E). reflexivity.
Qed.
Lemma separated_inj c (C : stop_char c) : forall ts ts' r r', Forall2 unmix ts ts' -> separated_by (txt ", ") ts ++ c :: r = separated_by (txt ", ") ts' ++ c :: r' -> ts = ts' /\ r = r'.
Proof.
  intros ts ts' r r' H. induction H as [|t t' ts ts' U F IH]; intros E; [injection E as ->; split; reflexivity|]. cbn [separated_by] in E. rewrite <- !app_assoc in E.
  destruct F as [|u u' us us' U' F].
  - apply U in E; [|exact C..]. destruct E as [-> E]. injection E as ->. split; reflexivity.
  - rewrite <- !app_assoc in E. apply U in E; [|stop..]. destruct E as [-> E]. apply app_inv_head in E. destruct (IH E) as [Q ->]. rewrite Q. split; reflexivity.
Qed.
Lemma struct_inj alt name ts ts' r r' : Forall2 unmix ts ts' -> struct_text alt name ts ++ r = struct_text alt name ts' ++ r' -> ts = ts' /\ r = r'.
Proof.
  intros U E. destruct alt; cbn [struct_text] in E; rewrite <- !app_assoc in E; apply app_inv_head, app_inv_head in E.
  - apply app_inv_head in E. rewrite !padded_lines_eq in E. apply unpad in E; [|discriminate|apply lines_close..]. destruct E as [E ->]. split; [apply lines_inj; assumption|reflexivity].
  - cbn [txt list_ascii_of_string app] in E. apply (separated_inj " "%char) in E; [|stop|exact U]. destruct E as [-> E]. injection E as ->. split; reflexivity.
Qed.
Lemma struct_head alt name ts c n : name = String c n -> exists t, struct_text alt name ts = c :: t.
Proof. intros ->. destruct alt; eexists; reflexivity. Qed.
(** A struct whose fields are [fs]. *)
Lemma struct_delimited {A} alt c n (fs : A -> list text) : ~ stop_char c -> (forall x y, Forall2 unmix (fs x) (fs y)) -> (forall x y, fs x = fs y -> x = y) ->
  delimited (fun x => struct_text alt (String c n) (fs x)).
Proof.
  intros C U J. split.
  - intros x. destruct (struct_head alt (String c n) (fs x) c n eq_refl) as [t ->]. exact C.
  - intros x y r r' _ _ E. apply struct_inj in E; [|apply U]. destruct E as [E ->]. split; [apply J, E|reflexivity].
Qed.

(** ** Groups *)
Lemma lines_map_inj {A} (f : A -> text) : delimited f -> forall l l', lines (map f l) = lines (map f l') -> l = l'.
Proof.
  intros [N Df]. induction l as [|x l IH]; intros [|y l'] E; [reflexivity|..]; unfold lines in E; cbn [map List.concat] in E.
  - specialize (N y). destruct (f y); [destruct N|discriminate].
  - specialize (N x). destruct (f x); [destruct N|discriminate].
  - rewrite <- !app_assoc in E. apply Df in E; [|stop..]. destruct E as [-> E]. rewrite !app_assoc in E. apply app_inv_head in E. rewrite (IH _ E). reflexivity.
Qed.
Lemma separated_map_inj {A} (f : A -> text) cl : delimited f -> stop_char cl -> cl <> ","%char -> forall l l' r r', l <> [] -> l' <> [] ->
  separated_by (txt ", ") (map f l) ++ cl :: r = separated_by (txt ", ") (map f l') ++ cl :: r' -> l = l' /\ r = r'.
Proof.
  intros [N Df] C NC. induction l as [|x l IH]; intros [|y l'] r r' L L' E; try congruence. clear L L'. cbn [map separated_by] in E. rewrite <- !app_assoc in E.
  apply Df in E; [|destruct l; [exact C|stop]|destruct l'; [exact C|stop]]. destruct E as [-> E]. destruct l as [|x l], l' as [|y' l']; cbn [map] in E.
  - injection E as ->. split; reflexivity.
  - injection E as E _. contradiction.
  - injection E as E _. symmetry in E. contradiction.
  - rewrite <- !app_assoc in E. apply app_inv_head in E. apply (IH (y' :: l')) in E; [|discriminate..]. destruct E as [-> ->]. split; reflexivity.
Qed.
Lemma group_delimited {A} (f : A -> text) alt op cl : delimited f -> ~ stop_char op -> stop_char cl -> cl <> ","%char -> cl <> " "%char -> delimited (fun l => group_text alt op cl (map f l)).
Proof.
  intros Df O C NC NS. assert (CN : cl <> newline) by (intros ->; nostop C). split.
  - intros [|x l]; [exact O|]. cbn [map group_text]. destruct alt; exact O.
  - assert (Z : forall x l r r', group_text alt op cl [] ++ r = group_text alt op cl (map f (x :: l)) ++ r' -> False).
    { intros x l r r' E. cbn [map group_text] in E. destruct alt; injection E as E.
      - contradiction.
      - cbn [separated_by] in E. destruct Df as [N _]. specialize (N x). destruct (f x) as [|c t]; [exact N|]. injection E as E _. subst c. contradiction. }
    intros [|x l] [|y l'] r r' _ _ E.
    + injection E as ->. split; reflexivity.
    + destruct (Z _ _ _ _ E).
    + symmetry in E. destruct (Z _ _ _ _ E).
    + change (group_text alt op cl (map f (x :: l))) with (if alt then op :: newline :: padded_lines (map f (x :: l)) ++ [cl] else op :: separated_by (txt ", ") (map f (x :: l)) ++ [cl]) in E.
      change (group_text alt op cl (map f (y :: l'))) with (if alt then op :: newline :: padded_lines (map f (y :: l')) ++ [cl] else op :: separated_by (txt ", ") (map f (y :: l')) ++ [cl]) in E.
      destruct alt.
      * injection E as E. rewrite <- !app_assoc in E.
        assert (E' : padded_lines (map f (x :: l)) ++ cl :: r = padded_lines (map f (y :: l')) ++ cl :: r') by exact E.
        rewrite !padded_lines_eq in E'. apply unpad in E'; [|exact NS|apply lines_close..]. destruct E' as [E' ->]. split; [apply (lines_map_inj f Df), E'|reflexivity].
      * injection E as E. assert (E' : separated_by (txt ", ") (map f (x :: l)) ++ cl :: r = separated_by (txt ", ") (map f (y :: l')) ++ cl :: r').
        { rewrite <- !app_assoc in E. cbn [map separated_by]. rewrite <- !app_assoc. exact E. }
        apply (separated_map_inj f cl Df C NC) in E'; [exact E'|discriminate..].
Qed.
Lemma entry_delimited {A B} (da : debug A) (db : debug B) alt : delimited (da alt) -> delimited (db alt) -> delimited (entry_text da db alt).
Proof.
  intros [NA DA] [NB DB]. split.
  - intros [a b]. unfold entry_text. cbn [fst snd]. specialize (NA a). destruct (da alt a); [destruct NA|exact NA].
  - intros [a b] [a' b'] r r' S S' E. unfold entry_text in E. cbn [fst snd] in E. rewrite <- !app_assoc in E. apply DA in E; [|stop..]. destruct E as [-> E]. apply app_inv_head in E.
    apply DB in E; [|assumption..]. destruct E as [-> ->]. split; reflexivity.
Qed.
Lemma list_delimited {A} (d : debug A) alt : delimited (d alt) -> delimited (list_text d alt).
Proof. intros H. apply group_delimited; [exact H|intros X; nostop X|stop|discriminate..]. Qed.
Lemma set_delimited {A} (d : debug A) alt : delimited (d alt) -> delimited (set_text d alt).
Proof. intros H. apply group_delimited; [exact H|intros X; nostop X|stop|discriminate..]. Qed.
Lemma map_delimited {A B} (da : debug A) (db : debug B) alt : delimited (da alt) -> delimited (db alt) -> delimited (map_text da db alt).
Proof. intros H H'. apply group_delimited; [apply entry_delimited; assumption|intros X; nostop X|stop|discriminate..]. Qed.

(** ** Plain texts *)
Lemma plain_delimited {A} (f : A -> text) : (forall x y, f x = f y -> x = y) -> (forall x, f x <> []) -> (forall x c, In c (f x) -> ~ stop_char c) -> delimited f.
Proof.
  intros J N P. split.
  - intros x. specialize (N x). specialize (P x). destruct (f x) as [|c t]; [apply N; reflexivity|apply P; left; reflexivity].
  - intros x y. assert (G : forall t t' r r', (forall c, In c t -> ~ stop_char c) -> (forall c, In c t' -> ~ stop_char c) -> stops r -> stops r' -> t ++ r = t' ++ r' -> t = t' /\ r = r').
    { induction t as [|c t IH]; intros [|c' t'] r r' Q Q' S S' E; cbn [app] in E.
      - split; [reflexivity|exact E].
      - subst r. destruct (Q' c' (or_introl eq_refl) S).
      - subst r'. destruct (Q c (or_introl eq_refl) S').
      - injection E as <- E. destruct (IH t' r r') as [-> ->]; [intros d Hd; apply Q; right; exact Hd|intros d Hd; apply Q'; right; exact Hd|assumption..|split; reflexivity]. }
    intros r r' S S' E. destruct (G _ _ _ _ (P x) (P y) S S' E) as [T ->]. split; [apply J, T|reflexivity].
Qed.
Lemma txt_inj s s' : txt s = txt s' -> s = s'.
Proof. unfold txt. intros E. rewrite <- (string_of_list_ascii_of_string s), <- (string_of_list_ascii_of_string s'), E. reflexivity. Qed.
Lemma uint_chars d c : In c (txt (NilEmpty.string_of_uint d)) -> ~ stop_char c.
Proof. induction d; cbn; [tauto|..]; (intros [<-|Hc]; [intros X; nostop X|auto]). Qed.
Lemma zuint_chars d c : In c (txt (NilZero.string_of_uint d)) -> ~ stop_char c.
Proof. destruct d; [|apply uint_chars..]. cbn. intros [<-|[]] X. nostop X. Qed.
Lemma zuint_nonempty d : txt (NilZero.string_of_uint d) <> []. Proof. destruct d; discriminate. Qed.
Lemma nat_nonnil n : Nat.to_uint n <> Decimal.Nil.
Proof. intros E. pose proof (DecimalNat.Unsigned.of_to n) as T. rewrite E in T. subst n. discriminate E. Qed.
Lemma usize_delimited alt : delimited (usize_debug alt).
Proof.
  apply plain_delimited; unfold usize_debug.
  - intros x y E. apply txt_inj in E. apply DecimalNat.Unsigned.to_uint_inj. pose proof (NilZero.usu _ (nat_nonnil x)) as A. pose proof (NilZero.usu _ (nat_nonnil y)) as B. rewrite E in A. congruence.
  - intros x. apply zuint_nonempty.
  - intros x c. apply zuint_chars.
Qed.
Lemma int_nonnil z : Z.to_int z <> Decimal.Pos Decimal.Nil /\ Z.to_int z <> Decimal.Neg Decimal.Nil.
Proof. destruct z as [|p|p]; cbn; split; try discriminate; intros E; injection E as E; exact (DecimalPos.Unsigned.to_uint_nonnil p E). Qed.
Lemma int_delimited alt : delimited (int_debug alt).
Proof.
  apply plain_delimited; unfold int_debug.
  - intros x y E. apply txt_inj in E. apply DecimalZ.to_int_inj. destruct (int_nonnil x) as [X X'], (int_nonnil y) as [Y Y'].
    pose proof (NilZero.isi _ X X') as A. pose proof (NilZero.isi _ Y Y') as B. rewrite E in A. congruence.
  - intros x. destruct (Z.to_int x); [apply zuint_nonempty|discriminate].
  - intros x c. destruct (Z.to_int x); [apply zuint_chars|]. cbn. intros [<-|Hc]; [intros X; nostop X|exact (zuint_chars _ _ Hc)].
Qed.
Lemma delimited_comp {A B} (f : A -> text) (g : B -> A) : delimited f -> (forall x y, g x = g y -> x = y) -> delimited (fun x => f (g x)).
Proof. intros [N Df] J. split; [intros x; apply N|]. intros x y r r' S S' E. destruct (Df _ _ _ _ S S' E) as [X ->]. split; [apply J, X|reflexivity]. Qed.
Lemma point_delimited {lo hi} alt : delimited (point_debug (lo := lo) (hi := hi) alt).
Proof. exact (delimited_comp (int_debug alt) ival (int_delimited alt) (@int_eq lo hi)). Qed.
Lemma unit_delimited alt : delimited (unit_debug alt).
Proof. split; [intros x X; nostop X|]. intros [] [] r r' _ _ E. injection E as ->. split; reflexivity. Qed.
Lemma config_delimited alt : delimited (config_debug alt).
Proof.
  apply plain_delimited; unfold config_debug.
  - intros x y E. apply txt_inj in E. destruct x, y; first [reflexivity|discriminate E].
  - intros x. destruct x; discriminate.
  - intros x c. destruct x; cbn; intros H X; repeat (destruct H as [<-|H]; [nostop X|]); exact H.
Qed.
Lemma option_delimited {A} (d : debug A) alt : delimited (d alt) -> delimited (option_debug d alt).
Proof.
  intros Df. split.
  - intros [a|]; [|intros X; nostop X]. cbn [option_debug]. destruct alt; intros X; nostop X.
  - intros [a|] [b|] r r' _ _ E; [|cbn [option_debug] in E; destruct alt; discriminate E..|injection E as ->; split; reflexivity].
    cbn [option_debug] in E. destruct alt; rewrite <- !app_assoc in E; apply app_inv_head in E.
    + apply app_inv_head in E. rewrite !padded_lines_eq in E. apply unpad in E; [|discriminate|apply lines_close..]. destruct E as [E ->].
      apply (lines_map_inj (d true) Df [a] [b]) in E. injection E as ->. split; reflexivity.
    + apply (proj2 Df) in E; [|stop..]. destruct E as [-> E]. injection E as ->. split; reflexivity.
Qed.

(** ** The derived impls *)
Ltac fields := repeat (apply Forall2_cons; [apply unmix_named|]); try apply Forall2_nil.
Section Debug.
  Context {I K V D : Type} (tn : text) (dp : debug I) (dk : debug K) (dv : debug V) (dd : debug D) (alt : bool).
  Lemma interval_delimited : delimited (dp alt) -> delimited (interval_debug dp alt).
  Proof.
    intros H. apply (struct_delimited alt "I" "nterval"); [intros X; nostop X|..].
    - intros x y. fields; apply delimited_unmix, H.
    - intros [s e] [s' e'] E. injection E as E1 E2. cbn [ivl_start ivl_end] in *. apply (delimited_inj _ _ _ H) in E1. apply (delimited_inj _ _ _ H) in E2. subst. reflexivity.
  Qed.
  Lemma nodit_delimited : delimited (dk alt) -> delimited (dv alt) -> delimited (nodit_debug tn dk dv alt).
  Proof.
    intros H H'. pose proof (map_delimited dk dv alt H H') as M. apply (struct_delimited alt "N" "oditMap"); [intros X; nostop X|..].
    - intros x y. fields; [apply (delimited_unmix (map_text dk dv alt)), M|apply unmix_same].
    - intros x y E. injection E as E. exact (delimited_inj _ _ _ M E).
  Qed.
  Lemma overlap_error_delimited : delimited (dv alt) -> delimited (overlap_error_debug dv alt).
  Proof.
    intros H. apply (struct_delimited alt "O" "verlapError"); [intros X; nostop X|..].
    - intros x y. fields. apply delimited_unmix, H.
    - intros x y E. injection E as E. exact (delimited_inj _ _ _ H E).
  Qed.
  Lemma non_zero_overlap_error_delimited : delimited (dv alt) -> delimited (non_zero_overlap_error_debug dv alt).
  Proof.
    intros H. apply (struct_delimited alt "N" "onZeroOverlapError"); [intros X; nostop X|..].
    - intros x y. fields. apply delimited_unmix, H.
    - intros x y E. injection E as E. exact (delimited_inj _ _ _ H E).
  Qed.
  Lemma zosdit_delimited : delimited (dk alt) -> delimited (dv alt) -> delimited (zosdit_debug tn dk dv alt).
  Proof.
    intros H H'. pose proof (map_delimited dk (list_text dv) alt H (list_delimited dv alt H')) as M. apply (struct_delimited alt "Z" "osditMap"); [intros X; nostop X|..].
    - intros x y. fields; [apply (delimited_unmix (usize_debug alt)), usize_delimited|apply (delimited_unmix (map_text dk (list_text dv) alt)), M|apply unmix_same].
    - intros [n l] [n' l'] E. injection E as E1 E2. apply (delimited_inj _ _ _ (usize_delimited alt)) in E1. apply (delimited_inj _ _ _ M) in E2. cbn in E1, E2. subst. reflexivity.
  Qed.
End Debug.
Lemma nodit_set_delimited {K} tn (dk : debug K) alt : delimited (dk alt) -> delimited (nodit_set_debug tn dk alt).
Proof.
  intros H. pose proof (nodit_delimited tn dk unit_debug alt H (unit_delimited alt)) as M. apply (struct_delimited alt "N" "oditSet"); [intros X; nostop X|..].
  - intros x y. fields. apply (delimited_unmix (nodit_debug tn dk unit_debug alt)), M.
  - intros x y E. injection E as E. exact (delimited_inj _ _ _ M E).
Qed.
Lemma gqdit_delimited {K D} tn (dk : debug K) (dd : debug D) alt : delimited (dk alt) -> delimited (dd alt) -> delimited (gqdit_debug tn dk dd alt).
Proof.
  intros H H'. pose proof (nodit_delimited tn dk (set_text dd) alt H (set_delimited dd alt H')) as M. apply (struct_delimited alt "G" "qdit"); [intros X; nostop X|..].
  - intros x y. fields. apply (delimited_unmix (nodit_debug tn dk (set_text dd) alt)), M.
  - intros x y E. injection E as E. exact (delimited_inj _ _ _ M E).
Qed.
Lemma cut_result_delimited {I} (dp : debug I) alt : delimited (dp alt) -> delimited (cut_result_debug dp alt).
Proof.
  intros H. pose proof (option_delimited (interval_debug dp) alt (interval_delimited dp alt H)) as M. apply (struct_delimited alt "C" "utResult"); [intros X; nostop X|..].
  - intros x y. fields; apply (delimited_unmix (option_debug (interval_debug dp) alt)), M.
  - intros [a b c] [a' b' c'] E. injection E as E1 E2 E3. apply (delimited_inj _ _ _ M) in E1. apply (delimited_inj _ _ _ M) in E2. apply (delimited_inj _ _ _ M) in E3. cbn in *. subst. reflexivity.
Qed.

(** ** Lines *)
Lemma one_line_app t s : one_line t -> one_line s -> one_line (t ++ s).
Proof. intros A B X. apply in_app_or in X. destruct X; auto. Qed.
Lemma separated_one_line sep ts : one_line sep -> Forall one_line ts -> one_line (separated_by sep ts).
Proof.
  intros S F. induction F as [|t ts Ht F IH]; [intros []|]. cbn [separated_by]. apply one_line_app; [exact Ht|]. destruct ts; [intros []|apply one_line_app; assumption].
Qed.
Ltac plain := let X := fresh in intros X; cbn in X; repeat (destruct X as [X|X]; [discriminate X|]); exact X.
Lemma struct_one_line name ts : one_line (txt name) -> Forall one_line ts -> one_line (struct_text false name ts).
Proof.
  intros N F. unfold struct_text. apply one_line_app; [exact N|]. apply one_line_app; [plain|]. apply one_line_app; [apply separated_one_line; [plain|exact F]|plain].
Qed.
Lemma named_one_line n t : one_line (txt n) -> one_line t -> one_line (named n t).
Proof. intros N T. unfold named. apply one_line_app; [exact N|]. apply one_line_app; [plain|exact T]. Qed.
Lemma group_one_line op cl ts : one_line [op; cl] -> Forall one_line ts -> one_line (group_text false op cl ts).
Proof.
  intros OC F. unfold group_text. destruct F as [|t ts Ht F]; [exact OC|]. intros [X|X]; [apply OC; left; exact X|]. revert X.
  apply one_line_app; [apply separated_one_line; [plain|constructor; assumption]|]. intros [X|[]]. apply OC. right. left. exact X.
Qed.
Lemma map_one_line {A B} (da : debug A) (db : debug B) l : (forall a, one_line (da false a)) -> (forall b, one_line (db false b)) -> one_line (map_text da db false l).
Proof.
  intros HA HB. apply group_one_line; [plain|]. apply Forall_forall. intros t Ht. apply in_map_iff in Ht. destruct Ht as ([a b] & <- & _). unfold entry_text. cbn [fst snd].
  apply one_line_app; [apply HA|]. apply one_line_app; [plain|apply HB].
Qed.
Lemma bracket_one_line {A} (d : debug A) l op cl : one_line [op; cl] -> (forall a, one_line (d false a)) -> one_line (group_text false op cl (map (d false) l)).
Proof. intros OC HA. apply group_one_line; [exact OC|]. apply Forall_forall. intros t Ht. apply in_map_iff in Ht. destruct Ht as (a & <- & _). apply HA. Qed.
Lemma phantom_one_line tn : one_line tn -> one_line (phantom_text tn).
Proof. intros T. unfold phantom_text. apply one_line_app; [plain|]. apply one_line_app; [exact T|plain]. Qed.
Lemma usize_one_line n : one_line (usize_debug false n).
Proof.
  unfold usize_debug, one_line. intros X. assert (G : forall d, ~ In newline (txt (NilEmpty.string_of_uint d))).
  { induction d; cbn; [tauto|..]; (intros [E|E]; [discriminate E|exact (IHd E)]). }
  destruct (Nat.to_uint n); [cbn in X; destruct X as [X|[]]; discriminate X|..]; exact (G _ X).
Qed.
Lemma int_one_line alt z : one_line (int_debug alt z).
Proof.
  unfold int_debug, one_line. assert (G : forall d, ~ In newline (txt (NilEmpty.string_of_uint d))).
  { induction d; cbn; [tauto|..]; (intros [E|E]; [discriminate E|exact (IHd E)]). }
  assert (G' : forall d, ~ In newline (txt (NilZero.string_of_uint d))). { intros [] X; [cbn in X; destruct X as [X|[]]; discriminate X|..]; exact (G _ X). }
  destruct (Z.to_int z); [apply G'|]. cbn. intros [X|X]; [discriminate X|exact (G' _ X)].
Qed.
Lemma pad_false t s : one_line t -> pad false (t ++ s) = t ++ pad false s.
Proof.
  intros H. induction t as [|c t IH]; [reflexivity|]. cbn [app pad]. assert (E : Ascii.eqb c newline = false) by (apply Ascii.eqb_neq; intros ->; apply H; left; reflexivity).
  rewrite E. rewrite IH; [reflexivity|]. intros X. apply H. right. exact X.
Qed.
Lemma pad_true t s : one_line t -> t <> [] -> pad true (t ++ s) = txt "    " ++ t ++ pad false s.
Proof.
  intros H N. destruct t as [|c t]; [contradiction|]. cbn [app pad]. assert (E : Ascii.eqb c newline = false) by (apply Ascii.eqb_neq; intros ->; apply H; left; reflexivity).
  rewrite E. rewrite pad_false; [reflexivity|]. intros X. apply H. right. exact X.
Qed.
Lemma pad_line t : one_line t -> t <> [] -> pad true (t ++ txt "," ++ [newline]) = txt "    " ++ t ++ txt "," ++ [newline].
Proof. intros H N. rewrite pad_true by assumption. reflexivity. Qed.
Lemma padded_lines_plain ts : Forall (fun t => one_line t /\ t <> []) ts -> padded_lines ts = List.concat (map (fun t => txt "    " ++ t ++ txt "," ++ [newline]) ts).
Proof. intros F. induction F as [|t ts [H N] F IH]; [reflexivity|]. unfold padded_lines in *. cbn [map List.concat]. rewrite pad_line by assumption. rewrite IH. reflexivity. Qed.
Lemma pad_indent : forall ts, Forall (fun t => one_line t /\ t <> []) ts ->
  forall s, pad true (List.concat (map (fun t => t ++ [newline]) ts) ++ s) = List.concat (map (fun t => txt "    " ++ t ++ [newline]) ts) ++ pad true s.
Proof.
  intros ts F s. induction F as [|t ts [H N] F IH]; [reflexivity|]. cbn [map List.concat]. rewrite <- !app_assoc. rewrite pad_true by assumption. cbn [app pad].
  rewrite Ascii.eqb_refl. rewrite IH. reflexivity.
Qed.
