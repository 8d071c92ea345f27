(** * FmtFacts: the derived [Debug] impls as programs (the proofs of C172). *)
From Coq Require Import ZArith Bool Arith String Ascii Lia List.
From Verif Require Import Base BTree UtilsModel IntervalModel NoditModel NoditSetModel ZosditModel GqditModel InstancesModel DebugModel FmtModel.
Import ListNotations.
Open Scope list_scope.

(** ** Well-behaved programs *)
Section Writes.
  Context {U : Type}.
  Definition W (a : action U) (t : text) : Prop := forall u, writes (a u) t.

  Lemma writes_nil (p : prog (U * res)) t t' : writes p t -> t = t' -> writes p t'.
  Proof. intros H <-. exact H. Qed.
  Lemma W_eq a t t' : W a t -> t = t' -> W a t'.
  Proof. intros H <-. exact H. Qed.
  Lemma W_say t : W (say t) t.
  Proof. intros u. unfold say. rewrite <- (app_nil_r t) at 2. apply writes_put; [apply writes_stop|]. intros r _. exists u. reflexivity. Qed.
  Lemma W_ok : W ok [].
  Proof. intros u. apply writes_stop. Qed.
  Lemma W_andthen a b t t' : W a t -> W b t' -> W (andthen a b) (t ++ t').
  Proof.
    intros Ha Hb u. unfold andthen. specialize (Ha u). induction Ha as [u'|x k t H IH Hf]; cbn [bind snd fst].
    - apply Hb.
    - rewrite <- app_assoc. apply writes_put; [exact IH|]. intros r Hr. destruct (Hf r Hr) as (u' & ->). exists u'. destruct r; [congruence| |]; reflexivity.
  Qed.
  Lemma W_all l ts : Forall2 W l ts -> W (all l) (concat ts).
  Proof. induction 1; [exact W_ok|]. cbn [all concat]. apply W_andthen; assumption. Qed.

  Definition is_line (l : text) : Prop := exists b c, l = b ++ [c] /\ ~ In newline b.
  Lemma lines_spec t : concat (lines t) = t /\ Forall is_line (lines t).
  Proof.
    induction t as [|c t [E F]]; [split; [reflexivity|constructor]|]. cbn [lines]. destruct (Ascii.eqb c newline) eqn:Ec.
    - split; [cbn; rewrite E; reflexivity|]. constructor; [|exact F]. exists [], c. split; [reflexivity|intros []].
    - destruct (lines t) as [|l ls] eqn:El.
      + cbn in E. subst t. split; [reflexivity|]. constructor; [|constructor]. exists [], c. split; [reflexivity|intros []].
      + split; [cbn in *; rewrite E; reflexivity|]. inversion F as [|? ? (b & d & -> & N) F']; subst. constructor; [|exact F'].
        exists (c :: b), d. split; [reflexivity|]. intros [X|X]; [|exact (N X)]. subst c. rewrite Ascii.eqb_refl in Ec. discriminate.
  Qed.
  Lemma pad_line nl l rest : is_line l -> pad nl (l ++ rest) = (if nl then txt "    " else []) ++ l ++ pad (ends_newline l) rest.
  Proof.
    intros (b & c & -> & N). unfold ends_newline. rewrite last_last. revert nl N. induction b as [|d b IH]; intros nl N.
    - cbn [app pad]. reflexivity.
    - cbn [app pad]. assert (X : Ascii.eqb d newline = false). { apply Ascii.eqb_neq. intros ->. apply N. left. reflexivity. }
      rewrite X, IH; [reflexivity|]. intros Y. apply N. right. exact Y.
  Qed.
  Lemma writes_padded (p : prog (U * res)) t : writes p t -> forall nl, writes (padded nl p) (pad nl t).
  Proof.
    induction 1 as [u|x k t H IH Hf]; intros nl; [apply writes_stop|]. cbn [padded].
    destruct (lines_spec x) as [E F]. rewrite <- E at 2. clear E.
    assert (Stops : forall b r, r <> Fine -> exists u, padded b (k r) = Stop (u, r)). { intros b r Hr. destruct (Hf r Hr) as (u & ->). exists u. reflexivity. }
    revert nl. induction (lines x) as [|l ls IHl]; intros nl; [apply IH|]. pose proof (Forall_inv F) as L. specialize (IHl (Forall_inv_tail F)).
    cbn [concat]. rewrite <- app_assoc, (pad_line nl l _ L).
    match goal with |- writes (if nl then Put ?a ?k else ?b) _ => assert (Line : writes b (l ++ pad (ends_newline l) (concat ls ++ t))) end.
    { apply writes_put; [apply IHl|]. intros r Hr. destruct r; [congruence| |]; apply Stops; discriminate. }
    destruct nl; [|exact Line]. apply writes_put; [exact Line|]. intros r Hr. destruct r; [congruence| |]; apply Stops; discriminate.
  Qed.
  Lemma W_pretty_item a t : W a t -> W (pretty_item a) (pad true (t ++ txt "," ++ [newline])).
  Proof.
    intros H u. unfold pretty_item, in_pad. apply writes_padded. generalize u. fold (W (all [a; say (txt "," ++ [newline])]) (t ++ txt "," ++ [newline])).
    eapply W_eq; [apply W_all; constructor; [exact H|constructor; [apply W_say|constructor]]|]. cbn [concat]. rewrite app_nil_r. reflexivity.
  Qed.
  Lemma W_field name a t : W a t -> W (field name a) (named name t).
  Proof.
    intros H. unfold field. eapply W_eq; [apply W_all; repeat (constructor; [first [apply W_say|exact H]|]); constructor|]. unfold named. cbn [concat]. rewrite app_nil_r. reflexivity.
  Qed.
  Lemma W_pretty_items l ts : Forall2 W l ts -> Forall2 W (map pretty_item l) (map (fun t => pad true (t ++ txt "," ++ [newline])) ts).
  Proof. induction 1; cbn [map]; constructor; [apply W_pretty_item|]; assumption. Qed.
  Lemma plain_items_W f l ts cl : Forall2 W l ts -> exists x, Forall2 W (plain_items f l ++ [say cl]) x /\
    concat x = match ts with [] => [] | _ => f ++ separated_by (txt ", ") ts end ++ cl.
  Proof.
    intros H. revert f. induction H as [|a t l ts Ha H IH]; intros f.
    - exists [cl]. split; [constructor; [apply W_say|constructor]|]. cbn. rewrite app_nil_r. reflexivity.
    - destruct (IH (txt ", ")) as (x & Hx & Ex). exists (f :: t :: x). split; [cbn [plain_items app]; constructor; [apply W_say|constructor; [exact Ha|exact Hx]]|].
      cbn [concat separated_by]. rewrite Ex, <- !app_assoc. destruct ts; reflexivity.
  Qed.
  Lemma W_struct alt name l ts : l <> [] -> Forall2 W l ts -> W (struct_fmt alt name l) (struct_text alt name ts).
  Proof.
    intros Hl H. unfold struct_fmt, struct_text. destruct alt.
    - eapply W_eq; [apply W_all; constructor; [apply W_say|]; constructor; [apply W_say|]; apply Forall2_app; [apply W_pretty_items, H|constructor; [apply W_say|constructor]]|].
      cbn [concat]. rewrite concat_app. unfold padded_lines. cbn [concat]. rewrite app_nil_r, <- app_assoc. reflexivity.
    - destruct (plain_items_W (txt " { ") l ts (txt " }") H) as (x & Hx & Ex). eapply W_eq; [apply W_all; constructor; [apply W_say|exact Hx]|]. cbn [concat]. rewrite Ex.
      destruct H; [congruence|]. rewrite <- app_assoc. reflexivity.
  Qed.
  Lemma W_group alt op cl l ts : Forall2 W l ts -> W (group_fmt alt op cl l) (group_text alt op cl ts).
  Proof.
    intros H. unfold group_fmt, group_text. destruct H as [|a t l ts Ha H].
    - eapply W_eq; [apply W_all; repeat (constructor; [apply W_say|]); constructor|]. reflexivity.
    - destruct alt.
      + eapply W_eq; [apply W_all; constructor; [apply W_say|]; constructor; [apply W_say|]; apply Forall2_app; [apply (W_pretty_items (a :: l) (t :: ts)); constructor; assumption|constructor; [apply W_say|constructor]]|].
        cbn [concat]. rewrite concat_app. unfold padded_lines. cbn [concat]. rewrite app_nil_r. reflexivity.
      + destruct (plain_items_W (txt ", ") l ts [cl] H) as (x & Hx & Ex). eapply W_eq; [apply W_all; constructor; [apply W_say|constructor; [exact Ha|exact Hx]]|].
        cbn [concat separated_by app]. rewrite Ex, <- app_assoc. reflexivity.
  Qed.
  Lemma Forall2_map_W {A} (f : A -> action U) (d : A -> text) (l : list A) : (forall a, W (f a) (d a)) -> Forall2 W (map f l) (map d l).
  Proof. intros H. induction l; cbn [map]; constructor; [apply H|assumption]. Qed.
  Lemma W_entry {A B} (da : fmt U A) (db : fmt U B) ta tb alt e : W (da alt (fst e)) (ta alt (fst e)) -> W (db alt (snd e)) (tb alt (snd e)) -> W (entry_fmt da db alt e) (entry_text ta tb alt e).
  Proof.
    intros Ha Hb. unfold entry_fmt. eapply W_eq; [apply W_all; constructor; [exact Ha|]; constructor; [apply W_say|]; constructor; [exact Hb|constructor]|]. unfold entry_text. cbn [concat]. rewrite app_nil_r. reflexivity.
  Qed.
  Lemma W_phantom tn : W (phantom_fmt tn) (phantom_text tn).
  Proof. eapply W_eq; [apply W_all; repeat (constructor; [apply W_say|]); constructor|]. unfold phantom_text. cbn [concat]. rewrite app_nil_r. reflexivity. Qed.

  Lemma wb_list {A} (f : fmt U A) d : well_behaved f d -> well_behaved (list_fmt f) (list_text d).
  Proof. intros H alt l. apply W_group, Forall2_map_W. intros a u. apply H. Qed.
  Lemma wb_set {A} (f : fmt U A) d : well_behaved f d -> well_behaved (set_fmt f) (set_text d).
  Proof. intros H alt l. apply W_group, Forall2_map_W. intros a u. apply H. Qed.
  Lemma wb_map {A B} (f : fmt U A) d (g : fmt U B) e : well_behaved f d -> well_behaved g e -> well_behaved (map_fmt f g) (map_text d e).
  Proof. intros H H' alt l. apply W_group, Forall2_map_W. intros a. apply W_entry; intros u; [apply H|apply H']. Qed.
  Lemma wb_unit : well_behaved (unit_fmt : fmt U unit) unit_debug.
  Proof. intros alt x. apply W_say. Qed.
  Ltac fields := repeat (first [apply Forall2_nil | apply Forall2_cons; [apply W_field|]]).
  Lemma wb_interval {I} (f : fmt U I) d : well_behaved f d -> well_behaved (interval_fmt f) (interval_debug d).
  Proof. intros H alt i. apply W_struct; [discriminate|]. fields; intros u; apply H. Qed.
  Lemma wb_option {A} (f : fmt U A) d : well_behaved f d -> well_behaved (option_fmt f) (option_debug d).
  Proof.
    intros H alt [a|]; [|apply W_say]. unfold option_fmt, option_debug. destruct alt.
    - eapply W_eq; [apply W_all; constructor; [apply W_say|]; constructor; [apply W_say|]; constructor; [apply W_pretty_item; intros u; apply H|]; constructor; [apply W_say|constructor]|].
      unfold padded_lines. cbn [concat map]. rewrite !app_nil_r. reflexivity.
    - eapply W_eq; [apply W_all; constructor; [apply W_say|]; constructor; [apply W_say|]; constructor; [intros u; apply H|]; constructor; [apply W_say|constructor]|].
      cbn [concat]. rewrite !app_nil_r. reflexivity.
  Qed.
  Lemma wb_nodit {K V} tn (f : fmt U K) d (g : fmt U V) e : well_behaved f d -> well_behaved g e -> well_behaved (nodit_fmt tn f g) (nodit_debug tn d e).
  Proof. intros H H' alt m. apply W_struct; [discriminate|]. fields; [intros u; apply wb_map; assumption|apply W_phantom]. Qed.
  Lemma wb_nodit_set {K} tn (f : fmt U K) d : well_behaved f d -> well_behaved (nodit_set_fmt tn f) (nodit_set_debug tn d).
  Proof. intros H alt m. apply W_struct; [discriminate|]. fields. intros u. apply wb_nodit; [exact H|apply wb_unit]. Qed.
  Lemma wb_gqdit {K D} tn (f : fmt U K) d (g : fmt U D) e : well_behaved f d -> well_behaved g e -> well_behaved (gqdit_fmt tn f g) (gqdit_debug tn d e).
  Proof. intros H H' alt m. apply W_struct; [discriminate|]. fields. intros u. apply wb_nodit; [exact H|apply wb_set, H']. Qed.
  Lemma wb_zosdit {K V} tn (f : fmt U K) d (g : fmt U V) e : well_behaved f d -> well_behaved g e -> well_behaved (zosdit_fmt tn f g) (zosdit_debug tn d e).
  Proof. intros H H' alt m. apply W_struct; [discriminate|]. fields; [apply W_say|intros u; apply wb_map; [exact H|apply wb_list, H']|apply W_phantom]. Qed.
  Lemma wb_overlap_error {V} (f : fmt U V) d : well_behaved f d -> well_behaved (overlap_error_fmt f) (overlap_error_debug d).
  Proof. intros H alt i. apply W_struct; [discriminate|]. fields; intros u; apply H. Qed.
  Lemma wb_non_zero_overlap_error {V} (f : fmt U V) d : well_behaved f d -> well_behaved (non_zero_overlap_error_fmt f) (non_zero_overlap_error_debug d).
  Proof. intros H alt i. apply W_struct; [discriminate|]. fields; intros u; apply H. Qed.
  Lemma wb_cut_result {I} (f : fmt U I) d : well_behaved f d -> well_behaved (cut_result_fmt f) (cut_result_debug d).
  Proof. intros H alt i. apply W_struct; [discriminate|]. fields; intros u; apply wb_option, wb_interval, H. Qed.
  Lemma wb_config : well_behaved (config_fmt : fmt U Config) config_debug.
  Proof. intros alt x. apply W_say. Qed.

  Lemma writes_outcome (p : prog (U * res)) t : writes p t -> forall evs u r, outcome p evs (u, r) ->
    match r with
    | Fine => concat (map fst evs) = t /\ Forall (fun e => snd e = Fine) evs
    | _ => exists e a rest, evs = e ++ [(a, r)] /\ Forall (fun e => snd e = Fine) e /\ concat (map fst e) ++ a ++ rest = t
    end.
  Proof.
    induction 1 as [u0|x k t H IH Hf]; intros evs u r O; inversion O as [|? ? r0 evs0 ? O']; subst.
    - split; [reflexivity|constructor].
    - destruct r0.
      + specialize (IH _ _ _ O'). destruct r.
        * destruct IH as [<- F]. split; [reflexivity|]. constructor; [reflexivity|exact F].
        * destruct IH as (e & a & rest & -> & F & <-). exists ((x, Fine) :: e), a, rest. split; [reflexivity|]. split; [constructor; [reflexivity|exact F]|]. cbn. rewrite <- app_assoc. reflexivity.
        * destruct IH as (e & a & rest & -> & F & <-). exists ((x, Fine) :: e), a, rest. split; [reflexivity|]. split; [constructor; [reflexivity|exact F]|]. cbn. rewrite <- app_assoc. reflexivity.
      + destruct (Hf Failed) as (u' & Ek); [discriminate|]. rewrite Ek in O'. inversion O'; subst. exists [], x, t. repeat split; constructor.
      + destruct (Hf Panicked) as (u' & Ek); [discriminate|]. rewrite Ek in O'. inversion O'; subst. exists [], x, t. repeat split; constructor.
  Qed.
End Writes.

(** ** Any programs *)
Section Turns.
  Context {U C : Type}.
  Notation N := (U * list (C * res))%type.
  Definition T (a : action N) (due : list C) : Prop := forall u evs x, outcome (a u) evs x ->
    exists made, snd (fst x) = snd u ++ made /\ in_turn due evs made (snd x).

  Lemma T_eq a l l' : T a l -> l = l' -> T a l'.
  Proof. intros H <-. exact H. Qed.
  Lemma T_say t : T (say t) [].
  Proof.
    intros u evs x O. unfold say in O. inversion O as [|? ? r evs0 ? O']; subst. inversion O'; subst. exists []. rewrite app_nil_r. split; [reflexivity|]. cbn. destruct r; [reflexivity| |];
    (exists [], []; right; split; [reflexivity|split; [reflexivity|exists [], t; reflexivity]]).
  Qed.
  Lemma T_ok : T ok [].
  Proof. intros u evs x O. inversion O; subst. exists []. rewrite app_nil_r. split; reflexivity. Qed.
  Lemma outcome_bind {X Y} (p : prog X) (f : X -> prog Y) : forall evs y, outcome (bind p f) evs y ->
    exists e1 x e2, evs = e1 ++ e2 /\ outcome p e1 x /\ outcome (f x) e2 y.
  Proof.
    induction p as [x|t k IH]; intros evs y O.
    - exists [], x, evs. split; [reflexivity|]. split; [constructor|exact O].
    - cbn [bind] in O. inversion O as [|? ? r evs0 ? O']; subst. destruct (IH r _ _ O') as (e1 & x & e2 & -> & O1 & O2).
      exists ((t, r) :: e1), x, e2. split; [reflexivity|]. split; [constructor; exact O1|exact O2].
  Qed.
  Lemma in_turn_more (due1 due2 : list C) e made r : r <> Fine -> in_turn due1 e made r -> in_turn (due1 ++ due2) e made r.
  Proof.
    intros Hr H. destruct r; [congruence| |]; (destruct H as (l & rest & [(c & -> & ->)|(-> & -> & E)]); exists l, (rest ++ due2);
      [left; exists c; rewrite <- app_assoc; split; reflexivity|right; rewrite <- app_assoc; split; [reflexivity|split; [reflexivity|exact E]]]).
  Qed.
  Lemma in_turn_after (due1 due2 : list C) e1 e2 made r : in_turn due2 e2 made r -> in_turn (due1 ++ due2) (e1 ++ e2) (map (fun c => (c, Fine)) due1 ++ made) r.
  Proof.
    intros H. destruct r; cbn in *.
    - rewrite H, map_app. reflexivity.
    - destruct H as (l & rest & [(c & -> & ->)|(-> & -> & e & t & ->)]); exists (due1 ++ l), rest.
      + left. exists c. rewrite map_app, <- !app_assoc. split; reflexivity.
      + right. rewrite map_app, <- app_assoc. split; [reflexivity|]. split; [reflexivity|]. exists (e1 ++ e), t. rewrite <- app_assoc. reflexivity.
    - destruct H as (l & rest & [(c & -> & ->)|(-> & -> & e & t & ->)]); exists (due1 ++ l), rest.
      + left. exists c. rewrite map_app, <- !app_assoc. split; reflexivity.
      + right. rewrite map_app, <- app_assoc. split; [reflexivity|]. split; [reflexivity|]. exists (e1 ++ e), t. rewrite <- app_assoc. reflexivity.
  Qed.
  Lemma T_andthen a b l l' : T a l -> T b l' -> T (andthen a b) (l ++ l').
  Proof.
    intros Ha Hb u evs x O. unfold andthen in O. destruct (outcome_bind _ _ _ _ O) as (e1 & y & e2 & -> & O1 & O2).
    destruct (Ha _ _ _ O1) as (made & E & It). destruct y as [u1 r1]. cbn [fst snd] in *. destruct r1.
    - destruct (Hb _ _ _ O2) as (made2 & E2 & It2). exists (made ++ made2). rewrite E2, E, <- app_assoc. split; [reflexivity|]. cbn in It. subst made. apply in_turn_after, It2.
    - inversion O2; subst. exists made. rewrite app_nil_r. split; [exact E|]. apply in_turn_more; [discriminate|exact It].
    - inversion O2; subst. exists made. rewrite app_nil_r. split; [exact E|]. apply in_turn_more; [discriminate|exact It].
  Qed.
  Lemma T_all l ds : Forall2 T l ds -> T (all l) (concat ds).
  Proof. induction 1; [exact T_ok|]. cbn [all concat]. apply T_andthen; assumption. Qed.
  (** How the last write ended. *)
  Definition last_res (e : list (text * res)) : res := last (map snd e) Fine.
  Lemma last_res_app e e' : e' <> [] -> last_res (e ++ e') = last_res e'.
  Proof.
    intros H. unfold last_res. induction e as [|x e IH]; [reflexivity|]. cbn [app map]. rewrite <- IH. cbn [last].
    destruct (map snd (e ++ e')) eqn:Em; [|reflexivity]. apply map_eq_nil, app_eq_nil in Em. destruct Em; congruence.
  Qed.
  Lemma last_res_end e r : r <> Fine -> last_res e = r <-> exists a t, e = a ++ [(t, r)].
  Proof.
    intros Hr. split.
    - intros E. destruct (@exists_last _ e) as (a & [t r'] & ->); [intros ->; cbn in E; congruence|]. rewrite last_res_app in E by discriminate. cbn in E. subst. exists a, t. reflexivity.
    - intros (a & t & ->). rewrite last_res_app by discriminate. reflexivity.
  Qed.
  Lemma last_res_more e rest rest' : (last_res rest' <> Fine -> last_res rest = last_res rest') -> rest' <> [] -> forall x, last_res (x :: rest') <> Fine -> last_res (e ++ rest) = last_res (x :: rest').
  Proof.
    intros H Hn x Hr. change (x :: rest') with ([x] ++ rest') in *. rewrite (last_res_app [x] rest' Hn) in *. rewrite last_res_app; [apply H, Hr|]. intros ->. specialize (H Hr). apply Hr. rewrite <- H. reflexivity.
  Qed.
  Lemma outcome_padded {X} (p : prog X) : forall nl evs x, outcome (padded nl p) evs x ->
    exists evs', outcome p evs' x /\ (last_res evs' <> Fine -> last_res evs = last_res evs').
  Proof.
    induction p as [x0|t k IH]; intros nl evs x O; [inversion O; subst; exists []; split; [constructor|auto]|].
    (* the end of the write of [t], with [e] written so far *)
    assert (End : forall r e b rest, outcome (padded b (k r)) rest x -> (r <> Fine -> last_res e = r) ->
              exists evs', outcome (Put t k) evs' x /\ (last_res evs' <> Fine -> last_res (e ++ rest) = last_res evs')).
    { intros r e b rest Or He. destruct (IH r b rest x Or) as (rest' & Or' & L). exists ((t, r) :: rest'). split; [constructor; exact Or'|]. intros Hr. destruct rest' as [|y rest'].
      - inversion Or' as [? Ek|]; subst. rewrite <- Ek in Or. cbn in Or. inversion Or; subst. rewrite app_nil_r. cbn in *. apply He, Hr.
      - apply last_res_more; [exact L|discriminate|exact Hr]. }
    cbn [padded] in O. revert O.
    enough (G : forall ls e nl evs,
      outcome ((fix go (nl : bool) (ls : list text) : prog X :=
         match ls with
         | [] => padded nl (k Fine)
         | l :: ls =>
             let line := Put l (fun r => match r with Fine => go (ends_newline l) ls | _ => padded (ends_newline l) (k r) end) in
             if nl then Put (txt "    ") (fun r => match r with Fine => line | _ => padded nl (k r) end) else line
         end) nl ls) evs x ->
      exists evs', outcome (Put t k) evs' x /\ (last_res evs' <> Fine -> last_res (e ++ evs) = last_res evs')) by (intros O; exact (G (lines t) [] nl evs O)).
    clear nl evs. induction ls as [|l ls IHl]; intros e nl evs O.
    - apply (End Fine e nl evs O). congruence.
    - assert (Line : forall e evs, outcome (Put l (fun r => match r with Fine => (fix go (nl : bool) (ls : list text) : prog X :=
         match ls with
         | [] => padded nl (k Fine)
         | l :: ls =>
             let line := Put l (fun r => match r with Fine => go (ends_newline l) ls | _ => padded (ends_newline l) (k r) end) in
             if nl then Put (txt "    ") (fun r => match r with Fine => line | _ => padded nl (k r) end) else line
         end) (ends_newline l) ls | _ => padded (ends_newline l) (k r) end)) evs x ->
        exists evs', outcome (Put t k) evs' x /\ (last_res evs' <> Fine -> last_res (e ++ evs) = last_res evs')).
      { clear e evs O. intros e evs O. inversion O as [|? ? r evs0 ? O']; subst. replace (e ++ (l, r) :: evs0) with ((e ++ [(l, r)]) ++ evs0) by (rewrite <- app_assoc; reflexivity).
        destruct r; [exact (IHl _ _ _ O')| |]; (eapply End; [exact O'|]; intros _; rewrite last_res_app by discriminate; reflexivity). }
      destruct nl; [|exact (Line e evs O)]. inversion O as [|? ? r evs0 ? O']; subst. match goal with |- context[e ++ ?h :: evs0] => change (e ++ h :: evs0) with (e ++ [h] ++ evs0); rewrite (app_assoc e [h] evs0) end.
      destruct r; [exact (Line _ _ O')| |]; (eapply End; [exact O'|]; intros _; rewrite last_res_app by discriminate; reflexivity).
  Qed.
  Lemma T_in_pad a l : T a l -> T (in_pad a) l.
  Proof.
    intros H u evs x O. destruct (outcome_padded _ _ _ _ O) as (evs' & O' & L). destruct (H _ _ _ O') as (made & E & It). exists made. split; [exact E|].
    destruct (snd x) eqn:Er; [exact It| |]; (destruct It as (l1 & rest & [A|(A & B & D)]); exists l1, rest; [left; exact A|right; split; [exact A|split; [exact B|]]];
      apply last_res_end in D; [|discriminate]; apply last_res_end; [discriminate|]; rewrite L; [exact D|rewrite D; discriminate]).
  Qed.
  Lemma T_all_c l ds due : Forall2 T l ds -> concat ds = due -> T (all l) due.
  Proof. intros H <-. apply T_all, H. Qed.
  Lemma T_pretty_item a l : T a l -> T (pretty_item a) l.
  Proof. intros H. apply T_in_pad. eapply T_all_c; [constructor; [exact H|constructor; [apply T_say|constructor]]|]. cbn. rewrite app_nil_r. reflexivity. Qed.
  Lemma T_field name a l : T a l -> T (field name a) l.
  Proof. intros H. eapply T_all_c; [constructor; [apply T_say|]; constructor; [apply T_say|]; constructor; [exact H|constructor]|]. cbn. rewrite app_nil_r. reflexivity. Qed.
  Lemma T_pretty_items l ds : Forall2 T l ds -> Forall2 T (map pretty_item l) ds.
  Proof. induction 1; cbn [map]; constructor; [apply T_pretty_item|]; assumption. Qed.
  Lemma plain_items_T f l ds cl : Forall2 T l ds -> exists x, Forall2 T (plain_items f l ++ [say cl]) x /\ concat x = concat ds.
  Proof.
    intros H. revert f. induction H as [|a d l ds Ha H IH]; intros f.
    - exists [[]]. split; [constructor; [apply T_say|constructor]|reflexivity].
    - destruct (IH (txt ", ")) as (x & Hx & Ex). exists ([] :: d :: x). split; [cbn [plain_items app]; constructor; [apply T_say|constructor; [exact Ha|exact Hx]]|].
      cbn [concat app]. rewrite Ex. reflexivity.
  Qed.
  Lemma T_struct alt name l ds due : Forall2 T l ds -> concat ds = due -> T (struct_fmt alt name l) due.
  Proof.
    intros H <-. unfold struct_fmt. destruct alt.
    - eapply T_all_c; [constructor; [apply T_say|]; constructor; [apply T_say|]; apply Forall2_app; [apply T_pretty_items, H|constructor; [apply T_say|constructor]]|].
      cbn [concat app]. rewrite concat_app. cbn. rewrite app_nil_r. reflexivity.
    - destruct (plain_items_T (txt " { ") l ds (txt " }") H) as (x & Hx & Ex). eapply T_all_c; [constructor; [apply T_say|exact Hx]|]. cbn [concat app]. exact Ex.
  Qed.
  Lemma T_group alt op cl l ds : Forall2 T l ds -> T (group_fmt alt op cl l) (concat ds).
  Proof.
    intros H. unfold group_fmt. destruct H as [|a d l ds Ha H].
    - eapply T_all_c; [repeat (constructor; [apply T_say|]); constructor|]. reflexivity.
    - destruct alt.
      + eapply T_all_c; [constructor; [apply T_say|]; constructor; [apply T_say|]; apply Forall2_app; [apply (T_pretty_items (a :: l) (d :: ds)); constructor; assumption|constructor; [apply T_say|constructor]]|].
        cbn [concat app]. rewrite concat_app. cbn. rewrite app_nil_r. reflexivity.
      + destruct (plain_items_T (txt ", ") l ds [cl] H) as (x & Hx & Ex). eapply T_all_c; [constructor; [apply T_say|constructor; [exact Ha|exact Hx]]|].
        cbn [concat app]. rewrite Ex. reflexivity.
  Qed.
  Lemma T_map {A} (f : A -> action N) (c : A -> list C) (l : list A) : (forall a, T (f a) (c a)) -> Forall2 T (map f l) (map c l).
  Proof. intros H. induction l; cbn [map]; constructor; [apply H|assumption]. Qed.
  Lemma T_noting {A} (c : A -> C) (f : fmt U A) alt a : T (noting c f alt a) [c a].
  Proof.
    intros [u log] evs x O. unfold noting in O. destruct (outcome_bind _ _ _ _ O) as (e1 & [u1 r1] & e2 & -> & O1 & O2). cbn [fst snd] in *. inversion O2; subst. exists [(c a, r1)]. split; [reflexivity|].
    cbn. destruct r1; [reflexivity| |]; (exists [], []; left; exists (c a); split; reflexivity).
  Qed.
  (** [asks f c]: for a value [a] it calls the impls of users as listed in [c a]. *)
  Definition asks {A} (f : fmt N A) (c : A -> list C) : Prop := forall alt a, T (f alt a) (c a).
  Lemma asks_noting {A} (c : A -> C) (f : fmt U A) : asks (noting c f) (fun a => [c a]).
  Proof. intros alt a. apply T_noting. Qed.
  Lemma asks_unit : asks unit_fmt (fun _ => []).
  Proof. intros alt a. apply T_say. Qed.
  Lemma T_phantom tn : T (phantom_fmt tn) [].
  Proof. eapply T_all_c; [repeat (constructor; [apply T_say|]); constructor|]. reflexivity. Qed.
  Lemma asks_list {A} (f : fmt N A) c : asks f c -> asks (list_fmt f) (flat_map c).
  Proof. intros H alt l. rewrite flat_map_concat_map. apply T_group, T_map. intros a. apply H. Qed.
  Lemma asks_set {A} (f : fmt N A) c : asks f c -> asks (set_fmt f) (flat_map c).
  Proof. intros H alt l. rewrite flat_map_concat_map. apply T_group, T_map. intros a. apply H. Qed.
  Lemma asks_map {A B} (f : fmt N A) c (g : fmt N B) d : asks f c -> asks g d -> asks (map_fmt f g) (flat_map (fun e => c (fst e) ++ d (snd e))).
  Proof.
    intros H H' alt l. rewrite flat_map_concat_map. apply T_group, T_map. intros [a b]. unfold entry_fmt. eapply T_all_c; [constructor; [apply H|]; constructor; [apply T_say|]; constructor; [apply H'|constructor]|].
    cbn. rewrite app_nil_r. reflexivity.
  Qed.
  Ltac fields := repeat (first [apply Forall2_nil | apply Forall2_cons; [apply T_field|]]).
  Lemma asks_interval {I} (f : fmt N I) c : asks f c -> asks (interval_fmt f) (fun i => c (ivl_start i) ++ c (ivl_end i)).
  Proof. intros H alt i. eapply T_struct; [fields; apply H|]. cbn. rewrite app_nil_r. reflexivity. Qed.
  Lemma asks_option {A} (f : fmt N A) c : asks f c -> asks (option_fmt f) (fun o => match o with Some a => c a | None => [] end).
  Proof.
    intros H alt [a|]; [|apply T_say]. unfold option_fmt. destruct alt.
    - eapply T_all_c; [constructor; [apply T_say|]; constructor; [apply T_say|]; constructor; [apply T_pretty_item, H|]; constructor; [apply T_say|constructor]|]. cbn. rewrite app_nil_r. reflexivity.
    - eapply T_all_c; [constructor; [apply T_say|]; constructor; [apply T_say|]; constructor; [apply H|]; constructor; [apply T_say|constructor]|]. cbn. rewrite app_nil_r. reflexivity.
  Qed.
  Lemma asks_nodit {K V} tn (f : fmt N K) c (g : fmt N V) d : asks f c -> asks g d -> asks (nodit_fmt tn f g) (flat_map (fun e => c (fst e) ++ d (snd e))).
  Proof. intros H H' alt m. eapply T_struct; [fields; [apply asks_map; [exact H|exact H']|apply T_phantom]|]. cbn. rewrite app_nil_r. reflexivity. Qed.
  Lemma asks_nodit_set {K} tn (f : fmt N K) c : asks f c -> asks (nodit_set_fmt tn f) (flat_map (fun e => c (fst e) ++ [])).
  Proof. intros H alt m. eapply T_struct; [fields; apply asks_nodit; [exact H|exact asks_unit]|]. cbn. rewrite app_nil_r. reflexivity. Qed.
  Lemma asks_gqdit {K D} tn (f : fmt N K) c (g : fmt N D) d : asks f c -> asks g d -> asks (gqdit_fmt tn f g) (flat_map (fun e => c (fst e) ++ flat_map d (snd e))).
  Proof. intros H H' alt m. eapply T_struct; [fields; apply asks_nodit; [exact H|apply asks_set, H']|]. cbn. rewrite app_nil_r. reflexivity. Qed.
  Lemma asks_zosdit {K V} tn (f : fmt N K) c (g : fmt N V) d : asks f c -> asks g d -> asks (zosdit_fmt tn f g) (fun z => flat_map (fun e => c (fst e) ++ flat_map d (snd e)) (z_inner z)).
  Proof. intros H H' alt m. eapply T_struct; [fields; [apply T_say|apply asks_map; [exact H|apply asks_list, H']|apply T_phantom]|]. cbn. rewrite app_nil_r. reflexivity. Qed.
  Lemma asks_overlap_error {V} (f : fmt N V) c : asks f c -> asks (overlap_error_fmt f) c.
  Proof. intros H alt v. eapply T_struct; [fields; apply H|]. cbn. rewrite app_nil_r. reflexivity. Qed.
  Lemma asks_non_zero_overlap_error {V} (f : fmt N V) c : asks f c -> asks (non_zero_overlap_error_fmt f) c.
  Proof. intros H alt v. eapply T_struct; [fields; apply H|]. cbn. rewrite app_nil_r. reflexivity. Qed.
End Turns.

(** ** Noting changes nothing else *)
Section Sims.
  Context {U C : Type}.
  Notation N := (U * list (C * res))%type.
  Inductive psim : prog (U * res) -> prog (N * res) -> Prop :=
  | psim_stop u log r : psim (Stop (u, r)) (Stop ((u, log), r))
  | psim_put t k k' : (forall r, psim (k r) (k' r)) -> psim (Put t k) (Put t k').
  Definition SM (a : action U) (b : action N) : Prop := forall u log, psim (a u) (b (u, log)).

  Lemma S_outcome a b : SM a b -> forall u log evs u' r, outcome (a u) evs (u', r) <-> exists log', outcome (b (u, log)) evs ((u', log'), r).
  Proof.
    intros H u log. specialize (H u log). revert H. generalize (a u) (b (u, log)). intros p q H. induction H as [u0 l0 r0|t k k' H IH]; intros evs u' r; split.
    - intros O. inversion O; subst. exists l0. constructor.
    - intros (l & O). inversion O; subst. constructor.
    - intros O. inversion O as [|? ? r1 evs1 ? O']; subst. apply IH in O'. destruct O' as (l & O'). exists l. constructor. exact O'.
    - intros (l & O). inversion O as [|? ? r1 evs1 ? O']; subst. constructor. apply IH. exists l. exact O'.
  Qed.
  Lemma S_say t : SM (say t) (say t).
  Proof. intros u log. constructor. intros r. constructor. Qed.
  Lemma S_ok : SM ok ok.
  Proof. intros u log. constructor. Qed.
  Lemma S_andthen a a' b b' : SM a a' -> SM b b' -> SM (andthen a b) (andthen a' b').
  Proof.
    intros Ha Hb u log. unfold andthen. specialize (Ha u log). revert Ha. generalize (a u) (a' (u, log)). intros p q H. induction H as [u0 l0 r0|t k k' H IH]; cbn [bind fst snd].
    - destruct r0; [apply Hb|constructor|constructor].
    - constructor. exact IH.
  Qed.
  Lemma S_all l l' : Forall2 SM l l' -> SM (all l) (all l').
  Proof. induction 1; cbn [all]; [apply S_ok|]. apply S_andthen; assumption. Qed.
  Lemma psim_padded p q : psim p q -> forall nl, psim (padded nl p) (padded nl q).
  Proof.
    induction 1 as [u0 l0 r0|t k k' H IH]; intros nl; [constructor|]. cbn [padded]. revert nl. induction (lines t) as [|l ls IHl]; intros nl; [apply IH|]. cbv zeta.
    destruct nl; constructor; intros r; destruct r; try apply IH; try apply IHl. constructor. intros r; destruct r; try apply IH; try apply IHl.
  Qed.
  Lemma S_pretty_item a a' : SM a a' -> SM (pretty_item a) (pretty_item a').
  Proof. intros H u log. apply psim_padded. generalize u log. fold (SM (all [a; say (txt "," ++ [newline])]) (all [a'; say (txt "," ++ [newline])])). apply S_all. repeat constructor; exact H. Qed.
  Lemma S_field name a a' : SM a a' -> SM (field name a) (field name a').
  Proof. intros H. apply S_all. repeat (apply Forall2_cons; [first [apply S_say|exact H]|]). constructor. Qed.
  Lemma S_pretty_items l l' : Forall2 SM l l' -> Forall2 SM (map pretty_item l) (map pretty_item l').
  Proof. induction 1; cbn [map]; constructor; [apply S_pretty_item|]; assumption. Qed.
  Lemma S_plain_items f l l' : Forall2 SM l l' -> Forall2 SM (plain_items f l) (plain_items f l').
  Proof. intros H. revert f. induction H; intros f; cbn [plain_items]; [constructor|]. apply Forall2_cons; [apply S_say|]. apply Forall2_cons; [assumption|]. auto. Qed.
  Lemma S_one t : Forall2 SM [say t] [say t].
  Proof. constructor; [apply S_say|constructor]. Qed.
  Lemma S_struct alt name l l' : Forall2 SM l l' -> SM (struct_fmt alt name l) (struct_fmt alt name l').
  Proof.
    intros H. apply S_all. apply Forall2_cons; [apply S_say|]. destruct alt.
    - apply Forall2_cons; [apply S_say|]. apply Forall2_app; [apply S_pretty_items, H|apply S_one].
    - apply Forall2_app; [apply S_plain_items, H|apply S_one].
  Qed.
  Lemma S_group alt op cl l l' : Forall2 SM l l' -> SM (group_fmt alt op cl l) (group_fmt alt op cl l').
  Proof.
    intros H. apply S_all. apply Forall2_cons; [apply S_say|]. destruct H as [|a a' l l' Ha H]; [apply S_one|]. destruct alt.
    - apply Forall2_cons; [apply S_say|]. apply Forall2_app; [apply (S_pretty_items (a :: l) (a' :: l')); constructor; assumption|apply S_one].
    - apply Forall2_cons; [exact Ha|]. apply Forall2_app; [apply S_plain_items, H|apply S_one].
  Qed.
  Lemma S_map {A} (f : A -> action U) (g : A -> action N) l : (forall a, SM (f a) (g a)) -> Forall2 SM (map f l) (map g l).
  Proof. intros H. induction l; cbn [map]; constructor; [apply H|assumption]. Qed.
  Definition same {A} (f : fmt U A) (g : fmt N A) : Prop := forall alt a, SM (f alt a) (g alt a).
  Lemma same_noting {A} (c : A -> C) (f : fmt U A) : same f (noting c f).
  Proof.
    intros alt a u log. unfold noting. cbn [fst snd]. generalize (f alt a u). intros p. induction p as [[u0 r0]|t k IH]; cbn [bind fst snd]; constructor. exact IH.
  Qed.
  Lemma same_unit : same unit_fmt unit_fmt.
  Proof. intros alt a. apply S_say. Qed.
  Lemma S_phantom tn : SM (phantom_fmt tn) (phantom_fmt tn).
  Proof. apply S_all. repeat (apply Forall2_cons; [apply S_say|]). constructor. Qed.
  Lemma same_list {A} (f : fmt U A) g : same f g -> same (list_fmt f) (list_fmt g).
  Proof. intros H alt l. apply S_group, S_map. intros a. apply H. Qed.
  Lemma same_set {A} (f : fmt U A) g : same f g -> same (set_fmt f) (set_fmt g).
  Proof. intros H alt l. apply S_group, S_map. intros a. apply H. Qed.
  Lemma same_map {A B} (f : fmt U A) g (f' : fmt U B) g' : same f g -> same f' g' -> same (map_fmt f f') (map_fmt g g').
  Proof. intros H H' alt l. apply S_group, S_map. intros a. apply S_all. apply Forall2_cons; [apply H|]. apply Forall2_cons; [apply S_say|]. apply Forall2_cons; [apply H'|]. constructor. Qed.
  Ltac fields := repeat (first [apply Forall2_nil | apply Forall2_cons; [apply S_field|]]).
  Lemma same_interval {I} (f : fmt U I) g : same f g -> same (interval_fmt f) (interval_fmt g).
  Proof. intros H alt i. apply S_struct. fields; apply H. Qed.
  Lemma same_nodit {K V} tn (f : fmt U K) g (f' : fmt U V) g' : same f g -> same f' g' -> same (nodit_fmt tn f f') (nodit_fmt tn g g').
  Proof. intros H H' alt m. apply S_struct. fields; [apply same_map; assumption|apply S_phantom]. Qed.
  Lemma same_nodit_set {K} tn (f : fmt U K) g : same f g -> same (nodit_set_fmt tn f) (nodit_set_fmt tn g).
  Proof. intros H alt m. apply S_struct. fields. apply same_nodit; [exact H|exact same_unit]. Qed.
  Lemma same_gqdit {K D} tn (f : fmt U K) g (f' : fmt U D) g' : same f g -> same f' g' -> same (gqdit_fmt tn f f') (gqdit_fmt tn g g').
  Proof. intros H H' alt m. apply S_struct. fields. apply same_nodit; [exact H|apply same_set, H']. Qed.
  Lemma same_zosdit {K V} tn (f : fmt U K) g (f' : fmt U V) g' : same f g -> same f' g' -> same (zosdit_fmt tn f f') (zosdit_fmt tn g g').
  Proof. intros H H' alt m. apply S_struct. fields; [apply S_say|apply same_map; [exact H|apply same_list, H']|apply S_phantom]. Qed.
  Lemma same_overlap_error {V} (f : fmt U V) g : same f g -> same (overlap_error_fmt f) (overlap_error_fmt g) /\ same (non_zero_overlap_error_fmt f) (non_zero_overlap_error_fmt g).
  Proof. intros H. split; intros alt i; apply S_struct; fields; apply H. Qed.

  (** Together, in terms of outcomes. *)
  Lemma turns_of {A} (f : fmt U A) (g : fmt N A) (c : A -> list C) : same f g -> asks g c ->
    forall alt a u evs u' r, outcome (f alt a u) evs (u', r) ->
      exists made, outcome (g alt a (u, [])) evs ((u', made), r) /\ in_turn (c a) evs made r.
  Proof.
    intros Hs Ha alt a u evs u' r O. apply (S_outcome _ _ (Hs alt a) u []) in O. destruct O as (made & O). exists made. split; [exact O|].
    destruct (Ha alt a (u, []) evs _ O) as (made' & E & It). cbn [fst snd app] in *. subst made'. exact It.
  Qed.
End Sims.
