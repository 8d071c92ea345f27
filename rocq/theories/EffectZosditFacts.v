(** * EffectZosditFacts: facts behind C158 for user code of any kind. *)
From Coq Require Import List Bool Arith Permutation Lia.
From Verif Require Import Base BTree UtilsModel IntervalModel NoditModel ZosditModel Spec TreeShape TreeFacts ZosditFacts EffectModel EffectOps EffectFacts EffectZosditModel EffectZosditOps.
Import ListNotations.

Section Any.
  Context {W I K V : Type} `{DiscreteFinite I} (P : point_code W I) (ik : interval_code W I K) (C : entry_code W I K V).
  Implicit Types (t : tree K (list V)) (l : BTreeMap K (list V)).
  Notation count l := (length (flatten l)).

  Lemma zbind_inv {A B} z (x : user W A) (f : A -> zchanging B) w z' o w' : zbind (V := V) (K := K) z x f w = ((z', o), w') ->
    (z' = z /\ o = Panic /\ x w = (Panic, w')) \/ exists a w1, x w = (Val a, w1) /\ f a w1 = ((z', o), w').
  Proof. unfold zbind. destruct (x w) as [[a|] w1]; [eauto|]. intros X. injection X as <- <- <-. auto. Qed.
  Lemma zbind_ext {A B} z (x : user W A) (f g : A -> zchanging B) w : (forall a w, f a w = g a w) -> zbind (V := V) (K := K) z x f w = zbind z x g w.
  Proof. intros X. unfold zbind. destruct (x w) as [[a|] w1]; [apply X|reflexivity]. Qed.
  Lemma count_app l l' : count (l ++ l') = count l + count l'.
  Proof. rewrite flatten_app, app_length. reflexivity. Qed.
  Lemma count_cons k vs l : count ((k, vs) :: l) = length vs + count l.
  Proof. rewrite flatten_cons, app_length, map_length. reflexivity. Qed.
  Lemma values_app l l' : map snd (flatten (l ++ l')) = map snd (flatten l) ++ map snd (flatten l').
  Proof. rewrite flatten_app, map_app. reflexivity. Qed.
  Lemma values_cons k vs l : map snd (flatten ((k, vs) :: l)) = vs ++ map snd (flatten l).
  Proof. rewrite flatten_cons, map_app, map_map. cbn. rewrite map_id. reflexivity. Qed.
  Lemma values_concat l : map snd (flatten l) = concat (map snd l).
  Proof. induction l as [|[k vs] l IH]; [reflexivity|]. rewrite values_cons, IH. reflexivity. Qed.

  Lemma move_next_split (c : cursor K (list V)) : fst (move_next c) ++ snd (move_next c) = fst c ++ snd c.
  Proof. destruct c as [pre [|e post]]; cbn; [rewrite app_nil_r; reflexivity|]. rewrite <- app_assoc. reflexivity. Qed.
  Lemma move_prev_split (c : cursor K (list V)) : fst (move_prev c) ++ snd (move_prev c) = fst c ++ snd c.
  Proof.
    destruct c as [pre post]. unfold move_prev. cbn [fst snd]. destruct (rev pre) as [|e r] eqn:E; apply (f_equal (@rev _)) in E; rewrite rev_involutive in E; subst; cbn [fst snd rev].
    - cbn. apply app_nil_r.
    - rewrite <- app_assoc. reflexivity.
  Qed.
  Lemma e_upper_split (comp : K -> user W comparison) t w c w' : e_upper comp t w = (Val c, w') -> entries t = fst c ++ snd c.
  Proof.
    intros E. apply ubind_inv in E. destruct E as ([[a x] b] & w1 & E & E'). apply (proj1 (e_search_place comp)) in E. rewrite E.
    destruct x as [e|]; injection E' as <- <-; [reflexivity|]. rewrite move_prev_split. reflexivity.
  Qed.
  Lemma last_value_cursor_split t p w c w' : last_value_cursor_e P ik t p w = (Val c, w') -> entries t = fst c ++ snd c.
  Proof.
    intros E. apply ubind_inv in E. destruct E as (c0 & w1 & E & E'). apply e_lower_split in E. injection E' as <- <-.
    destruct (cursor_key c0); [exact E|]. rewrite move_prev_split. exact E.
  Qed.

  (** ** One call *)
  Lemma zinsert_any k v n t w z' o w' : insert_strict_back_e P ik k v n t w = ((z', o), w') ->
    match o with
    | Val (Ok _) => z_len z' = n + 1 /\ zput k v (entries t) (z_inner z')
    | Val (Err u) => u = v /\ z' = mkZosdit n (entries t)
    | Panic => z' = mkZosdit n (entries t)
    end.
  Proof.
    intros E. apply zbind_inv in E. destruct E as [(-> & -> & _)|([] & w0 & _ & E)]; [reflexivity|].
    apply zbind_inv in E. destruct E as [(-> & -> & _)|(d & w1 & _ & E)]; [reflexivity|].
    destruct d; cbn [negb] in E; [|injection E as <- <- <-; auto].
    apply zbind_inv in E. destruct E as [(-> & -> & _)|([[a x] b] & w2 & X & E)]; [reflexivity|].
    injection E as <- <- <-. split; [reflexivity|]. cbn [z_inner]. apply (proj1 (e_search_place _)) in X. rewrite X. exists a, b.
    destruct x as [[k' vs]|]; cbn [olist]; [right; exists k', vs|left]; split; reflexivity.
  Qed.
  Lemma vec_pop_inv (vs : list V) v rest : vec_pop vs = Some (v, rest) -> vs = rest ++ [v].
  Proof.
    unfold vec_pop. destruct (rev vs) as [|x r] eqn:X; [discriminate|]. intros Y. injection Y as <- <-. apply (f_equal (@rev _)) in X. rewrite rev_involutive in X. exact X.
  Qed.
  Lemma zremove_any (kc : K -> I -> user W bool) p n t w z' o w' : remove_last_value_at_point_e P ik kc p n t w = ((z', o), w') ->
    match o with
    | Val (Some v) => z_len z' = n /\ ztaken v (entries t) (z_inner z')
    | _ => z' = mkZosdit n (entries t)
    end.
  Proof.
    intros E. apply zbind_inv in E. destruct E as [(-> & -> & _)|(c & w1 & X & E)]; [reflexivity|]. apply last_value_cursor_split in X.
    destruct (snd c) as [|[k vs] rest]; [injection E as <- <- <-; reflexivity|].
    apply zbind_inv in E. destruct E as [(-> & -> & _)|(b & w2 & _ & E)]; [reflexivity|].
    destruct b; [|injection E as <- <- <-; reflexivity]. destruct (vec_pop vs) as [[v vs']|] eqn:Pop; [|injection E as <- <- <-; reflexivity].
    apply vec_pop_inv in Pop. subst vs.
    assert (Z : o = Val (Some v) /\ z' = mkZosdit n (fst c ++ match vs' with [] => rest | _ => (k, vs') :: rest end)) by (destruct vs'; injection E as <- <- <-; auto).
    destruct Z as [-> ->]. split; [reflexivity|]. exists (fst c), k, vs', rest. split; [exact X|reflexivity].
  Qed.
  Definition full l : Prop := Forall (fun e : K * list V => snd e <> []) l.
  Lemma calm_bind {A B} (x : user W A) (f : A -> user W B) : calm x -> (forall a, calm (f a)) -> calm (ubind x f).
  Proof. intros X F w. unfold ubind. specialize (X w). destruct (x w) as [[a|] w1]; [apply F|cbn in X; congruence]. Qed.
  Lemma calm_ret {A} (a : A) : calm (@uret W A a).
  Proof. intros w. discriminate. Qed.
  Lemma calm_search (comp : K -> user W comparison) : (forall k, calm (comp k)) ->
    (forall t, calm (e_search comp t)) /\ (forall (n : edges K (list V)), calm (e_search_node comp n)).
  Proof.
    intros Ca. apply tree_mutind.
    - apply calm_ret.
    - intros n IH. exact IH.
    - intros t IH. exact IH.
    - intros t IHt kv n IHn. cbn [e_search_node]. apply calm_bind; [apply Ca|]. intros c. destruct c; [apply calm_ret| |]; (apply calm_bind; [assumption|]); intros [[? ?] ?]; apply calm_ret.
  Qed.
  Lemma calm_exclusive p x : calm_points P -> calm_bounds ik -> forall k, calm (exclusive_comp_e P ik p x k).
  Proof.
    intros CP CI k. destruct (CI k) as [S E]. unfold exclusive_comp_e. apply calm_bind; [exact S|]. intros s. apply calm_bind; [apply CP|]. intros a.
    apply calm_bind; [destruct a; [apply calm_bind; [exact E|]; intros e; apply CP|apply calm_ret]|]. intros b. destruct b; [apply calm_ret|].
    apply calm_bind; [exact S|]. intros s'. apply calm_bind; [apply CP|]. intros d. destruct d; [apply calm_ret|]. apply calm_bind; [exact E|]. intros e. apply calm_bind; [apply CP|]. intros ?. apply calm_ret.
  Qed.
  Lemma zremove_calm (kc : K -> I -> user W bool) p n t : calm_points P -> calm_bounds ik -> (forall k x, calm (kc k x)) -> full (entries t) ->
    forall w, snd (fst (remove_last_value_at_point_e P ik kc p n t w)) <> Panic.
  Proof.
    intros CP CI CK F w. destruct (remove_last_value_at_point_e P ik kc p n t w) as [[z' o] w'] eqn:E. cbn. intros ->.
    assert (CC : calm (last_value_cursor_e P ik t p)).
    { apply calm_bind; [|intros; apply calm_ret]. apply calm_bind; [apply (calm_search _ (calm_exclusive p Gt CP CI))|]. intros [[? [?|]] ?]; apply calm_ret. }
    apply zbind_inv in E. destruct E as [(_ & _ & X)|(c & w1 & X & E)]; [apply (CC w); rewrite X; reflexivity|]. apply last_value_cursor_split in X.
    destruct (snd c) as [|[k vs] rest]; [discriminate|].
    apply zbind_inv in E. destruct E as [(_ & _ & Y)|(b & w2 & _ & E)]; [apply (CK k p w1); rewrite Y; reflexivity|].
    destruct b; [|discriminate]. assert (N : vs <> []). { unfold full in F. rewrite X, Forall_app in F. destruct F as [_ F]. inversion F; subst. assumption. }
    unfold vec_pop in E. destruct (rev vs) as [|x r] eqn:L; [|destruct (rev r); discriminate].
    apply N. apply (f_equal (@rev _)) in L. rewrite rev_involutive in L. exact L.
  Qed.

  (** ** [cut] *)
  Lemma clone_all_any vs : forall w us w', clone_all C vs w = (Val us, w') -> Forall2 (clone_of C) vs us.
  Proof.
    induction vs as [|v vs IH]; intros w us w' E; cbn [clone_all] in E; [injection E as <- <-; constructor|].
    apply ubind_inv in E. destruct E as (v' & w1 & X & E). apply ubind_inv in E. destruct E as (vs' & w2 & Y & E). injection E as <- <-.
    constructor; [exists w, w1; exact X|exact (IH _ _ _ Y)].
  Qed.
  Lemma z_piece_any i vs w e w' : z_piece_e C i vs w = (Val e, w') -> Forall2 (clone_of C) vs (snd e).
  Proof. intros E. apply ubind_inv in E. destruct E as (k & w1 & _ & E). apply ubind_inv in E. destruct E as (us & w2 & X & E). injection E as <- <-. exact (clone_all_any _ _ _ _ X). Qed.
  Lemma give_out_any inside vs : forall w out w', give_out C inside vs w = (Val out, w') -> map snd out = vs.
  Proof.
    induction vs as [|v vs IH]; intros w out w' E; cbn [give_out] in E; [injection E as <- <-; reflexivity|].
    apply ubind_inv in E. destruct E as (i & w1 & _ & E). apply ubind_inv in E. destruct E as (k & w2 & _ & E).
    apply ubind_inv in E. destruct E as (r & w3 & X & E). injection E as <- <-. cbn. f_equal. exact (IH _ _ _ X).
  Qed.
  Lemma clones_length (vs us : list V) : Forall2 (clone_of C) vs us -> length us = length vs.
  Proof. intros F. induction F; cbn; congruence. Qed.
  Notation piece_ok vs := (fun x : K * list V => Forall2 (clone_of C) vs (snd x)).
  Notation pieces_ok := (Forall2 (fun (e : K * list V) p => length p <= 2 /\ Forall (piece_ok (snd e)) p)).

  Section Q.
    Context {Q : Type} (iq : interval_code W I Q) (k_overlaps : K -> Q -> user W bool).
    Lemma zcut_loop_any below q post : forall n pre acc w z' o w', count (pre ++ post) <= n ->
      zosdit_cut_loop_e P ik C iq k_overlaps below q n pre post acc w = ((z', o), w') ->
      exists gone rest pieces, post = gone ++ rest /\ z_inner z' = pre ++ concat pieces ++ rest /\ pieces_ok gone pieces /\
        match o with
        | Val l => (exists r', l = acc ++ r' /\ map snd r' = concat (map snd gone)) /\ z_len z' + count gone = n + count (concat pieces)
        | Panic => n + count (concat pieces) <= z_len z' + count gone
        end.
    Proof.
      induction post as [|[k vs] rest IH]; intros n pre acc w z' o w' L E; cbn [zosdit_cut_loop_e] in E.
      - injection E as <- <- <-. exists [], [], []. repeat split; [constructor|]. exists []. rewrite app_nil_r. auto.
      - apply zbind_inv in E. destruct E as [(-> & -> & _)|([|] & w1 & _ & E)].
        + exists [], ((k, vs) :: rest), []. repeat split; [constructor|cbn; lia].
        + rewrite count_app, count_cons in L.
          assert (Stop : forall p, length p <= 2 -> Forall (piece_ok vs) p -> z_inner z' = pre ++ p ++ rest -> n + count p <= z_len z' + length vs -> o = Panic ->
            exists gone rest' pieces, (k, vs) :: rest = gone ++ rest' /\ z_inner z' = pre ++ concat pieces ++ rest' /\ pieces_ok gone pieces /\
            match o with
            | Val l => (exists r', l = acc ++ r' /\ map snd r' = concat (map snd gone)) /\ z_len z' + count gone = n + count (concat pieces)
            | Panic => n + count (concat pieces) <= z_len z' + count gone
            end).
          { intros p Lp F Z Zn ->. exists [(k, vs)], rest, [p]. cbn [concat app]. rewrite app_nil_r. split; [reflexivity|]. split; [exact Z|].
            split; [constructor; [split; assumption|constructor]|]. rewrite count_cons. cbn. lia. }
          apply zbind_inv in E. destruct E as [(-> & -> & _)|(r & w2 & _ & E)]; [apply (Stop []); try reflexivity; [cbn; lia|constructor|cbn; lia]|].
          assert (B : exists before w3, length before <= 1 /\ Forall (piece_ok vs) before /\
            ((z_inner z' = pre ++ rest /\ z_len z' = n /\ o = Panic) \/
             z_after C (after_cut r) vs (n + count before) (pre ++ before) rest (fun n pre =>
               zbind (mkZosdit n (pre ++ rest)) (uout (subtract below n (length vs))) (fun n =>
               zbind (mkZosdit n (pre ++ rest)) (give_out C (inside_cut r) vs) (fun u =>
               zosdit_cut_loop_e P ik C iq k_overlaps below q n pre rest (acc ++ u)))) w3 = ((z', o), w'))).
          { unfold z_before in E. destruct (before_cut r) as [i|].
            - apply zbind_inv in E. destruct E as [(-> & -> & _)|(e & w3 & X & E)]; [exists [], w; repeat split; [cbn; lia|constructor|auto]|].
              apply z_piece_any in X. exists [e], w3. repeat split; [cbn; lia|constructor; [exact X|constructor]|]. right.
              destruct e as [k' us]. cbn [snd] in X. rewrite count_cons, (clones_length _ _ X), Nat.add_0_r. exact E.
            - exists [], w2. repeat split; [cbn; lia|constructor|]. right. cbn. rewrite Nat.add_0_r, app_nil_r. exact E. }
          clear E. destruct B as (before & w3 & L1 & F1 & [(Z & Zn & ->)|E]); [apply (Stop []); solve [constructor|assumption|reflexivity|cbn; lia]|].
          assert (A : exists after w4, length after <= 1 /\ Forall (piece_ok vs) after /\
            ((z_inner z' = pre ++ before ++ rest /\ n + count before <= z_len z' /\ o = Panic) \/
             zbind (mkZosdit (n + count before + count after) ((pre ++ before ++ after) ++ rest)) (uout (subtract below (n + count before + count after) (length vs))) (fun n =>
               zbind (mkZosdit n ((pre ++ before ++ after) ++ rest)) (give_out C (inside_cut r) vs) (fun u =>
               zosdit_cut_loop_e P ik C iq k_overlaps below q n (pre ++ before ++ after) rest (acc ++ u))) w4 = ((z', o), w'))).
          { unfold z_after in E. destruct (after_cut r) as [i|].
            - apply zbind_inv in E. destruct E as [(-> & -> & _)|(e & w4 & X & E)].
              + exists [], w. repeat split; [cbn; lia|constructor|]. left. cbn. rewrite <- app_assoc. repeat split. lia.
              + apply z_piece_any in X. exists [e], w4. repeat split; [cbn; lia|constructor; [exact X|constructor]|]. right.
                destruct e as [k' us]. cbn [snd] in X. rewrite count_cons, (clones_length _ _ X), Nat.add_0_r, (app_assoc pre). exact E.
            - exists [], w3. repeat split; [cbn; lia|constructor|]. right. cbn. rewrite Nat.add_0_r, app_nil_r. exact E. }
          clear E. destruct A as (after & w4 & L2 & F2 & [(Z & Zn & ->)|E]); [apply (Stop before); trivial; lia|].
          assert (F : Forall (piece_ok vs) (before ++ after)) by (apply Forall_app; auto).
          assert (L12 : length (before ++ after) <= 2) by (rewrite app_length; lia).
          apply zbind_inv in E. destruct E as [(-> & -> & X)|(n' & w5 & X & E)].
          { unfold uout, subtract in X. destruct (Nat.ltb_spec (n + count before + count after) (length vs)); [lia|discriminate]. }
          assert (Hn : n' + length vs = n + count before + count after).
          { unfold uout, subtract in X. destruct (Nat.ltb_spec (n + count before + count after) (length vs)); [lia|]. injection X as <- <-. lia. }
          apply zbind_inv in E. destruct E as [(-> & -> & _)|(out & w6 & G & E)].
          { apply (Stop _ L12 F); [cbn [z_inner]; rewrite <- app_assoc; reflexivity| |reflexivity]. cbn [z_len]. rewrite count_app. lia. }
          apply give_out_any in G.
          apply IH in E; [|rewrite !count_app; lia]. destruct E as (gone & rest' & pieces & -> & Z & Ok & Y).
          exists ((k, vs) :: gone), rest', ((before ++ after) :: pieces).
          split; [reflexivity|]. split; [rewrite Z; cbn [concat]; rewrite <- !app_assoc; reflexivity|]. split; [constructor; [split; assumption|exact Ok]|].
          cbn [concat]. rewrite count_cons, !count_app. destruct o as [l|]; [|lia].
          destruct Y as [(l' & -> & Y) Y2]. split; [|lia]. exists (out ++ l'). split; [symmetry; apply app_assoc|]. rewrite map_app, G, Y. reflexivity.
        + injection E as <- <- <-. exists [], ((k, vs) :: rest), []. repeat split; [constructor|]. exists []. rewrite app_nil_r. auto.
    Qed.
    Lemma zcuts_nothing n l : zcuts_some C n l n l (@Panic (list (K * V))).
    Proof. exists l, [], [], []. cbn. rewrite app_nil_r. repeat split; [constructor|]. lia. Qed.
    Lemma cursor_moved (c : cursor K (list V)) l : l = fst c ++ snd c ->
      let c' := match cursor_key c with None => move_next c | Some _ => c end in l = fst c' ++ snd c'.
    Proof. intros ->. cbn zeta. destruct (cursor_key c); [reflexivity|]. symmetry. apply move_next_split. Qed.
    Lemma zcut_any below q n t w z' o w' : count (entries t) <= n -> zosdit_cut_e P ik C iq k_overlaps below q n t w = ((z', o), w') ->
      zcuts_some C n (entries t) (z_len z') (z_inner z') o.
    Proof.
      intros L E. do 2 (apply zbind_inv in E; destruct E as [(-> & -> & _)|(? & ? & _ & E)]; [apply zcuts_nothing|]).
      apply zbind_inv in E; destruct E as [(-> & -> & _)|(c & w1 & X & E)]; [apply zcuts_nothing|].
      apply e_upper_split in X. apply cursor_moved in X. cbn zeta in E, X.
      remember (match cursor_key c with None => move_next c | Some _ => c end) as c' eqn:Ec. clear Ec c. rewrite X in L. rewrite X. apply zcut_loop_any in E; [|exact L].
      destruct E as (gone & rest & pieces & -> & -> & Ok & Y). exists (fst c'), gone, pieces, rest. repeat split; [exact Ok|].
      destruct o as [l|]; [|exact Y]. destruct Y as [(l' & -> & Y) Y2]. split; [exact Y|exact Y2].
    Qed.
    (** Nothing is ever subtracted below zero. *)
    Lemma zcut_loop_below b1 b2 q post : forall n pre acc w, count post <= n ->
      zosdit_cut_loop_e P ik C iq k_overlaps b1 q n pre post acc w = zosdit_cut_loop_e P ik C iq k_overlaps b2 q n pre post acc w.
    Proof.
      induction post as [|[k vs] rest IH]; intros n pre acc w L; [reflexivity|]. cbn [zosdit_cut_loop_e]. rewrite count_cons in L.
      apply zbind_ext. intros b w1. destruct b; [|reflexivity]. apply zbind_ext. intros r w2.
      assert (Tail : forall n pre w, length vs + count rest <= n ->
        zbind (mkZosdit n (pre ++ rest)) (uout (subtract b1 n (length vs))) (fun n => zbind (mkZosdit n (pre ++ rest)) (give_out C (inside_cut r) vs) (fun u => zosdit_cut_loop_e P ik C iq k_overlaps b1 q n pre rest (acc ++ u))) w =
        zbind (mkZosdit n (pre ++ rest)) (uout (subtract b2 n (length vs))) (fun n => zbind (mkZosdit n (pre ++ rest)) (give_out C (inside_cut r) vs) (fun u => zosdit_cut_loop_e P ik C iq k_overlaps b2 q n pre rest (acc ++ u))) w).
      { clear - IH. intros n pre w L. unfold zbind, uout, subtract. destruct (Nat.ltb_spec n (length vs)); [lia|].
        destruct (give_out C (inside_cut r) vs w) as [[l|] w']; [|reflexivity]. apply IH. lia. }
      assert (After : forall n pre w, length vs + count rest <= n -> forall f g, (forall n pre w, length vs + count rest <= n -> f n pre w = g n pre w) ->
        z_after C (after_cut r) vs n pre rest f w = z_after C (after_cut r) vs n pre rest g w).
      { clear. intros n pre w L f g X. unfold z_after. destruct (after_cut r); [|apply X, L]. unfold zbind. destruct (z_piece_e C i vs w) as [[e|] w']; [|reflexivity]. apply X. lia. }
      unfold z_before. destruct (before_cut r) as [i|].
      - apply zbind_ext. intros e w3. apply After; [lia|]. exact Tail.
      - apply After; [exact L|]. exact Tail.
    Qed.
    Lemma zcut_below b1 b2 q n t w : count (entries t) <= n -> zosdit_cut_e P ik C iq k_overlaps b1 q n t w = zosdit_cut_e P ik C iq k_overlaps b2 q n t w.
    Proof.
      intros L. unfold zosdit_cut_e. apply zbind_ext. intros a w1. apply zbind_ext. intros s w2. unfold zbind. destruct (e_upper (exclusive_comp_e P ik s Lt) t w2) as [[c|] w3] eqn:X; [|reflexivity].
      apply zcut_loop_below. apply e_upper_split in X. apply cursor_moved in X. cbn zeta in X. rewrite X, count_app in L. lia.
    Qed.
  End Q.
End Any.

(** ** Histories *)
Section History.
  Context {W I K V : Type} `{DiscreteFinite I} (P : point_code W I) (ik : interval_code W I K) (C : entry_code W I K V)
    (kc : K -> I -> user W bool) (overlaps_k : K -> K -> user W bool).
  Implicit Types (t : tree K (list V)) (l : BTreeMap K (list V)) (c : zcall I K V) (s : zseen I K V).
  Notation count l := (length (flatten l)).
  Notation values l := (map snd (flatten l)).

  Lemma zput_count k v l l' : zput k v l l' -> count l' = count l + 1.
  Proof. intros (a & b & [[-> ->]|(k' & vs & -> & ->)]); rewrite !count_app, !count_cons, ?app_length; cbn; lia. Qed.
  Lemma zput_full k v l l' : zput k v l l' -> full l -> full l'.
  Proof.
    unfold full. intros (a & b & [[-> ->]|(k' & vs & -> & ->)]) F; rewrite Forall_app in *; destruct F as [F1 F2]; (split; [exact F1|]); constructor.
    - discriminate.
    - exact F2.
    - cbn. destruct vs; discriminate.
    - inversion F2; assumption.
  Qed.
  Lemma zput_perm k v l l' : zput k v l l' -> Permutation (values l ++ [v]) (values l').
  Proof.
    intros (a & b & [[-> ->]|(k' & vs & -> & ->)]); rewrite !values_app, !values_cons, <- !app_assoc; repeat apply Permutation_app_head; apply Permutation_app_comm.
  Qed.
  Lemma ztaken_count v l l' : ztaken v l l' -> count l = count l' + 1.
  Proof. intros (a & k & vs & b & -> & ->). rewrite !count_app, count_cons, app_length. destruct vs; rewrite ?count_cons; cbn [length]; lia. Qed.
  Lemma ztaken_full v l l' : ztaken v l l' -> full l -> full l'.
  Proof.
    unfold full. intros (a & k & vs & b & -> & ->) F. rewrite Forall_app in *. destruct F as [F1 F2]. split; [exact F1|]. inversion F2; subst.
    destruct vs; [assumption|]. constructor; [discriminate|assumption].
  Qed.
  Lemma ztaken_perm v l l' : ztaken v l l' -> Permutation (values l) (values l' ++ [v]).
  Proof.
    intros (a & k & vs & b & -> & ->). rewrite !values_app, values_cons. destruct vs; rewrite ?values_cons, <- !app_assoc; apply Permutation_app_head; [apply Permutation_cons_append|apply Permutation_app_head, Permutation_app_comm].
  Qed.
  Notation pieces_ok := (Forall2 (fun (e : K * list V) p => length p <= 2 /\ Forall (fun x : K * list V => Forall2 (clone_of C) (snd e) (snd x)) p)).
  Lemma pieces_full gone pieces : pieces_ok gone pieces -> full gone -> full (concat pieces).
  Proof.
    intros F. induction F as [|e p gone pieces [_ X] F IH]; intros G; cbn [concat]; [constructor|]. inversion G as [|? ? N G']; subst. unfold full. apply Forall_app. split; [|apply IH, G'].
    eapply Forall_impl; [|exact X]. cbn. intros x Y. inversion Y as [E|]; [congruence|discriminate].
  Qed.
  Lemma zpieces_clones gone pieces : pieces_ok gone pieces -> Forall (fun x => exists v, In v (values gone) /\ clone_of C v x) (values (concat pieces)).
  Proof.
    intros F. induction F as [|e p gone pieces [_ X] F IH]; cbn [concat]; [constructor|]. rewrite values_app. destruct e as [k vs]. apply Forall_app. split.
    - clear - X. cbn [snd] in X. induction X as [|[k' us] p X1 X IH]; [constructor|]. rewrite (values_cons k' us p). apply Forall_app. split; [|exact IH]. cbn [snd] in X1.
      rewrite (values_cons k vs gone). clear - X1. apply Forall_forall. intros u Hu. induction X1 as [|a b vs us Y X1 IH]; [contradiction|]. destruct Hu as [->|Hu].
      + exists a. split; [left; reflexivity|exact Y].
      + destruct (IH Hu) as (v & Hv & Z). exists v. split; [right; exact Hv|exact Z].
    - eapply Forall_impl; [|exact IH]. cbn beta. intros x (v & Hv & Y). exists v. split; [|exact Y]. rewrite values_cons. apply in_or_app. auto.
  Qed.

  Lemma zcall_any below t c n w z' s w' : full (entries t) -> count (entries t) <= n -> zcall_do C P ik kc overlaps_k below t c n w = (z', s, w') ->
    full (z_inner z') /\ count (z_inner z') + length (took s) + n <= z_len z' + count (entries t) /\
    ((forall q, s <> SStopped (CCut q)) -> count (z_inner z') + length (took s) + n = z_len z' + count (entries t)) /\
    Forall (fun x => exists v, In v (values (entries t) ++ zgiven c) /\ descends C v x) (values (z_inner z') ++ zhanded s) /\
    (cutting c = false -> Permutation (values (entries t) ++ zgiven c) (values (z_inner z') ++ zhanded s ++ stopped s)).
  Proof.
    intros Fu L E.
    assert (Own : forall r, Permutation (values (entries t) ++ zgiven c) (values (z_inner z') ++ zhanded s ++ r) ->
      Forall (fun x => exists v, In v (values (entries t) ++ zgiven c) /\ descends C v x) (values (z_inner z') ++ zhanded s)).
    { intros r X. apply Forall_forall. intros x Hx. exists x. split; [|constructor]. eapply Permutation_in; [symmetry; exact X|]. rewrite app_assoc. apply in_or_app. auto. }
    destruct c as [k v|p|q]; cbn [zcall_do] in E; unfold seeing in E;
      match type of E with (let '(_, _) := ?y in _) = _ => destruct y as [[z1 o] w1] eqn:X end; injection E as -> Es ->.
    - apply zinsert_any in X. destruct o as [[[]|u]|]; subst s; cbn [zhanded took stopped zgiven length app] in *.
      + destruct X as [Xl X]. assert (Pm : Permutation (values (entries t) ++ [v]) (values (z_inner z') ++ [])) by (rewrite app_nil_r; exact (zput_perm _ _ _ _ X)).
        split; [exact (zput_full _ _ _ _ X Fu)|]. apply zput_count in X. split; [lia|]. split; [lia|]. split; [exact (Own [] Pm)|]. intros _. exact Pm.
      + destruct X as [-> ->]. cbn [z_inner z_len]. split; [exact Fu|]. split; [lia|]. split; [lia|]. split; [apply (Own []); reflexivity|reflexivity].
      + subst z'. cbn [z_inner z_len]. split; [exact Fu|]. split; [lia|]. split; [lia|]. split; [apply (Own [v]); reflexivity|]. reflexivity.
    - apply zremove_any in X. destruct o as [[v|]|]; subst s; cbn [zhanded took stopped zgiven length app] in *.
      + destruct X as [Xl X]. assert (Pm : Permutation (values (entries t) ++ []) (values (z_inner z') ++ [v])) by (rewrite app_nil_r; exact (ztaken_perm _ _ _ X)).
        split; [exact (ztaken_full _ _ _ X Fu)|]. apply ztaken_count in X. split; [lia|]. split; [lia|]. split; [apply (Own []); exact Pm|]. intros _. exact Pm.
      + subst z'. cbn [z_inner z_len]. split; [exact Fu|]. split; [lia|]. split; [lia|]. split; [apply (Own []); reflexivity|reflexivity].
      + subst z'. cbn [z_inner z_len]. split; [exact Fu|]. split; [lia|]. split; [lia|]. split; [apply (Own []); reflexivity|reflexivity].
    - apply zcut_any in X; [|exact L]. destruct X as (a & gone & pieces & b & El & Ei & Ok & Y). rewrite El, Ei. rewrite El in Fu. unfold full in Fu. rewrite !Forall_app in Fu. destruct Fu as (Fa & Fg & Fb).
      split; [unfold full; rewrite !Forall_app; repeat split; trivial; exact (pieces_full _ _ Ok Fg)|]. rewrite !count_app, !values_app.
      assert (Tk : length (took s) = 0) by (subst s; destruct o; reflexivity). rewrite Tk.
      split; [destruct o; lia|]. split; [intros N; destruct o as [out|]; [lia|exfalso; apply (N q); symmetry; exact Es]|].
      split; [|discriminate]. cbn [zgiven]. rewrite app_nil_r.
      assert (Hs : Forall (fun x => In x (values gone)) (zhanded s)).
      { subst s. destruct o as [out|]; [|constructor]. cbn [zhanded]. destruct Y as [Y _]. rewrite Y, <- values_concat. apply Forall_forall. auto. }
      assert (Self : forall r, (forall x, In x r -> In x (values a ++ values gone ++ values b)) -> Forall (fun x => exists v, In v (values a ++ values gone ++ values b) /\ descends C v x) r)
        by (intros r X; apply Forall_forall; intros x Hx; exists x; split; [apply X, Hx|constructor]).
      rewrite !Forall_app. repeat split.
      + apply Self. intros x Hx. apply in_or_app. auto.
      + eapply Forall_impl; [|exact (zpieces_clones _ _ Ok)]. cbn beta. intros x (v & Hv & Z). exists v. split; [apply in_or_app; right; apply in_or_app; auto|]. econstructor; [constructor|exact Z].
      + apply Self. intros x Hx. apply in_or_app. right. apply in_or_app. auto.
      + apply Self. intros x Hx. rewrite Forall_forall in Hs. apply in_or_app. right. apply in_or_app. left. apply Hs, Hx.
  Qed.
  Lemma zcall_below b1 b2 t c n w : count (entries t) <= n -> zcall_do C P ik kc overlaps_k b1 t c n w = zcall_do C P ik kc overlaps_k b2 t c n w.
  Proof. intros L. destruct c as [k v|p|q]; cbn [zcall_do]; [reflexivity|reflexivity|]. rewrite (zcut_below P ik C ik overlaps_k b1 b2 q n t w L). reflexivity. Qed.

  Lemma zhistory_any below (T : nat -> BTreeMap K (list V) -> tree K (list V)) cs : (faithful T) -> forall z w z' ss w',
    full (z_inner z) -> count (z_inner z) <= z_len z -> zehistory C P ik kc overlaps_k below T cs z w = (z', ss, w') ->
    full (z_inner z') /\ count (z_inner z') + length (flat_map took ss) + z_len z <= z_len z' + count (z_inner z) /\
    ((forall q, ~ In (SStopped (CCut q)) ss) -> count (z_inner z') + length (flat_map took ss) + z_len z = z_len z' + count (z_inner z)) /\
    Forall (fun x => exists v, In v (values (z_inner z) ++ flat_map zgiven cs) /\ descends C v x) (values (z_inner z') ++ flat_map zhanded ss) /\
    (Forall (fun c => cutting c = false) cs ->
       Permutation (values (z_inner z) ++ flat_map zgiven cs) (values (z_inner z') ++ flat_map zhanded ss ++ flat_map stopped ss)).
  Proof.
    intros TF. induction cs as [|c cs IH]; intros z w z' ss w' Fu L E; cbn [zehistory flat_map] in *.
    - injection E as <- <- <-. split; [exact Fu|]. cbn. split; [lia|]. split; [lia|]. rewrite !app_nil_r. split; [|reflexivity].
      apply Forall_forall. intros x Hx. exists x. split; [exact Hx|constructor].
    - destruct (zcall_do C P ik kc overlaps_k below (T (length cs) (z_inner z)) c (z_len z) w) as [[z1 s] w1] eqn:E1.
      destruct (zehistory C P ik kc overlaps_k below T cs z1 w1) as [[z2 ss2] w2] eqn:E2. injection E as <- <- <-.
      assert (Te := TF (length cs) (z_inner z)). apply zcall_any in E1; [|rewrite Te; assumption|rewrite Te; assumption]. rewrite Te in E1. destruct E1 as (F1 & L1 & X1 & O1 & P1).
      apply IH in E2; [|exact F1|lia]. destruct E2 as (F2 & L2 & X2 & O2 & P2).
      split; [exact F2|]. cbn [flat_map]. rewrite app_length. split; [lia|]. split; [intros N|split; [|intros N]].
      + rewrite <- Nat.add_assoc in X2. assert (A1 := X1 (fun q Z => N q (or_introl Z))). assert (A2 := X2 (fun q Z => N q (or_intror Z))). lia.
      + rewrite Forall_app in O1. destruct O1 as [O1 O1'].
        assert (Up : forall x, (exists v, In v (values (z_inner z) ++ zgiven c) /\ descends C v x) -> exists v, In v (values (z_inner z) ++ zgiven c ++ flat_map zgiven cs) /\ descends C v x)
          by (intros x (v & Hv & D); exists v; split; [rewrite app_assoc; apply in_or_app; auto|exact D]).
        assert (Up2 : Forall (fun x => exists v, In v (values (z_inner z) ++ zgiven c ++ flat_map zgiven cs) /\ descends C v x) (values (z_inner z2) ++ flat_map zhanded ss2)).
        { eapply Forall_impl; [|exact O2]. cbn beta. intros x (v & Hv & D). apply in_app_or in Hv. destruct Hv as [Hv|Hv].
          - rewrite Forall_forall in O1. destruct (Up v (O1 v Hv)) as (u & Hu & D'). exists u. split; [exact Hu|exact (descends_trans C _ _ _ D' D)].
          - exists v. split; [|exact D]. apply in_or_app. right. apply in_or_app. auto. }
        rewrite Forall_app in Up2. destruct Up2 as [U1 U2]. apply Forall_app. split; [exact U1|]. apply Forall_app. split; [|exact U2].
        eapply Forall_impl; [|exact O1']. exact Up.
      + inversion N as [|? ? N1 N2]; subst. rewrite app_assoc, (P1 N1). transitivity ((values (z_inner z1) ++ flat_map zgiven cs) ++ zhanded s ++ stopped s).
        * rewrite <- !app_assoc. apply Permutation_app_head. rewrite (app_assoc (zhanded s)). apply Permutation_app_comm.
        * rewrite (P2 N2), <- !app_assoc. apply Permutation_app_head. rewrite (Permutation_app_swap_app (flat_map stopped ss2)), (Permutation_app_swap_app (flat_map zhanded ss2)).
          apply Permutation_app_head. apply Permutation_app_head. apply Permutation_app_comm.
  Qed.
  Lemma zhistory_below b1 b2 (T : nat -> BTreeMap K (list V) -> tree K (list V)) cs : (faithful T) -> forall z w,
    full (z_inner z) -> count (z_inner z) <= z_len z -> zehistory C P ik kc overlaps_k b1 T cs z w = zehistory C P ik kc overlaps_k b2 T cs z w.
  Proof.
    intros TF. induction cs as [|c cs IH]; intros z w Fu L; cbn [zehistory]; [reflexivity|]. rewrite (zcall_below b1 b2) by (rewrite TF; exact L).
    destruct (zcall_do C P ik kc overlaps_k b2 (T (length cs) (z_inner z)) c (z_len z) w) as [[z1 s] w1] eqn:E1.
    apply zcall_any in E1; [|rewrite TF; assumption|rewrite TF; assumption]. rewrite TF in E1. destruct E1 as (F1 & L1 & _). rewrite IH; [reflexivity|exact F1|lia].
  Qed.
  Lemma exists_last_or {A} (r : list A) : r = [] \/ exists a x, r = a ++ [x].
  Proof. destruct r as [|y r]; [auto|]. right. destruct (@exists_last _ (y :: r)) as (a & x & E); [discriminate|]. eauto. Qed.
  Lemma full_first (z : ZosditMap K V) : full (z_inner z) -> zosdit_first_key_value z = hd_error (zosdit_iter z).
  Proof.
    unfold zosdit_first_key_value, zosdit_iter. intros F. destruct (z_inner z) as [|[k [|v vs]] l]; [reflexivity| |reflexivity]. inversion F as [|? ? N _]; subst. exfalso. apply N. reflexivity.
  Qed.
  Lemma full_last (z : ZosditMap K V) : full (z_inner z) -> zosdit_last_key_value z = hd_error (rev (zosdit_iter z)).
  Proof.
    unfold zosdit_last_key_value, zosdit_iter. intros F. destruct (exists_last_or (z_inner z)) as [E|(l & [k vs] & E)]; rewrite E in *; [reflexivity|]. clear E.
    unfold full in F. rewrite Forall_app in F. destruct F as [_ F]. inversion F as [|? ? N _]; subst. cbn [snd] in N.
    rewrite flatten_app, flatten_cons, app_nil_r, rev_app_distr, <- map_rev. 
    assert (B : bt_last (l ++ [(k, vs)]) = Some (k, vs)).
    { clear. induction l as [|x [|y l'] IH]; [reflexivity|reflexivity|]. exact IH. }
    rewrite B. destruct (exists_last_or vs) as [E|(us & v & E)]; [congruence|]. subst vs. rename us into vs.
    assert (Lv : vec_last (vs ++ [v]) = Some v). { clear. induction vs as [|x [|y l'] IH]; [reflexivity|reflexivity|]. exact IH. }
    rewrite Lv, rev_app_distr. reflexivity.
  Qed.
End History.
