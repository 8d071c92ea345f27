(** * EffectFacts: facts behind C157. *)
From Coq Require Import List Bool Permutation Lia.
From Verif Require Import Base BTree UtilsModel IntervalModel NoditModel Spec TreeShape TreeFacts EffectModel EffectOps.
Import ListNotations.

(** ** User code of any kind *)
Lemma within_refl {A} (l : list A) : within l l.
Proof. induction l; constructor; assumption. Qed.
Lemma within_trans {A} (l l' l'' : list A) : within l l' -> within l' l'' -> within l l''.
Proof.
  intros X Y. revert l X. induction Y as [|x l' l'' Y IH|x l' l'' Y IH]; intros l X; [exact X| |constructor; auto].
  inversion X; subst; constructor; auto.
Qed.
Lemma within_middle {A} (a x b : list A) : within (a ++ b) (a ++ x ++ b).
Proof. induction a as [|e a IH]; cbn; [|constructor; exact IH]. induction x; cbn; [apply within_refl|constructor; assumption]. Qed.
Lemma within_perm {A} (l' l : list A) : within l' l -> exists d, Permutation l (l' ++ d).
Proof.
  intros X. induction X as [|x l' l X [d IH]|x l' l X [d IH]]; [exists []; constructor|exists d; cbn; constructor; exact IH|].
  exists (x :: d). apply Permutation_cons_app, IH.
Qed.

Section Any.
  Context {W I K V : Type} (P : point_code W I).
  Implicit Types (t : tree K V) (m : list (K * V)).

  Lemma ubind_inv {A B} (x : user W A) (f : A -> user W B) w b w' : ubind x f w = (Val b, w') ->
    exists a w1, x w = (Val a, w1) /\ f a w1 = (Val b, w').
  Proof. unfold ubind. destruct (x w) as [[a|] w1]; [|discriminate]. eauto. Qed.
  Lemma mbind_inv {A B} m (x : user W A) (f : A -> changing W K V B) w m' o w' : mbind m x f w = ((m', o), w') ->
    (m' = m /\ o = Panic) \/ exists a w1, x w = (Val a, w1) /\ f a w1 = ((m', o), w').
  Proof. unfold mbind. destruct (x w) as [[a|] w1]; [eauto|]. intros X. injection X as <- <- <-. auto. Qed.
  Lemma mthen_inv {A B} (x : changing W K V A) (f : NoditMap K V -> A -> changing W K V B) w m' o w' : mthen x f w = ((m', o), w') ->
    (x w = ((m', Panic), w') /\ o = Panic) \/ exists m1 a w1, x w = ((m1, Val a), w1) /\ f m1 a w1 = ((m', o), w').
  Proof. unfold mthen. destruct (x w) as [[m1 [a|]] w1]; [eauto 6|]. intros X. injection X as -> <- ->. auto. Qed.

  Lemma e_search_place (comp : K -> user W comparison) :
    (forall t w a x b w', e_search comp t w = (Val (a, x, b), w') -> entries t = a ++ olist x ++ b) /\
    (forall (n : edges K V) w a x b w', e_search_node comp n w = (Val (a, x, b), w') -> edges_entries n = a ++ olist x ++ b).
  Proof.
    apply tree_mutind.
    - intros w a x b w' E. injection E as <- <- <- <-. reflexivity.
    - intros n IH w a x b w' E. exact (IH w a x b w' E).
    - intros t IH w a x b w' E. exact (IH w a x b w' E).
    - intros t IHt kv n IHn w a x b w' E. cbn [e_search_node] in E. apply ubind_inv in E. destruct E as (c & w1 & _ & E). change (edges_entries (More t kv n)) with (entries t ++ kv :: edges_entries n).
      destruct c.
      + injection E as <- <- <- <-. reflexivity.
      + apply ubind_inv in E. destruct E as ([[a' x'] b'] & w2 & E & E'). injection E' as <- <- <- <-. rewrite (IHt _ _ _ _ _ E), <- !app_assoc; reflexivity.
      + apply ubind_inv in E. destruct E as ([[a' x'] b'] & w2 & E & E'). injection E' as <- <- <- <-. rewrite (IHn _ _ _ _ _ E), <- !app_assoc. reflexivity.
  Qed.
  Lemma e_lower_split (comp : K -> user W comparison) t w c w' : e_lower comp t w = (Val c, w') -> entries t = fst c ++ snd c.
  Proof.
    intros E. apply ubind_inv in E. destruct E as ([[a x] b] & w1 & E & E'). apply (proj1 (e_search_place comp)) in E. rewrite E.
    destruct x; injection E' as <- <-; reflexivity.
  Qed.
  Lemma e_get_stored (comp : K -> user W comparison) t w e w' : e_get comp t w = (Val (Some e), w') -> In e (entries t).
  Proof.
    intros E. apply ubind_inv in E. destruct E as ([[a x] b] & w1 & E & E'). apply (proj1 (e_search_place comp)) in E. injection E' as -> <-.
    rewrite E. apply in_or_app. right. left. reflexivity.
  Qed.
  Lemma e_remove_within (comp : K -> user W comparison) t w m w' : e_remove comp t w = (Val m, w') -> within m (entries t) /\ length (entries t) <= length m + 1.
  Proof.
    intros E. apply ubind_inv in E. destruct E as ([[a x] b] & w1 & E & E'). pose proof (proj1 (e_search_place comp) _ _ _ _ _ _ E) as F.
    destruct x as [e|]; injection E' as <- <-; [|split; [apply within_refl|lia]]. rewrite F. split; [apply within_middle|]. rewrite !app_length. cbn. lia.
  Qed.
  Lemma e_insert_put k v (comp : K -> user W comparison) t w m w' : e_insert k v comp t w = (Val m, w') -> put k v (entries t) m.
  Proof.
    intros E. apply ubind_inv in E. destruct E as ([[a x] b] & w1 & E & E'). apply (proj1 (e_search_place comp)) in E. exists a, b.
    destruct x as [[k' old]|]; injection E' as <- <-; [right; exists k', old|left]; split; trivial.
  Qed.
  Lemma skipn_firstn_part {A} i j (l : list A) : exists a b, l = a ++ skipn i (firstn j l) ++ b.
  Proof.
    exists (firstn i (firstn j l)), (skipn j l). rewrite app_assoc, firstn_skipn, firstn_skipn. reflexivity.
  Qed.
  Lemma e_range_part (lower upper : K -> user W comparison) t w l w' : e_range lower upper t w = (Val l, w') -> exists a b, entries t = a ++ l ++ b.
  Proof.
    intros E. apply ubind_inv in E. destruct E as ([[a x] b] & w1 & _ & E). apply ubind_inv in E. destruct E as ([[a' x'] b'] & w2 & _ & E).
    injection E as <- <-. apply skipn_firstn_part.
  Qed.

  Context `{DiscreteFinite I} (ik : interval_code W I K) (C : entry_code W I K V).
  Section Q.
    Context {Q : Type} (iq : interval_code W I Q) (q_overlaps : Q -> K -> user W bool) (k_overlaps : K -> Q -> user W bool).
    Lemma overlapping_e_part t q w l w' : overlapping_e P ik iq t q w = (Val l, w') -> exists a b, entries t = a ++ l ++ b.
    Proof.
      intros E. apply ubind_inv in E. destruct E as (? & w1 & _ & E). apply ubind_inv in E. destruct E as (? & w2 & _ & E).
      apply ubind_inv in E. destruct E as (? & w3 & _ & E). exact (e_range_part _ _ _ _ _ _ E).
    Qed.
    Lemma remove_loop_any q post : forall pre acc w m' o w', remove_overlapping_loop_e (W := W) (V := V) q_overlaps q pre post acc w = ((m', o), w') ->
      exists out rest, post = out ++ rest /\ m' = pre ++ rest /\ match o with Val l => l = acc ++ out | Panic => True end.
    Proof.
      induction post as [|[k v] rest IH]; intros pre acc w m' o w' E; cbn [remove_overlapping_loop_e] in E.
      - injection E as <- <- <-. exists [], []. repeat split. symmetry. apply app_nil_r.
      - apply mbind_inv in E. destruct E as [[-> ->]|([|] & w1 & _ & E)].
        + exists [], ((k, v) :: rest). auto.
        + apply IH in E. destruct E as (out & r & -> & -> & X). exists ((k, v) :: out), r. split; [reflexivity|]. split; [reflexivity|].
          destruct o; [|exact X]. rewrite X, <- app_assoc. reflexivity.
        + injection E as <- <- <-. exists [], ((k, v) :: rest). repeat split. symmetry. apply app_nil_r.
    Qed.
    Lemma remove_any q t w m' o w' : remove_overlapping_e P ik iq q_overlaps q t w = ((m', o), w') ->
      exists a out b, entries t = a ++ out ++ b /\ m' = a ++ b /\ match o with Val l => l = out | Panic => True end.
    Proof.
      assert (Z : m' = entries t -> o = Panic -> exists a out b, entries t = a ++ out ++ b /\ m' = a ++ b /\ match o with Val l => l = out | Panic => True end)
        by (intros -> ->; exists (entries t), [], []; cbn; rewrite app_nil_r; auto).
      intros E. do 2 (apply mbind_inv in E; destruct E as [[-> ->]|(? & ? & _ & E)]; [apply Z; reflexivity|]).
      apply mbind_inv in E; destruct E as [[-> ->]|(c & ? & X & E)]; [apply Z; reflexivity|]. apply e_lower_split in X. rewrite X. apply remove_loop_any in E. destruct E as (out & rest & -> & -> & Y). exists (fst c), out, rest. auto.
    Qed.
    Lemma piece_any p v w l w' : piece_e C p v w = (Val l, w') -> length l <= 1 /\ Forall (fun x => clone_of C v (snd x)) l.
    Proof.
      destruct p as [i|]; cbn [piece_e]; intros E.
      - apply ubind_inv in E. destruct E as (k & w1 & _ & E). apply ubind_inv in E. destruct E as (v' & w2 & X & E). injection E as <- <-.
        split; [cbn; lia|]. constructor; [|constructor]. exists w1, w2. exact X.
      - injection E as <- <-. split; [cbn; lia|constructor].
    Qed.
    Notation pieces_ok := (Forall2 (fun (e : K * V) l => length l <= 2 /\ Forall (fun x : K * V => clone_of C (snd e) (snd x)) l)).
    Lemma cut_loop_any q post : forall pre acc w m' o w', cut_loop_e P ik C iq k_overlaps q pre post acc w = ((m', o), w') ->
      exists gone rest pieces, post = gone ++ rest /\ m' = pre ++ concat pieces ++ rest /\ pieces_ok gone pieces /\
        match o with Val l => exists l', l = acc ++ l' /\ map snd l' = map snd gone | Panic => True end.
    Proof.
      induction post as [|[k v] rest IH]; intros pre acc w m' o w' E; cbn [cut_loop_e] in E.
      - injection E as <- <- <-. exists [], [], []. repeat split; [constructor|]. exists []. rewrite app_nil_r. auto.
      - apply mbind_inv in E. destruct E as [[-> ->]|([|] & w1 & _ & E)].
        + exists [], ((k, v) :: rest), []. auto.
        + assert (Stop : forall l, length l <= 2 -> Forall (fun x => clone_of C v (snd x)) l -> m' = pre ++ l ++ rest -> o = Panic ->
            exists gone rest' pieces, (k, v) :: rest = gone ++ rest' /\ m' = pre ++ concat pieces ++ rest' /\ pieces_ok gone pieces /\
            match o with Val l => exists l', l = acc ++ l' /\ map snd l' = map snd gone | Panic => True end).
          { intros l L F -> ->. exists [(k, v)], rest, [l]. cbn [concat app]. rewrite app_nil_r. repeat split. constructor; [split; assumption|constructor]. }
          apply mbind_inv in E. destruct E as [[-> ->]|(r & w2 & _ & E)]; [apply (Stop []); [cbn; lia|constructor|reflexivity|reflexivity]|].
          apply mbind_inv in E. destruct E as [[-> ->]|(before & w3 & X1 & E)]; [apply (Stop []); [cbn; lia|constructor|reflexivity|reflexivity]|].
          apply piece_any in X1. destruct X1 as [L1 F1].
          apply mbind_inv in E. destruct E as [[-> ->]|(after & w4 & X2 & E)]; [apply (Stop before); [lia|exact F1|rewrite <- app_assoc; reflexivity|reflexivity]|].
          apply piece_any in X2. destruct X2 as [L2 F2].
          assert (L : length (before ++ after) <= 2) by (rewrite app_length; lia).
          assert (F : Forall (fun x => clone_of C v (snd x)) (before ++ after)) by (apply Forall_app; split; assumption).
          apply mbind_inv in E. destruct E as [[-> ->]|(i & w5 & _ & E)]; [apply (Stop _ L F); [rewrite <- app_assoc; reflexivity|reflexivity]|].
          apply mbind_inv in E. destruct E as [[-> ->]|(k' & w6 & _ & E)]; [apply (Stop _ L F); [rewrite <- app_assoc; reflexivity|reflexivity]|].
          apply IH in E. destruct E as (gone & r' & pieces & -> & -> & Ok & Z). exists ((k, v) :: gone), r', ((before ++ after) :: pieces).
          split; [reflexivity|]. split; [cbn [concat]; rewrite <- !app_assoc; reflexivity|]. split; [constructor; [split; assumption|exact Ok]|].
          destruct o as [l|]; [|exact Z]. destruct Z as (l' & -> & Z). exists ((k', v) :: l'). rewrite <- app_assoc. split; [reflexivity|]. cbn. rewrite Z. reflexivity.
        + injection E as <- <- <-. exists [], ((k, v) :: rest), []. repeat split; [constructor|]. exists []. rewrite app_nil_r. auto.
    Qed.
    Lemma cut_nothing m : cuts_some C m m Panic.
    Proof. exists m, [], [], []. cbn. rewrite app_nil_r. repeat split. constructor. Qed.
    Lemma cut_any q t w m' o w' : cut_e P ik C iq k_overlaps q t w = ((m', o), w') -> cuts_some C (entries t) m' o.
    Proof.
      intros E. do 2 (apply mbind_inv in E; destruct E as [[-> ->]|(? & ? & _ & E)]; [apply cut_nothing|]).
      apply mbind_inv in E; destruct E as [[-> ->]|(c & ? & X & E)]; [apply cut_nothing|].
      apply e_lower_split in X. rewrite X. apply cut_loop_any in E. destruct E as (gone & rest & pieces & -> & -> & Ok & Y).
      exists (fst c), gone, pieces, rest. repeat split; [exact Ok|]. destruct o as [l|]; [|exact Y]. destruct Y as (l' & -> & Y). exact Y.
    Qed.
  End Q.

  Context (overlaps_k : K -> K -> user W bool) (T : nat -> BTreeMap K V -> tree K V) (TF : faithful T).
  Lemma insert_any k v m w m' o w' : insert_strict_e P ik T k v m w = ((m', o), w') ->
    match o with Val (Ok _) => put k v m m' | Val (Err u) => u = v /\ m' = m | Panic => m' = m end.
  Proof.
    intros E. apply mbind_inv in E; destruct E as [[-> ->]|(? & ? & _ & E)]; [reflexivity|].
    apply mbind_inv in E; destruct E as [[-> ->]|(b & ? & _ & E)]; [reflexivity|].
    destruct b; [injection E as <- <- <-; auto|]. apply mbind_inv in E. destruct E as [[-> ->]|(m1 & w1 & X & E)]; [reflexivity|].
    injection E as <- <- <-. apply e_insert_put in X. rewrite TF in X. exact X.
  Qed.
  Lemma overwrite_any k v m w m' o w' : insert_overwrite_e P ik C overlaps_k T k v m w = ((m', o), w') ->
    exists m1 o1, cuts_some C m m1 o1 /\ match o with Val out => o1 = Val out /\ put k v m1 m' | Panic => m' = m1 end.
  Proof.
    intros E. apply mbind_inv in E. destruct E as [[-> ->]|(? & w1 & _ & E)]; [exists m, Panic; split; [apply cut_nothing|reflexivity]|].
    apply mthen_inv in E. destruct E as [[E ->]|(m1 & c & w2 & X & E)].
    - apply cut_any in E. rewrite TF in E. exists m', Panic. auto.
    - apply cut_any in X. rewrite TF in X. exists m1, (Val c). split; [exact X|].
      apply mbind_inv in E. destruct E as [[-> ->]|(m2 & w3 & Y & E)]; [reflexivity|]. injection E as <- <- <-. apply e_insert_put in Y. rewrite TF in Y. auto.
  Qed.
  Lemma merges_nothing n v m : merges_some n v m m (@Panic K).
  Proof. exists m, [], [], m. cbn. rewrite app_nil_r. repeat split; [apply within_refl|lia]. Qed.
  Definition dropping_at_most (n : nat) (f : tree K V -> user W (BTreeMap K V)) : Prop :=
    forall t w m w', f t w = (Val m, w') -> within m (entries t) /\ length (entries t) <= length m + n.
  Lemma merge_any n1 n2 k v gs ge rs re m w m' o w' : dropping_at_most n1 rs -> dropping_at_most n2 re ->
    insert_merge_with_comps_e P ik C overlaps_k T k v gs ge rs re m w = ((m', o), w') -> merges_some (n1 + n2) v m m' o.
  Proof.
    intros Rs Re E. do 4 (apply mbind_inv in E; destruct E as [[-> ->]|(? & ? & _ & E)]; [apply merges_nothing|]).
    apply mthen_inv in E. destruct E as [[E ->]|(m1 & c & w2 & X & E)].
    - apply remove_any in E. rewrite TF in E. destruct E as (a & out & b & -> & -> & _). exists a, out, b, (a ++ b). repeat split; [apply within_refl|lia].
    - apply remove_any in X. rewrite TF in X. destruct X as (a & out & b & -> & -> & _). exists a, out, b.
      apply mbind_inv in E. destruct E as [[-> ->]|(m2 & w3 & X & E)]; [exists (a ++ b); repeat split; [apply within_refl|lia]|].
      apply Rs in X. rewrite TF in X. destruct X as [S1 L1].
      apply mbind_inv in E. destruct E as [[-> ->]|(m3 & w4 & X & E)]; [exists m2; repeat split; [exact S1|lia]|].
      apply Re in X. rewrite TF in X. destruct X as [S2 L2]. exists m3. split; [reflexivity|]. split; [exact (within_trans _ _ _ S2 S1)|]. split; [lia|].
      apply mbind_inv in E. destruct E as [[-> ->]|(m4 & w5 & X & E)]; [reflexivity|]. injection E as <- <- <-. apply e_insert_put in X. rewrite TF in X. exact X.
  Qed.
  Lemma remove_e_drops (p : user W I) comp : dropping_at_most 1 (remove_e p comp).
  Proof. intros t w m w' E. apply ubind_inv in E. destruct E as (? & w1 & _ & E). exact (e_remove_within _ _ _ _ _ E). Qed.
  Lemma remove_if_e_drops v (p : user W I) comp : dropping_at_most 1 (remove_if_e C v p comp).
  Proof.
    intros t w m w' E. apply ubind_inv in E. destruct E as (x & w1 & _ & E). destruct (is_some x); [exact (remove_e_drops _ _ _ _ _ _ E)|].
    injection E as <- <-. split; [apply within_refl|lia].
  Qed.
  Lemma nothing_drops : dropping_at_most 0 (fun t => uret (entries t)).
  Proof. intros t w m w' E. injection E as <- <-. split; [apply within_refl|lia]. Qed.
  Definition merges_or_refuses v m m' (o : outcome (result K V)) : Prop :=
    match o with Val (Ok r) => merges_some 2 v m m' (Val r) | Val (Err u) => u = v /\ m' = m | Panic => merges_some 2 v m m' (@Panic K) end.
  Lemma refusing_any {A} k v m (x : user W A) gs ge rs re w m' o w' : dropping_at_most 1 rs -> dropping_at_most 1 re ->
    mbind m x (fun _ => mbind m (map_overlaps_e P ik ik (T 0 m) k) (fun b : bool => if b then mret m (Val (Err v)) else
      mthen (insert_merge_with_comps_e P ik C overlaps_k T k v gs ge rs re m) (fun m r => mret m (Val (Ok r))))) w = ((m', o), w') ->
    merges_or_refuses v m m' o.
  Proof.
    intros Rs Re E. apply mbind_inv in E; destruct E as [[-> ->]|(? & ? & _ & E)]; [apply merges_nothing|].
    apply mbind_inv in E; destruct E as [[-> ->]|(b & ? & _ & E)]; [apply merges_nothing|].
    destruct b; [injection E as <- <- <-; split; reflexivity|]. apply mthen_inv in E. destruct E as [[E ->]|(m1 & c & w2 & X & E)].
    - exact (merge_any 1 1 _ _ _ _ _ _ _ _ _ _ _ Rs Re E).
    - injection E as <- <- <-. exact (merge_any 1 1 _ _ _ _ _ _ _ _ _ _ _ Rs Re X).
  Qed.
  Lemma merge_both_any k v m w m' o w' : insert_merge_touching_or_overlapping_e P ik C overlaps_k T k v m w = ((m', o), w') -> merges_some 2 v m m' o.
  Proof.
    intros E. apply mbind_inv in E. destruct E as [[-> ->]|(? & ? & _ & E)]; [apply merges_nothing|].
    exact (merge_any 1 1 _ _ _ _ _ _ _ _ _ _ _ (remove_e_drops _ _) (remove_e_drops _ _) E).
  Qed.
  Lemma merge_overlapping_any k v m w m' o w' : insert_merge_overlapping_e P ik C overlaps_k T k v m w = ((m', o), w') -> merges_some 0 v m m' o.
  Proof.
    intros E. apply mbind_inv in E. destruct E as [[-> ->]|(? & ? & _ & E)]; [apply merges_nothing|].
    exact (merge_any 0 0 _ _ _ _ _ _ _ _ _ _ _ nothing_drops nothing_drops E).
  Qed.
End Any.

(** ** No value is lost or stored twice *)
Section Count.
  Context {W I K V : Type} `{DiscreteFinite I} (P : point_code W I) (ik : interval_code W I K) (C : entry_code W I K V) (overlaps_k : K -> K -> user W bool).
  Implicit Types m : list (K * V).
  Notation values := (map snd).
  Lemma put_perm k v m m' : put k v m m' -> exists d, Permutation (values m ++ [v]) (values m' ++ d).
  Proof.
    intros (a & b & [[-> ->]|(k' & old & -> & ->)]); rewrite !map_app; cbn [map snd].
    - exists []. rewrite app_nil_r, <- app_assoc. apply Permutation_app_head. rewrite Permutation_app_comm. reflexivity.
    - exists [old]. rewrite <- !app_assoc. apply Permutation_app_head. cbn. rewrite (Permutation_app_comm (values b) [v]). cbn.
      rewrite perm_swap. constructor. apply Permutation_cons_append.
  Qed.
  Lemma merges_perm n v m m' o : merges_some (K := K) n v m m' o -> exists d, Permutation (values m ++ [v]) (values m' ++ d).
  Proof.
    intros (a & gone & b & kept & -> & Wi & _ & X). apply within_perm in Wi. destruct Wi as [d Wi]. apply (Permutation_map snd) in Wi. rewrite map_app in Wi.
    assert (Z : Permutation (values (a ++ gone ++ b) ++ [v]) ((values kept ++ [v]) ++ values d ++ values gone)).
    { rewrite !map_app in *. transitivity ((values a ++ values b) ++ values gone ++ [v]).
      - rewrite <- !app_assoc. apply Permutation_app_head. rewrite (Permutation_app_comm (values gone)), <- app_assoc. apply Permutation_app_head.
        apply Permutation_app_comm.
      - rewrite Wi, <- !app_assoc. apply Permutation_app_head. rewrite (Permutation_app_comm (values gone) [v]), (Permutation_app_swap_app (values d) [v]). reflexivity. }
    destruct o as [r|].
    - apply put_perm in X. destruct X as [d' X]. exists (d' ++ values d ++ values gone). rewrite Z, X, <- app_assoc. reflexivity.
    - subst m'. exists ([v] ++ values d ++ values gone). rewrite Z, <- app_assoc. reflexivity.
  Qed.
  Lemma pieces_clones gone pieces : Forall2 (fun (e : K * V) l => length l <= 2 /\ Forall (fun x : K * V => clone_of C (snd e) (snd x)) l) gone pieces ->
    Forall (fun x => exists v, In v (values gone) /\ clone_of C v x) (values (concat pieces)).
  Proof.
    intros F. induction F as [|e l gone pieces [_ X] F IH]; cbn; [constructor|]. rewrite map_app. apply Forall_app. split.
    - rewrite Forall_forall in *. intros x Hx. apply in_map_iff in Hx. destruct Hx as (y & <- & Hy). exists (snd e). auto.
    - eapply Forall_impl; [|exact IH]. cbn. intros x (v & Hv & Y). eauto.
  Qed.
  Lemma cuts_perm m m' o : cuts_some C m m' o -> exists cl d, Permutation (values m ++ cl) (values m' ++ removed_values o ++ d) /\
    Forall (fun x => exists v, In v (values m) /\ clone_of C v x) cl.
  Proof.
    intros (a & gone & pieces & b & -> & -> & F & X). exists (values (concat pieces)), (match o with Val _ => [] | Panic => values gone end).
    split.
    - assert (Z : removed_values o ++ (match o with Val _ => [] | Panic => values gone end) = values gone) by (destruct o; cbn; [rewrite app_nil_r; exact X|reflexivity]).
      rewrite Z, !map_app, <- !app_assoc. apply Permutation_app_head. rewrite (Permutation_app_comm (values gone)), <- app_assoc.
      rewrite (app_assoc (values b)), (Permutation_app_comm (values b)), <- app_assoc. reflexivity.
    - eapply Forall_impl; [|apply (pieces_clones gone pieces F)]. cbn. intros x (v & Hv & Y). exists v. split; [|exact Y]. rewrite !map_app. apply in_or_app. right. apply in_or_app. auto.
  Qed.

  Lemma call_perm T c m w m' h w' : faithful T -> ecall_do C P ik overlaps_k T c m w = (m', h, w') ->
    exists cl d, Permutation (values m ++ given c ++ cl) (values m' ++ h ++ d) /\
      Forall (fun x => exists v, In v (values m) /\ clone_of C v x) cl /\ (clones_values c = false -> cl = []).
  Proof.
    intros TF E.
    assert (Plain : forall d, clones_values c = false -> Permutation (values m ++ given c) (values m' ++ h ++ d) ->
      exists cl d, Permutation (values m ++ given c ++ cl) (values m' ++ h ++ d) /\ Forall (fun x => exists v, In v (values m) /\ clone_of C v x) cl /\ (clones_values c = false -> cl = []))
      by (intros d N X; exists [], d; rewrite app_nil_r; repeat split; [exact X|constructor]).
    destruct c as [k v|k v|k v|k v|k v|k v|q|q]; cbn [ecall_do] in E; unfold handing in E;
      match type of E with (let '(_, _) := ?y in _) = _ => destruct y as [[m1 o] w1] eqn:X end; injection E as -> <- ->.
    - apply insert_any in X; [|exact TF]. destruct o as [[[]|u]|]; cbn [refused given app].
      + apply put_perm in X. destruct X as [d X]. exact (Plain d eq_refl X).
      + destruct X as [-> ->]. apply (Plain [] eq_refl); reflexivity.
      + subst m'. apply (Plain [v] eq_refl); reflexivity.
    - apply (refusing_any P ik C overlaps_k T TF k v m _ _ _ _ _ w m' o w' (remove_e_drops _ _) (remove_e_drops _ _)) in X.
      destruct o as [[r|u]|]; cbn [refused given app] in *.
      + apply merges_perm in X. destruct X as [d X]. exact (Plain d eq_refl X).
      + destruct X as [-> ->]. apply (Plain [] eq_refl); reflexivity.
      + apply merges_perm in X. destruct X as [d X]. exact (Plain d eq_refl X).
    - apply (refusing_any P ik C overlaps_k T TF k v m _ _ _ _ _ w m' o w' (remove_if_e_drops C _ _ _) (remove_if_e_drops C _ _ _)) in X.
      destruct o as [[r|u]|]; cbn [refused given app] in *.
      + apply merges_perm in X. destruct X as [d X]. exact (Plain d eq_refl X).
      + destruct X as [-> ->]. apply (Plain [] eq_refl); reflexivity.
      + apply merges_perm in X. destruct X as [d X]. exact (Plain d eq_refl X).
    - apply merge_overlapping_any in X; [|exact TF]. apply merges_perm in X. destruct X as [d X]. exact (Plain d eq_refl X).
    - apply merge_both_any in X; [|exact TF]. apply merges_perm in X. destruct X as [d X]. exact (Plain d eq_refl X).
    - apply overwrite_any in X; [|exact TF]. destruct X as (m1 & o1 & X & Y). apply cuts_perm in X. destruct X as (cl & d & X & F).
      destruct o as [out|].
      + destruct Y as [-> Y]. apply put_perm in Y. destruct Y as [d' Y]. exists cl, (d' ++ d). split; [|split; [exact F|discriminate]]. cbn [given removed_values] in *.
        rewrite (Permutation_app_comm [v] cl), app_assoc, X. transitivity ((values m1 ++ [v]) ++ values out ++ d).
        * rewrite <- !app_assoc. apply Permutation_app_head. rewrite app_assoc. rewrite (Permutation_app_comm (values out ++ d) [v]). reflexivity.
        * rewrite Y, <- !app_assoc. apply Permutation_app_head. apply Permutation_app_swap_app.
      + subst m'. exists cl, (v :: removed_values o1 ++ d). split; [|split; [exact F|discriminate]]. cbn [given app].
        change (v :: cl) with ([v] ++ cl). rewrite (Permutation_app_comm [v] cl), app_assoc, X. cbn. rewrite <- app_assoc. apply Permutation_app_head. rewrite (Permutation_app_comm _ [v]). reflexivity.
    - apply remove_any in X. rewrite TF in X. destruct X as (a & out & b & -> & -> & X).
      apply (Plain (match o with Val _ => [] | Panic => values out end) eq_refl). cbn [given]. rewrite app_nil_r, !map_app, <- !app_assoc. apply Permutation_app_head.
      destruct o; cbn [removed_values]; [subst; rewrite app_nil_r|]; apply Permutation_app_comm.
    - apply cut_any in X. rewrite TF in X. apply cuts_perm in X. destruct X as (cl & d & X & F). exists cl, d. split; [exact X|]. split; [exact F|discriminate].
  Qed.
  Lemma call_origin T c m w m' h w' : faithful T -> ecall_do C P ik overlaps_k T c m w = (m', h, w') ->
    Forall (fun x => exists v, In v (values m ++ given c) /\ descends C v x) (values m' ++ h).
  Proof.
    intros TF E. apply call_perm in E; [|exact TF]. destruct E as (cl & d & X & F & _). apply Forall_forall. intros x Hx.
    assert (Hx' : In x (values m ++ given c ++ cl)) by (eapply Permutation_in; [symmetry; exact X|]; rewrite app_assoc; apply in_or_app; auto).
    rewrite app_assoc in Hx'. apply in_app_or in Hx'. destruct Hx' as [Hx'|Hx']; [exists x; split; [exact Hx'|constructor]|].
    rewrite Forall_forall in F. destruct (F x Hx') as (v & Hv & Y). exists v. split; [apply in_or_app; auto|]. econstructor; [constructor|exact Y].
  Qed.
  Lemma descends_trans a b c : descends C a b -> descends C b c -> descends C a c.
  Proof. intros X Y. induction Y as [|u u' Y IH Z]; [exact X|]. econstructor; eauto. Qed.

  Lemma history_origin T cs : (forall n, faithful (T n)) -> forall m w m' h w', ehistory C P ik overlaps_k T cs m w = (m', h, w') ->
    Forall (fun x => exists v, In v (values m ++ flat_map given cs) /\ descends C v x) (values m' ++ h).
  Proof.
    intros TF. induction cs as [|c cs IH]; intros m w m' h w' E; cbn [ehistory flat_map] in *.
    - injection E as <- <- <-. apply Forall_forall. intros x Hx. exists x. split; [exact Hx|constructor].
    - destruct (ecall_do C P ik overlaps_k (T (length cs)) c m w) as [[m1 h1] w1] eqn:E1. destruct (ehistory C P ik overlaps_k T cs m1 w1) as [[m2 h2] w2] eqn:E2.
      injection E as <- <- <-. apply call_origin in E1; [|apply TF]. apply IH in E2. rewrite Forall_app in E1. destruct E1 as [E1 E1'].
      assert (Up : forall x, (exists v, In v (values m ++ given c) /\ descends C v x) -> exists v, In v (values m ++ given c ++ flat_map given cs) /\ descends C v x)
        by (intros x (v & Hv & D); exists v; split; [rewrite app_assoc; apply in_or_app; auto|exact D]).
      assert (Up2 : Forall (fun x => exists v, In v (values m ++ given c ++ flat_map given cs) /\ descends C v x) (values m2 ++ h2)).
      { eapply Forall_impl; [|exact E2]. cbn. intros x (v & Hv & D). apply in_app_or in Hv. destruct Hv as [Hv|Hv].
        - rewrite Forall_forall in E1. destruct (Up v (E1 v Hv)) as (u & Hu & D'). exists u. split; [exact Hu|exact (descends_trans _ _ _ D' D)].
        - exists v. split; [|exact D]. apply in_or_app. right. apply in_or_app. auto. }
      rewrite Forall_app in Up2. destruct Up2 as [U1 U2]. apply Forall_app. split; [exact U1|]. apply Forall_app. split; [|exact U2].
      eapply Forall_impl; [|exact E1']. exact Up.
  Qed.
  Lemma history_perm T cs : (forall n, faithful (T n)) -> Forall (fun c => clones_values c = false) cs -> forall m w m' h w',
    ehistory C P ik overlaps_k T cs m w = (m', h, w') -> exists d, Permutation (values m ++ flat_map given cs) (values m' ++ h ++ d).
  Proof.
    intros TF F. induction F as [|c cs Fc F IH]; intros m w m' h w' E; cbn [ehistory flat_map] in *.
    - injection E as <- <- <-. exists []. rewrite !app_nil_r. reflexivity.
    - destruct (ecall_do C P ik overlaps_k (T (length cs)) c m w) as [[m1 h1] w1] eqn:E1. destruct (ehistory C P ik overlaps_k T cs m1 w1) as [[m2 h2] w2] eqn:E2.
      injection E as <- <- <-. apply call_perm in E1; [|apply TF]. destruct E1 as (cl & d & X & _ & N). rewrite (N Fc), app_nil_r in X. apply IH in E2. destruct E2 as [d' E2].
      exists (d' ++ d). rewrite app_assoc, X. transitivity ((values m1 ++ flat_map given cs) ++ h1 ++ d).
      + rewrite <- !app_assoc. apply Permutation_app_head. rewrite (app_assoc h1), (Permutation_app_comm (h1 ++ d)), <- ?app_assoc. reflexivity.
      + rewrite E2, <- !app_assoc. apply Permutation_app_head. rewrite (app_assoc h2 d'), (Permutation_app_swap_app (h2 ++ d')), <- ?app_assoc. reflexivity.
  Qed.
End Count.
