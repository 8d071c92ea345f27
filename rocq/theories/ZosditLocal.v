(** * ZosditLocal: what an insertion changes for calls about other places (C114). *)
From Coq Require Import List ZArith Bool Lia Sorting.Sorted.
From Verif Require Import Base BTree UtilsModel IntervalModel NoditModel ZosditModel ZosditOps
  Spec PointFacts IntervalFacts ListFacts NoditFacts ZosditFacts ZosditMut ZosditProofs ZosditCoherence.
Import ListNotations.
Open Scope Z_scope.

Section Local.
  Context {I : Type} {OI : Ord I} {DI : DiscreteFinite I} {PL : PointLaws I}.
  Context {K : Type} {IK : InclusiveInterval I K} {IL : IntervalLaws I K}.
  Context {V : Type}.
  Notation store := (BTreeMap K (list V)).
  Implicit Types (z : ZosditMap K V) (k : K) (v : V) (p : I) (l L R A M B : store).

  Lemma put_right k v L R : lo k <= hi k -> Forall okv L -> Forall (apart_from (lo k) (hi k)) L ->
    Forall (fun e => elo e < lo k) L -> put k v (L ++ R) = L ++ put k v R.
  Proof.
    intros Vk. induction L as [|[k' vs] L IH]; intros W A X; [reflexivity|]. cbn [app put].
    apply Forall_cons_iff in W, A, X. destruct W as [W0 W], A as [A0 A], X as [X0 X].
    unfold okv, apart_from, elo, ehi in *. cbn [fst] in *.
    destruct (entry_comp_rk k' k W0 Vk A0) as [(_ & ?)|[(-> & _)|(_ & ?)]]; [lia| |lia]. f_equal. apply IH; assumption.
  Qed.
  Lemma put_left k v L R : lo k <= hi k -> Forall okv R -> Forall (apart_from (lo k) (hi k)) R ->
    Forall (fun e => hi k < ehi e) R -> put k v (L ++ R) = put k v L ++ R.
  Proof.
    intros Vk W A X. induction L as [|[k' vs] L IH]; cbn [app put].
    - destruct R as [|[k' vs] R]; [reflexivity|]. cbn [put]. apply Forall_inv in W, A, X. unfold okv, apart_from, elo, ehi in *. cbn [fst] in *.
      destruct (entry_comp_rk k' k W Vk A) as [(_ & ?)|[(_ & ?)|(-> & _)]]; [lia|lia|reflexivity].
    - destruct (entry_comp k' k) as [[]|]; cbn [app]; try reflexivity. f_equal. exact IH.
  Qed.
  Lemma put_keys (P : Z -> Z -> Prop) k v l : P (lo k) (hi k) -> Forall (fun e => P (elo e) (ehi e)) l ->
    Forall (fun e => P (elo e) (ehi e)) (put k v l).
  Proof.
    intros Pk. induction l as [|[k' vs] l IH]; intros F; cbn [put]; [constructor; [exact Pk|constructor]|].
    apply Forall_cons_iff in F. destruct F as [F0 F].
    destruct (entry_comp k' k) as [[]|]; repeat constructor; auto.
  Qed.

  Section Query.
    Context {Q : Type} {IQ : InclusiveInterval I Q}.
    Implicit Types q : Q.
    (** The entries that meet [q] are the same before and after. *)
    Lemma insert_elsewhere z z' k v q : ZWF z -> insert_strict_back k v z = (z', Val (Ok tt)) -> lo q <= hi q -> ~ overlap k q ->
      exists A A' M B B', z_inner z = A ++ M ++ B /\ z_inner z' = A' ++ M ++ B' /\
        Forall (left_of (lo q)) A /\ Forall (left_of (lo q)) A' /\ Forall (meets (lo q) (hi q)) M /\
        Forall (right_of (hi q)) B /\ Forall (right_of (hi q)) B'.
    Proof.
      intros W E Vq N. destruct (insert_ok_apart z k v z' W E) as (Vk & Ap & -> & _). cbn [z_inner].
      pose proof W as (S & _). destruct (zsplit3 (z_inner z) (lo q) (hi q) S Vq) as (A & M & B & El & HA & HM & HB).
      rewrite El in *. apply okvs in S. rewrite !Forall_app in S, Ap. destruct S as (SA & SM & SB), Ap as (PA & PM & PB).
      assert (X : hi k < lo q \/ hi q < lo k) by (rewrite overlap_rk in N; lia). destruct X as [X|X].
      - exists A, (put k v A), M, B, B. split; [reflexivity|]. split.
        + apply put_left; [exact Vk|apply Forall_app; auto|apply Forall_app; auto|]. apply Forall_app. split; rewrite Forall_forall in *; intros e He.
          * specialize (HM e He). unfold meets in HM. lia.
          * specialize (HB e He). specialize (SB e He). unfold right_of, okv in *. lia.
        + repeat (split; [assumption|]). split; [|auto]. apply (put_keys (fun _ h => h < lo q)); assumption.
      - exists A, A, M, B, (put k v B). split; [reflexivity|]. split.
        + rewrite !app_assoc. apply put_right; [exact Vk|apply Forall_app; auto|apply Forall_app; auto|]. apply Forall_app. split; rewrite Forall_forall in *; intros e He.
          * specialize (HA e He). specialize (SA e He). unfold left_of, okv in *. lia.
          * specialize (HM e He). unfold meets in HM. lia.
        + repeat (split; [assumption|]). apply (put_keys (fun a _ => hi q < a)); assumption.
    Qed.
    Lemma overlapping_elsewhere z z' k v q : ZWF z -> insert_strict_back k v z = (z', Val (Ok tt)) -> ~ overlap k q ->
      zosdit_overlapping z' q = zosdit_overlapping z q.
    Proof.
      intros W E N. destruct (valid_dec q) as [Vq|Vq].
      - apply valid_rk in Vq. destruct (insert_elsewhere z z' k v q W E Vq N) as (A & A' & M & B & B' & E1 & E2 & HA & HA' & HM & HB & HB').
        destruct (insert_ok_apart z k v z' W E) as (_ & _ & _ & (S' & _) & _). destruct W as (S & _).
        rewrite E1 in S. rewrite E2 in S'. apply okvs in S, S'. rewrite !Forall_app in S, S'.
        rewrite (overlapping_zosdit z q A M B), (overlapping_zosdit z' q A' M B'); tauto.
      - unfold zosdit_overlapping. rewrite iip_invalid by exact Vq. reflexivity.
    Qed.
    Lemma zero_overlap_elsewhere z z' k v q : ZWF z -> insert_strict_back k v z = (z', Val (Ok tt)) -> ~ overlap k q ->
      is_zero_overlap z' q = is_zero_overlap z q.
    Proof.
      intros W E N. destruct (valid_dec q) as [Vq|Vq].
      - apply valid_rk in Vq. destruct (insert_ok_apart z k v z' W E) as (Vk & _ & _ & W' & l1 & l2 & k' & I1 & I2 & L1 & L2).
        destruct W as (S & W). destruct (is_zero_overlap_rk z q S Vq) as [Z1 Z2]. destruct (is_zero_overlap_rk z' q (proj1 W') Vq) as [Z1' Z2'].
        assert (X : Forall (apart_from (lo q) (hi q)) (z_inner z) <-> Forall (apart_from (lo q) (hi q)) (z_inner z')).
        { rewrite (apart_iter z) by (split; assumption). rewrite (apart_iter z') by assumption. rewrite I1, I2, !Forall_app, Forall_cons_iff.
          assert (apart_from (lo q) (hi q) (k', v)); [|tauto]. unfold apart_from, elo, ehi. cbn [fst]. rewrite L1, L2. rewrite overlap_rk in N. lia. }
        destruct (Forall_dec (apart_from (lo q) (hi q)) (fun e => match Z_le_dec (ehi e) (lo q) with left a => left (or_introl a) | right a =>
            match Z_le_dec (hi q) (elo e) with left b => left (or_intror b) | right b => right (fun o => match o with or_introl c => a c | or_intror c => b c end) end end) (z_inner z)) as [D|D].
        + rewrite Z1, Z1' by tauto. reflexivity.
        + rewrite Z2, Z2' by tauto. reflexivity.
      - unfold is_zero_overlap. rewrite iip_invalid by exact Vq. reflexivity.
    Qed.
    Lemma cut_elsewhere z z' k v q : ZWF z -> insert_strict_back k v z = (z', Val (Ok tt)) -> lo q <= hi q -> ~ overlap k q ->
      (hi q < lo k -> snd (zosdit_cut q z') = snd (zosdit_cut q z)) /\
      (hi k < lo q -> (exists e, In e (zosdit_iter z) /\ elo e < lo q <= ehi e) -> snd (zosdit_cut q z') = snd (zosdit_cut q z)) /\
      (hi k < lo q -> ~ (exists e, In e (zosdit_iter z) /\ elo e < lo q <= ehi e) -> zosdit_cut q z' = (z', Val [])).
    Proof.
      intros W E Vq N. destruct (insert_elsewhere z z' k v q W E Vq N) as (A & A' & M & B & B' & E1 & E2 & HA & HA' & HM & HB & HB').
      destruct (insert_ok_apart z k v z' W E) as (Vk & _ & _ & W' & l1 & l2 & k' & I1 & I2 & L1 & L2).
      pose proof (cut_zosdit_cases z q A M B W Vq E1 HA HM HB) as C. pose proof (cut_zosdit_cases z' q A' M B' W' Vq E2 HA' HM HB') as C'.
      assert (In_iter : forall e, In e (zosdit_iter z') <-> In e (zosdit_iter z) \/ e = (k', v)).
      { intros e. rewrite I1, I2, !in_app_iff. cbn [In]. split; [intros [X|[X|X]]; auto|intros [[X|X]|X]; auto]. }
      assert (Same : (cuttable z q <-> cuttable z' q) -> snd (zosdit_cut q z') = snd (zosdit_cut q z)).
      { intros X. destruct C as [(C & n & -> & _)|(C & ->)], C' as [(C' & n' & -> & _)|(C' & ->)]; try reflexivity; tauto. }
      unfold cuttable in *. fold (zosdit_iter z) (zosdit_iter z') in *. split; [|split].
      - intros X. apply Same. split; (intros [(e & He & Y)|Y]; [left|right]).
        + exists e. split; [apply In_iter; auto|exact Y].
        + intros e He. apply In_iter in He. destruct He as [He| ->]; [apply Y, He|]. unfold ehi. cbn [fst]. lia.
        + apply In_iter in He. destruct He as [He| ->]; [exists e; auto|]. unfold elo, ehi in Y. cbn [fst] in Y. lia.
        + intros e He. apply Y, In_iter. auto.
      - intros X (e & He & Y). apply Same. split; intros _; left; exists e; (split; [|exact Y]); [apply In_iter; auto|exact He].
      - intros X Y. destruct C' as [(C' & _)|(_ & C')]; [exfalso|exact C']. destruct C' as [(e & He & Z)|Z].
        + apply In_iter in He. destruct He as [He| ->]; [apply Y; exists e; auto|]. unfold elo, ehi in Z. cbn [fst] in Z. lia.
        + assert (T := Z (k', v) (proj2 (In_iter _) (or_intror eq_refl))). unfold ehi in T. cbn [fst] in T. lia.
    Qed.
  End Query.

  Lemma last_value_elsewhere (l1 l2 : list (K * V)) e p v : ~ covers (fst e) p -> last_value (l1 ++ l2) p v -> last_value (l1 ++ e :: l2) p v.
  Proof.
    intros N (m1 & k & m2 & E & C & F). apply app_eq_app in E. destruct E as (t & [[-> E]|[-> E]]).
    - destruct t as [|x t]; cbn [app] in E.
      + subst l2. rewrite app_nil_r. exists (m1 ++ [e]), k, m2. rewrite <- app_assoc. auto.
      + injection E as <- ->. exists m1, k, (t ++ e :: l2). rewrite <- app_assoc. split; [reflexivity|]. split; [exact C|].
        intros x Hx. apply in_app_iff in Hx. destruct Hx as [Hx|[<-|Hx]]; [apply F, in_app_iff; auto|exact N|apply F, in_app_iff; auto].
    - subst l2. exists (l1 ++ e :: t), k, m2. rewrite <- app_assoc. auto.
  Qed.
  Lemma get_last_elsewhere z z' k v p : ZWF z -> insert_strict_back k v z = (z', Val (Ok tt)) -> ~ covers k p ->
    (hi k < rk p -> get_last_value_at_point z' p = get_last_value_at_point z p) /\
    (rk p < lo k -> (exists e, In e (zosdit_iter z) /\ elo e <= rk p < ehi e) -> get_last_value_at_point z' p = get_last_value_at_point z p) /\
    (rk p < lo k -> ~ (exists e, In e (zosdit_iter z) /\ elo e <= rk p < ehi e) -> get_last_value_at_point z' p = None).
  Proof.
    intros W E N. destruct (insert_ok_apart z k v z' W E) as (Vk & _ & _ & W' & l1 & l2 & k' & I1 & I2 & L1 & L2).
    assert (N' : ~ covers k' p) by (rewrite covers_rk, L1, L2, <- covers_rk; exact N).
    assert (In_iter : forall e, In e (zosdit_iter z') <-> In e (zosdit_iter z) \/ e = (k', v)).
    { intros e. rewrite I1, I2, !in_app_iff. cbn [In]. split; [intros [X|[X|X]]; auto|intros [[X|X]|X]; auto]. }
    assert (Same : findable z p -> findable z' p -> get_last_value_at_point z' p = get_last_value_at_point z p).
    { intros F F'. destruct (get_last_char z p W F) as [_ G]. destruct (get_last_char z' p W' F') as [G1 G2].
      destruct (get_last_value_at_point z p) as [w|] eqn:Eg.
      - apply G1. rewrite I2. apply last_value_elsewhere; [exact N'|]. rewrite <- I1. apply get_last_sound; assumption.
      - apply G2. intros e He. apply In_iter in He. destruct He as [He| ->]; [|exact N']. apply (proj1 G eq_refl e He). }
    unfold findable in Same. fold (zosdit_iter z) (zosdit_iter z') in Same.
    assert (Dec : findable z p \/ ~ findable z p).
    { destruct (remove_last_cases z p W) as [(m1 & m2 & x & w & y & X)|_]; [left; apply X|].
      unfold findable. fold (zosdit_iter z).
      destruct (Exists_dec (fun e => elo e <= rk p < ehi e) (zosdit_iter z)) as [D|D].
      { intros e. destruct (Z_le_dec (elo e) (rk p)), (Z_lt_dec (rk p) (ehi e)); [left|right|right|right]; lia. }
      - left. left. apply Exists_exists in D. exact D.
      - destruct (Forall_dec (fun e => ehi e <= rk p) (fun e => Z_le_dec (ehi e) (rk p)) (zosdit_iter z)) as [F|F].
        + left. right. apply Forall_forall. exact F.
        + right. intros [X|X]; [apply D, Exists_exists, X|apply F, Forall_forall, X]. }
    split; [|split].
    - intros X.
      assert (Y : findable z p <-> findable z' p).
      { unfold findable. fold (zosdit_iter z) (zosdit_iter z'). split; (intros [(e & He & Y)|Y]; [left|right]).
        + exists e. split; [apply In_iter; auto|exact Y].
        + intros e He. apply In_iter in He. destruct He as [He| ->]; [apply Y, He|]. unfold ehi. cbn [fst]. lia.
        + apply In_iter in He. destruct He as [He| ->]; [exists e; auto|]. unfold elo, ehi in Y. cbn [fst] in Y. lia.
        + intros e He. apply Y, In_iter. auto. }
      destruct Dec as [D|D]; [apply Same; [exact D|apply Y, D]|]. rewrite (get_last_not_found z p W D). apply get_last_not_found; tauto.
    - intros X (e & He & Y). apply Same; left; exists e; (split; [|exact Y]); [exact He|apply In_iter; auto].
    - intros X Y. apply get_last_not_found; [exact W'|]. unfold findable. fold (zosdit_iter z'). intros [(e & He & T)|T].
      + apply In_iter in He. destruct He as [He| ->]; [apply Y; exists e; auto|]. unfold elo, ehi in T. cbn [fst] in T. lia.
      + assert (U := T (k', v) (proj2 (In_iter _) (or_intror eq_refl))). unfold ehi in U. cbn [fst] in U. lia.
  Qed.
  Lemma remove_last_answer z p : ZWF z -> snd (remove_last_value_at_point p z) = Val (get_last_value_at_point z p).
  Proof.
    intros W. destruct (remove_last_cases z p W) as [(l1 & l2 & k & v & y & -> & -> & _)|(-> & -> & _)]; reflexivity.
  Qed.
  Lemma later_point z p : ZWF z ->
    ((exists e x, In e (zosdit_iter z) /\ covers (fst e) p /\ covers (fst e) x /\ plt p x) <->
     exists e, In e (zosdit_iter z) /\ elo e <= rk p < ehi e).
  Proof.
    intros W. split.
    - intros (e & x & Hi & Hp & Hx & Hl). exists e. split; [exact Hi|]. apply covers_rk in Hp, Hx. rewrite plt_rk in Hl. unfold elo, ehi. lia.
    - intros (e & Hi & L). exists e, (iend (fst e)). pose proof (iter_okv z e W Hi) as Ve. unfold okv, elo, ehi in *. split; [exact Hi|].
      split; [apply covers_rk; lia|]. split; [apply covers_rk; unfold lo, hi in *; lia|]. rewrite plt_rk. unfold lo, hi in *. lia.
  Qed.
  Lemma earlier_point {Q} {IQ : InclusiveInterval I Q} z (q : Q) : ZWF z -> lo q <= hi q ->
    ((exists e x, In e (zosdit_iter z) /\ overlap (fst e) q /\ covers (fst e) x /\ forall y, covers q y -> plt x y) <->
     exists e, In e (zosdit_iter z) /\ elo e < lo q <= ehi e).
  Proof.
    intros W Vq. split.
    - intros (e & x & Hi & Ho & Hx & Hq). exists e. split; [exact Hi|]. apply overlap_rk in Ho. apply covers_rk in Hx.
      specialize (Hq (istart q)). rewrite covers_rk, plt_rk in Hq. unfold elo, ehi, lo, hi in *. lia.
    - intros (e & Hi & L). exists e, (istart (fst e)). pose proof (iter_okv z e W Hi) as Ve. unfold okv, elo, ehi in *. split; [exact Hi|].
      split; [apply overlap_rk; lia|]. split; [apply covers_rk; unfold lo, hi in *; lia|]. intros y Hy. apply covers_rk in Hy. rewrite plt_rk. unfold lo, hi in *. lia.
  Qed.
  Lemma point_after k p : lo k <= hi k -> ((forall x, covers k x -> plt x p) <-> hi k < rk p).
  Proof.
    intros Vk. split.
    - intros X. specialize (X (iend k)). rewrite covers_rk, plt_rk in X. unfold lo, hi in *. lia.
    - intros X x Hx. apply covers_rk in Hx. apply plt_rk. lia.
  Qed.
  Lemma point_before k p : lo k <= hi k -> ((forall x, covers k x -> plt p x) <-> rk p < lo k).
  Proof.
    intros Vk. split.
    - intros X. specialize (X (istart k)). rewrite covers_rk, plt_rk in X. unfold lo, hi in *. lia.
    - intros X x Hx. apply covers_rk in Hx. apply plt_rk. lia.
  Qed.
  Lemma point_calls_elsewhere z z' k v p : ZWF z -> insert_strict_back k v z = (z', Val (Ok tt)) ->
    let reached := exists e x, In e (zosdit_iter z) /\ covers (fst e) p /\ covers (fst e) x /\ plt p x in
    ((forall x, covers k x -> plt x p) \/ (forall x, covers k x -> plt p x) /\ reached ->
       get_last_value_at_point z' p = get_last_value_at_point z p /\
       snd (remove_last_value_at_point p z') = snd (remove_last_value_at_point p z)) /\
    ((forall x, covers k x -> plt p x) /\ ~ reached ->
       get_last_value_at_point z' p = None /\ remove_last_value_at_point p z' = (z', Val None)).
  Proof.
    intros W E reached. subst reached. destruct (insert_ok_apart z k v z' W E) as (Vk & _ & _ & W' & _).
    rewrite (later_point z p W), (point_after k p Vk), (point_before k p Vk).
    rewrite !remove_last_answer by assumption. split.
    - intros X. assert (T : get_last_value_at_point z' p = get_last_value_at_point z p); [|rewrite T; auto].
      assert (N : ~ covers k p) by (rewrite covers_rk; lia). destruct (get_last_elsewhere z z' k v p W E N) as (G1 & G2 & _).
      destruct X as [X|[X Y]]; auto.
    - intros [X Y]. assert (N : ~ covers k p) by (rewrite covers_rk; lia). destruct (get_last_elsewhere z z' k v p W E N) as (_ & _ & G3).
      assert (T : get_last_value_at_point z' p = None) by auto.
      split; [exact T|]. destruct (remove_last_cases z' p W') as [(l1 & l2 & a & b & y & G & _)|(_ & G & _)]; [congruence|exact G].
  Qed.
  Lemma cut_calls_elsewhere {Q} {IQ : InclusiveInterval I Q} z z' k v (q : Q) : ZWF z -> insert_strict_back k v z = (z', Val (Ok tt)) -> valid q ->
    let reached := exists e x, In e (zosdit_iter z) /\ overlap (fst e) q /\ covers (fst e) x /\ (forall y, covers q y -> plt x y) in
    (before q k \/ before k q /\ reached -> snd (zosdit_cut q z') = snd (zosdit_cut q z)) /\
    (before k q /\ ~ reached -> zosdit_cut q z' = (z', Val [])).
  Proof.
    intros W E Vq reached. subst reached. apply valid_rk in Vq. destruct (insert_ok_apart z k v z' W E) as (Vk & _).
    rewrite (earlier_point z q W Vq), !before_rk by assumption. split.
    - intros X. assert (N : ~ overlap k q) by (rewrite overlap_rk; lia). destruct (cut_elsewhere z z' k v q W E Vq N) as (G1 & G2 & _).
      destruct X as [X|[X Y]]; auto.
    - intros [X Y]. assert (N : ~ overlap k q) by (rewrite overlap_rk; lia). destruct (cut_elsewhere z z' k v q W E Vq N) as (_ & _ & G3). auto.
  Qed.
End Local.
