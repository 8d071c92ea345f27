(** * SearchFacts: lemmas for C151. *)
From Coq Require Import List Bool Arith Lia.
From Verif Require Import Base BTree UtilsModel IntervalModel NoditModel NoditOps ZosditModel ZosditOps Spec TreeShape SearchOps
  PointFacts IntervalFacts NoditFacts NoditInv NoditQueries ZosditFacts ZosditMut ZosditProofs TreeFacts TreeProofs.
Import ListNotations.
Open Scope nat_scope.

Scheme btree_ind2 := Minimality for btree Sort Prop
  with bnode_ind2 := Minimality for bnode Sort Prop.
Combined Scheme btree_mutind from btree_ind2, bnode_ind2.

Section Asks.
  Context {K V : Type}.
  Implicit Types (comp : K -> comparison) (t : tree K V) (n : edges K V).

  Lemma search_node_More comp t kv n : search_node comp (More t kv n) = match comp (fst kv) with
    | Gt => let '(a, x, b) := search_node comp n in (entries t ++ kv :: a, x, b)
    | Eq => (entries t, Some kv, edges_entries n)
    | Lt => let '(a, x, b) := search comp t in (a, x, b ++ kv :: edges_entries n) end.
  Proof. reflexivity. Qed.
  Lemma asks_node_More comp t kv n : asks_node comp (More t kv n) = fst kv :: match comp (fst kv) with
    | Gt => asks_node comp n | Eq => [] | Lt => asks comp t end.
  Proof. reflexivity. Qed.

  Lemma asks_suffice comp comp' :
    (forall t, (forall k, In k (asks comp t) -> comp' k = comp k) -> search comp' t = search comp t /\ asks comp' t = asks comp t) /\
    (forall n, (forall k, In k (asks_node comp n) -> comp' k = comp k) -> search_node comp' n = search_node comp n /\ asks_node comp' n = asks_node comp n).
  Proof.
    apply tree_mutind.
    - split; reflexivity.
    - intros n IH. exact IH.
    - intros t IH. exact IH.
    - intros t IHt kv n IHn. rewrite !asks_node_More, !search_node_More. intros Hk. rewrite (Hk (fst kv) (or_introl eq_refl)).
      destruct (comp (fst kv)).
      + split; reflexivity.
      + destruct IHt as [-> ->]; [intros k Ik; apply Hk; right; exact Ik|]. split; reflexivity.
      + destruct IHn as [-> ->]; [intros k Ik; apply Hk; right; exact Ik|]. split; reflexivity.
  Qed.

  Lemma asks_stored comp :
    (forall t, incl (asks comp t) (map fst (entries t))) /\ (forall n, incl (asks_node comp n) (map fst (edges_entries n))).
  Proof.
    apply tree_mutind.
    - intros k [].
    - intros n IH. exact IH.
    - intros t IH. exact IH.
    - intros t IHt kv n IHn k. rewrite asks_node_More. change (edges_entries (More t kv n)) with (entries t ++ kv :: edges_entries n). rewrite map_app, in_app_iff. cbn [map In].
      intros [<-|Ik]; [right; left; reflexivity|]. destruct (comp (fst kv)); [destruct Ik|left; apply IHt, Ik|right; right; apply IHn, Ik].
  Qed.

  Lemma asks_depth comp :
    (forall root d t, btree root d t -> length (asks comp t) <= 11 * d) /\
    (forall d n, bnode d n -> length (asks_node comp n) <= keys n + 11 * d).
  Proof.
    apply btree_mutind.
    - intros root. cbn. lia.
    - intros root d n Hk _ IH. change (asks comp (Node n)) with (asks_node comp n). destruct root; lia.
    - intros d t _ IH. change (asks_node comp (Last t)) with (asks comp t). cbn [keys]. lia.
    - intros d t kv n _ IHt _ IHn. rewrite asks_node_More. cbn [keys length]. destruct (comp (fst kv)); cbn [length]; lia.
  Qed.

  Lemma tree_size :
    (forall root d t, btree root d t -> (root = false -> 6 ^ d <= S (length (entries t))) /\
       (root = true -> d = 0 \/ 2 * 6 ^ (d - 1) <= S (length (entries t)))) /\
    (forall d n, bnode d n -> S (keys n) * 6 ^ d <= S (length (edges_entries n))).
  Proof.
    apply btree_mutind.
    - intros root. split; intros _; [cbn; lia|left; reflexivity].
    - intros root d n Hk _ IH. change (entries (Node n)) with (edges_entries n). replace (S d - 1) with d by lia. rewrite Nat.pow_succ_r'. split; intros ->.
      + nia.
      + right. nia.
    - intros d t _ [IH _]. change (edges_entries (Last t)) with (entries t). cbn [keys]. specialize (IH eq_refl). lia.
    - intros d t kv n _ [IHt _] _ IHn. change (edges_entries (More t kv n)) with (entries t ++ kv :: edges_entries n). cbn [keys]. specialize (IHt eq_refl). rewrite app_length. cbn [length]. lia.
  Qed.

  Lemma asks_few comp d t : btree true d t -> few 1 (length (entries t)) (length (asks comp t)).
  Proof.
    intros B. pose proof (proj1 (asks_depth comp) _ _ _ B) as A. destruct (proj1 tree_size _ _ _ B) as [_ S1]. specialize (S1 eq_refl).
    unfold few. destruct d as [|d]; [lia|]. destruct S1 as [S1|S1]; [discriminate|]. replace (S d - 1) with d in S1 by lia.
    assert (P : 4 ^ d <= 6 ^ d) by (apply Nat.pow_le_mono_l; lia).
    assert (L : 1 + 2 * d <= Nat.log2 (S (length (entries t)))).
    { apply Nat.log2_le_pow2; [lia|]. rewrite Nat.pow_add_r, Nat.pow_mul_r. change (2 ^ 2) with 4. change (2 ^ 1) with 2. lia. }
    lia.
  Qed.
End Asks.

Lemma few_add a b n x y : few a n x -> few b n y -> few (a + b) n (x + y).
Proof. unfold few. rewrite Nat.mul_add_distr_r. lia. Qed.
Lemma few_app {A} a b n (x y : list A) : few a n (length x) -> few b n (length y) -> few (a + b) n (length (x ++ y)).
Proof. rewrite app_length. apply few_add. Qed.
Lemma few_le a b n x : a <= b -> few a n x -> few b n x.
Proof. unfold few. nia. Qed.

Section Nodit.
  Context {I : Type} `{PL : PointLaws I}.
  Context {K : Type} {IK : InclusiveInterval I K} {IL : IntervalLaws I K}.
  Context {V : Type}.
  Implicit Types (m : NoditMap K V) (p : I) (t : tree K V).

  Lemma c_get_key_value_same m p d t : WF m -> btree true d t -> entries t = m ->
    fst (c_get_key_value_at_point t p) = get_key_value_at_point m p /\
    few 3 (len m) (length (snd (c_get_key_value_at_point t p))) /\
    (covered (iter m) p -> few 1 (len m) (length (snd (c_get_key_value_at_point t p)))).
  Proof.
    intros W B E. destruct (orderly_shape_free _ _ (orderly_overlapping p m W) t E) as (Eg & _ & _ & El & Eu).
    pose proof (asks_few (overlapping_comp p) d t B) as F. rewrite E in F. fold (len m) in F.
    unfold c_get_key_value_at_point, get_key_value_at_point, c_get_gap_at_raw, get_gap_at_raw. rewrite Eg, El, Eu.
    destruct (get_key_value (overlapping_comp p) m) as [kv|] eqn:EG; cbn [fst snd].
    - split; [reflexivity|]. split; [|auto]. apply (few_le 1); [lia|exact F].
    - split; [reflexivity|]. split; [exact (few_app 1 2 _ _ _ F (few_app 1 1 _ _ _ F F))|].
      intros (k & v & Hk & Hc). exfalso. assert (X : get_key_value_at_point m p = Val (Ok (k, v))) by (apply get_key_value_at_point_Ok; auto).
      unfold get_key_value_at_point in X. rewrite EG in X. destruct (get_gap_at_raw m p); discriminate.
  Qed.

  Lemma c_get_at_point_mut_same f m p d t : WF m -> btree true d t -> entries t = m ->
    fst (c_get_at_point_mut f p t) = get_at_point_mut f p m /\ few 1 (len m) (length (snd (c_get_at_point_mut f p t))).
  Proof.
    intros W B E. destruct (orderly_shape_free _ _ (orderly_overlapping p m W) t E) as (_ & Em & _).
    pose proof (asks_few (overlapping_comp p) d t B) as F. rewrite E in F. split; [apply Em|exact F].
  Qed.

  Lemma c_overlaps_same {Q} `{IQ : InclusiveInterval I Q} m (q : Q) d t : WF m -> btree true d t -> entries t = m ->
    fst (c_overlaps t q) = map_overlaps m q /\ few 2 (len m) (length (snd (c_overlaps t q))).
  Proof.
    intros W B E. unfold c_overlaps, map_overlaps, overlapping.
    destruct (invalid_interval_panic q) as [u|]; cbn [obind fst snd]; [|split; [reflexivity|unfold few; cbn [length]; lia]].
    rewrite (orderly_range_shape_free _ _ _ (orderly_overlapping (istart q) m W) (orderly_overlapping (iend q) m W) t E).
    split; [reflexivity|]. pose proof (asks_few (overlapping_comp (istart q)) d t B) as F1. pose proof (asks_few (overlapping_comp (iend q)) d t B) as F2.
    rewrite E in F1, F2. exact (few_app 1 1 _ _ _ F1 F2).
  Qed.

  Lemma c_insert_strict_same m k v d t : WF m -> btree true d t -> entries t = m ->
    fst (c_insert_strict k v t) = insert_strict k v m /\ few 3 (len m) (length (snd (c_insert_strict k v t))).
  Proof.
    intros W B E. destruct (c_overlaps_same m k d t W B E) as [A F]. unfold c_insert_strict, insert_strict.
    assert (A0 : map_overlaps m k = let? _ := invalid_interval_panic k in map_overlaps m k).
    { unfold map_overlaps. destruct (invalid_interval_panic k); reflexivity. }
    destruct (invalid_interval_panic k) as [u|]; cbn [obind] in A0.
    - destruct (c_overlaps t k) as [o asked]. cbn [fst snd] in *. subst o. destruct (map_overlaps m k) as [[|]|]; cbn [fst snd].
      + split; [subst; reflexivity|]. apply (few_le 2); [lia|exact F].
      + rewrite (orderly_insert_shape_free k starts_comp m (orderly_starts k m W) t v E). split; [reflexivity|].
        pose proof (asks_few (fun inner => starts_comp inner k) d t B) as F1. rewrite E in F1. exact (few_app 2 1 _ _ _ F F1).
      + split; [subst; reflexivity|]. apply (few_le 2); [lia|exact F].
    - rewrite A0 in A. destruct (c_overlaps t k) as [o asked]. cbn [fst snd] in *. subst o. split; [subst; reflexivity|]. apply (few_le 2); [lia|exact F].
  Qed.
End Nodit.

Section Zosdit.
  Context {I : Type} `{PL : PointLaws I}.
  Context {K : Type} {IK : InclusiveInterval I K} {IL : IntervalLaws I K}.
  Context {V : Type}.
  Implicit Types (z : ZosditMap K V) (p : I) (t : tree K (list V)).

  Lemma inner_le_iter z : ZWF z -> length (z_inner z) <= length (zosdit_iter z).
  Proof.
    intros (_ & O & _). unfold zosdit_iter. induction O as [|[k vs] l Ok O IH]; [cbn; lia|].
    rewrite flatten_cons, app_length, map_length. cbn [length]. destruct Ok as [Ok1 Ok2]. cbn [fst snd] in *. destruct vs; [exfalso; auto|cbn [length]; lia].
  Qed.
  Lemma few_mono c n n' x : n <= n' -> few c n x -> few c n' x.
  Proof. unfold few. intros L F. pose proof (Nat.log2_le_mono (S n) (S n') ltac:(lia)). nia. Qed.

  Lemma c_get_last_same z p d t : ZWF z -> btree true d t -> entries t = z_inner z ->
    fst (c_get_last_value_at_point t p) = get_last_value_at_point z p /\
    few 1 (length (zosdit_iter z)) (length (snd (c_get_last_value_at_point t p))).
  Proof.
    intros W B E. pose proof W as (Z & _). destruct (orderly_shape_free _ _ (orderly_exclusive_Gt p (z_inner z) Z) t E) as (_ & _ & _ & El & _).
    unfold c_get_last_value_at_point, get_last_value_at_point, last_value_cursor. rewrite El. split; [reflexivity|].
    pose proof (asks_few (exclusive_comp p Gt) d t B) as F. rewrite E in F. exact (few_mono _ _ _ _ (inner_le_iter z W) F).
  Qed.
  Lemma c_is_zero_overlap_same {Q} `{IQ : InclusiveInterval I Q} z (q : Q) d t : ZWF z -> btree true d t -> entries t = z_inner z ->
    fst (c_is_zero_overlap t q) = is_zero_overlap z q /\ few 2 (length (zosdit_iter z)) (length (snd (c_is_zero_overlap t q))).
  Proof.
    intros W B E. pose proof W as (Z & _). unfold c_is_zero_overlap, is_zero_overlap.
    destruct (invalid_interval_panic q) as [u|]; cbn [obind fst snd]; [|split; [reflexivity|unfold few; cbn [length]; lia]].
    rewrite (orderly_range_shape_free _ _ _ (orderly_exclusive_Gt (istart q) _ Z) (orderly_exclusive_Lt (iend q) _ Z) t E).
    split; [reflexivity|]. pose proof (asks_few (exclusive_comp (istart q) Gt) d t B) as F1. pose proof (asks_few (exclusive_comp (iend q) Lt) d t B) as F2.
    rewrite E in F1, F2. exact (few_mono _ _ _ _ (inner_le_iter z W) (few_app 1 1 _ _ _ F1 F2)).
  Qed.
End Zosdit.

(** Every list of entries fits into a B-tree. *)
Section Grow.
  Context {K V : Type}.
  Implicit Types (t : tree K V) (n : edges K V) (l : BTreeMap K V).

  Lemma split_at l s : 1 <= s -> s <= length l -> exists l1 kv l2, l = l1 ++ kv :: l2 /\ S (length l1) = s.
  Proof.
    intros S1 S2. exists (firstn (s - 1) l). destruct (skipn (s - 1) l) as [|kv l2] eqn:E.
    - apply (f_equal (@length _)) in E. rewrite skipn_length in E. cbn in E. lia.
    - exists kv, l2. split; [rewrite <- E; symmetry; apply firstn_skipn|]. rewrite firstn_length. lia.
  Qed.

  Definition fits d l : Prop := 6 ^ d <= S (length l) <= 12 ^ d -> exists t, btree false d t /\ entries t = l.

  Lemma grow_node d : (forall l, fits d l) -> forall c l, S c * 6 ^ d <= S (length l) <= S c * 12 ^ d ->
    exists n, keys n = c /\ bnode d n /\ edges_entries n = l.
  Proof.
    intros HT. induction c as [|c IH]; intros l L.
    - destruct (HT l) as (t & B & E); [lia|]. exists (Last t). split; [reflexivity|]. split; [constructor; exact B|exact E].
    - assert (P : 1 <= 6 ^ d) by (change 1 with (6 ^ 0); apply Nat.pow_le_mono_r; lia).
      assert (P' : 6 ^ d <= 12 ^ d) by (apply Nat.pow_le_mono_l; lia).
      destruct (split_at l (Nat.max (6 ^ d) (S (length l) - S c * 12 ^ d))) as (l1 & kv & l2 & -> & Hs); [lia|nia|].
      rewrite app_length in *. cbn [length] in *.
      destruct (HT l1) as (t & B & E1); [nia|]. destruct (IH l2) as (n & Hk & Bn & E2); [nia|].
      exists (More t kv n). split; [cbn; lia|]. split; [constructor; assumption|].
      change (edges_entries (More t kv n)) with (entries t ++ kv :: edges_entries n). rewrite E1, E2. reflexivity.
  Qed.

  Lemma pow_double d : 1 <= d -> 2 * 6 ^ d <= 12 ^ d.
  Proof. intros D1. change 12 with (2 * 6). rewrite Nat.pow_mul_l. apply Nat.mul_le_mono_r. change 2 with (2 ^ 1) at 1. apply Nat.pow_le_mono_r; lia. Qed.

  Lemma grow_tree d : forall l, fits d l.
  Proof.
    induction d as [|d IH]; intros l L.
    - cbn in L. assert (E : l = []) by (destruct l; [reflexivity|cbn in L; lia]). exists Tip. split; [constructor|symmetry; exact E].
    - assert (X : exists c, 5 <= c <= 11 /\ S c * 6 ^ d <= S (length l) <= S c * 12 ^ d).
      { rewrite !Nat.pow_succ_r' in L. destruct (Nat.eq_dec d 0) as [->|D].
        - exists (length l). cbn in *. lia.
        - pose proof (pow_double d ltac:(lia)). destruct (le_lt_dec (S (length l)) (6 * 12 ^ d)); [exists 5|exists 11]; lia. }
      destruct X as (c & Hc & X). destruct (grow_node d IH c l X) as (n & Hk & Bn & E).
      exists (Node n). split; [constructor; [lia|exact Bn]|exact E].
  Qed.

  Lemma root_depth N D : 2 <= N -> N <= 12 ^ S D -> exists d, 2 * 6 ^ d <= N <= 12 ^ S d.
  Proof.
    intros N2. induction D as [|D IH]; intros L; [exists 0; cbn in *; lia|].
    destruct (le_lt_dec N (12 ^ S D)) as [L'|L']; [exact (IH L')|]. exists (S D). pose proof (pow_double (S D) ltac:(lia)). lia.
  Qed.

  Lemma any_list_fits l : exists d t, btree true d t /\ entries t = l.
  Proof.
    destruct l as [|e l0] eqn:El; [exists 0, Tip; split; [constructor|reflexivity]|].
    assert (L : 2 <= S (length l)) by (subst; cbn; lia). rewrite <- El. clear El e l0.
    destruct (root_depth (S (length l)) (length l) L) as (d & Hd).
    { apply Nat.lt_le_incl, Nat.pow_gt_lin_r. lia. }
    assert (X : exists c, 1 <= c <= 11 /\ S c * 6 ^ d <= S (length l) <= S c * 12 ^ d).
    { rewrite !Nat.pow_succ_r' in Hd. destruct (Nat.eq_dec d 0) as [->|D].
      - exists (length l). cbn in *. lia.
      - pose proof (pow_double d ltac:(lia)). destruct (le_lt_dec (S (length l)) (2 * 12 ^ d)); [exists 1; lia|].
        destruct (le_lt_dec (S (length l)) (4 * 12 ^ d)); [exists 3; lia|]. destruct (le_lt_dec (S (length l)) (8 * 12 ^ d)); [exists 7; lia|exists 11; lia]. }
    destruct X as (c & Hc & X). destruct (grow_node d (grow_tree d) c l X) as (n & Hk & Bn & E).
    exists (S d), (Node n). split; [constructor; [lia|exact Bn]|exact E].
  Qed.
End Grow.
