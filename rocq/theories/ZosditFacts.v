(** * ZosditFacts: what every ZosditMap function computes on a sorted map. *)
From Coq Require Import List ZArith Bool Lia ZifyBool Sorting.Sorted Permutation.
From Verif Require Import Base BTree UtilsModel IntervalModel NoditModel ZosditModel Spec ZosditOps
  PointFacts IntervalFacts ListFacts NoditFacts NoditQueries NoditGaps NoditMutations IntervalProofs.
Import ListNotations.
Open Scope Z_scope.

(** ** Zero-overlap and the comparators in terms of ranks *)
Section Comps.
  Context {I : Type} `{PL : PointLaws I}.

  Section One.
    Context {K : Type} {IK : InclusiveInterval I K}.
    Implicit Types (k : K) (p : I).
    Lemma exclusive_Gt_Gt p k : lo k <= hi k -> (exclusive_comp p Gt k = Gt <-> hi k <= rk p).
    Proof.
      intros Vk. unfold exclusive_comp. rewrite !eqb_rk, leb_rk, geb_rk, <- lo_rk, <- hi_rk.
      destruct ((rk p =? lo k) && (rk p =? hi k)) eqn:E; [split; [intros _; lia|reflexivity]|].
      destruct (rk p <=? lo k) eqn:E1; [split; [discriminate|lia]|].
      destruct (hi k <=? rk p) eqn:E2; (split; [try discriminate; intros _; lia|try reflexivity; lia]).
    Qed.
    Lemma exclusive_Gt_Lt p k : lo k <= hi k -> (exclusive_comp p Gt k = Lt <-> rk p <= lo k /\ rk p < hi k).
    Proof.
      intros Vk. unfold exclusive_comp. rewrite !eqb_rk, leb_rk, geb_rk, <- lo_rk, <- hi_rk.
      destruct ((rk p =? lo k) && (rk p =? hi k)) eqn:E; [split; [discriminate|lia]|].
      destruct (rk p <=? lo k) eqn:E1; [split; [intros _; lia|reflexivity]|].
      destruct (hi k <=? rk p) eqn:E2; (split; [discriminate|lia]).
    Qed.
    Lemma exclusive_Lt_Lt p k : lo k <= hi k -> (exclusive_comp p Lt k = Lt <-> rk p <= lo k).
    Proof.
      intros Vk. unfold exclusive_comp. rewrite !eqb_rk, leb_rk, geb_rk, <- lo_rk, <- hi_rk.
      destruct ((rk p =? lo k) && (rk p =? hi k)) eqn:E; [split; [intros _; lia|reflexivity]|].
      destruct (rk p <=? lo k) eqn:E1; [split; [intros _; lia|reflexivity]|].
      destruct (hi k <=? rk p) eqn:E2; (split; [discriminate|lia]).
    Qed.
    Lemma exclusive_Lt_Gt p k : lo k <= hi k -> (exclusive_comp p Lt k = Gt <-> hi k <= rk p /\ lo k < rk p).
    Proof.
      intros Vk. unfold exclusive_comp. rewrite !eqb_rk, leb_rk, geb_rk, <- lo_rk, <- hi_rk.
      destruct ((rk p =? lo k) && (rk p =? hi k)) eqn:E; [split; [discriminate|lia]|].
      destruct (rk p <=? lo k) eqn:E1; [split; [discriminate|lia]|].
      destruct (hi k <=? rk p) eqn:E2; (split; [try discriminate; intros _; lia|try reflexivity; lia]).
    Qed.
    Lemma inclusive_Lt_Gt p k : lo k <= hi k -> (inclusive_comp p Lt k = Gt <-> hi k < rk p).
    Proof.
      intros Vk. unfold inclusive_comp. rewrite ltb_rk, gtb_rk, <- lo_rk, <- hi_rk.
      destruct (rk p <? lo k) eqn:E1; [split; [discriminate|lia]|].
      destruct (hi k <? rk p) eqn:E2; (split; [try discriminate; intros _; lia|try reflexivity; lia]).
    Qed.
    Lemma inclusive_Gt_Gt p k : lo k <= hi k -> (inclusive_comp p Gt k = Gt <-> lo k <= rk p).
    Proof.
      intros Vk. unfold inclusive_comp. rewrite ltb_rk, gtb_rk, <- lo_rk, <- hi_rk.
      destruct (rk p <? lo k) eqn:E1; [split; [discriminate|lia]|].
      destruct (hi k <? rk p) eqn:E2; (split; [intros _; lia|reflexivity]).
    Qed.
    Lemma inclusive_Gt_Lt p k : lo k <= hi k -> (inclusive_comp p Gt k = Lt <-> rk p < lo k).
    Proof.
      intros Vk. unfold inclusive_comp. rewrite ltb_rk, gtb_rk, <- lo_rk, <- hi_rk.
      destruct (rk p <? lo k) eqn:E1; [split; [intros _; lia|reflexivity]|].
      destruct (hi k <? rk p) eqn:E2; (split; [discriminate|lia]).
    Qed.
    Lemma singular_rk k : singular k <-> lo k = hi k.
    Proof.
      unfold singular. rewrite valid_rk. split.
      - intros [V Hs]. specialize (Hs (istart k) (iend k)). rewrite !covers_rk in Hs.
        unfold lo, hi in *. apply rk_eq, Hs; lia.
      - intros E. split; [lia|]. intros x y Hx Hy. rewrite covers_rk in Hx, Hy. apply rk_eq. lia.
    Qed.
  End One.

  Section Two.
    Context {A B : Type} {IA : InclusiveInterval I A} {IB : InclusiveInterval I B}.
    Lemma strictly_inside_rk (a : A) (b : B) : lo a <= hi a -> (strictly_inside a b <-> lo b < lo a /\ hi a < hi b).
    Proof.
      intros Va. unfold strictly_inside. split.
      - intros (x & y & Hx & Hy & Hp). apply covers_rk in Hx, Hy.
        pose proof (Hp (istart a)) as P1. pose proof (Hp (iend a)) as P2. rewrite covers_rk, !plt_rk in P1.
        rewrite covers_rk, !plt_rk in P2. unfold lo, hi in *. lia.
      - intros [L1 L2]. exists (istart b), (iend b). split; [apply covers_rk; unfold lo, hi in *; lia|].
        split; [apply covers_rk; unfold lo, hi in *; lia|]. intros p Hp. rewrite covers_rk in Hp.
        rewrite !plt_rk. unfold lo, hi in *. lia.
    Qed.
    Lemma up_to_rk (a : A) (b : B) : lo a <= hi a -> lo b <= hi b -> (up_to a b <-> hi a <= lo b).
    Proof.
      intros Va Vb. unfold up_to. split.
      - intros Hu. specialize (Hu (iend a) (istart b)). rewrite !covers_rk, ple_rk in Hu. unfold lo, hi in *. lia.
      - intros L x y Hx Hy. apply covers_rk in Hx. apply covers_rk in Hy. rewrite ple_rk. lia.
    Qed.
  End Two.
  Lemma zero_overlap_rk {A B : Type} {IA : InclusiveInterval I A} {IB : InclusiveInterval I B} (a : A) (b : B) :
    lo a <= hi a -> lo b <= hi b -> (zero_overlap a b <-> hi a <= lo b \/ hi b <= lo a).
  Proof.
    intros Va Vb. unfold zero_overlap. rewrite !singular_rk, !strictly_inside_rk by assumption. split.
    - intros (H1 & H2 & H3).
      destruct (Z_le_gt_dec (hi a) (lo b)) as [L|L]; [left; exact L|].
      destruct (Z_le_gt_dec (hi b) (lo a)) as [L'|L']; [right; exact L'|exfalso].
      destruct (rk_surj (istart a) (iend a) (Z.max (lo a) (lo b))) as (x & Ex); [unfold lo, hi in *; lia|].
      destruct (rk_surj (istart a) (iend a) (Z.min (hi a) (hi b))) as (y & Ey); [unfold lo, hi in *; lia|].
      specialize (H1 x y). rewrite !covers_rk in H1.
      assert (X : cmp x y = Eq) by (apply H1; lia). apply rk_eq in X. lia.
    - intros E. split; [|lia]. intros x y X1 X2 Y1 Y2. apply covers_rk in X1. apply covers_rk in X2. apply covers_rk in Y1. apply covers_rk in Y2. apply rk_eq. lia.
  Qed.
  Lemma zero_overlap_dec {A B : Type} {IA : InclusiveInterval I A} {IB : InclusiveInterval I B} (a : A) (b : B) :
    lo a <= hi a -> lo b <= hi b -> zero_overlap a b \/ ~ zero_overlap a b.
  Proof.
    intros Va Vb. rewrite zero_overlap_rk by assumption. lia.
  Qed.
End Comps.

Ltac zl := unfold elo, ehi in *; cbn in *; lia.

(** ** Sorted stores *)
Section Sorted.
  Context {I : Type} `{PL : PointLaws I}.
  Context {K : Type} {IK : InclusiveInterval I K} {IL : IntervalLaws I K}.
  Context {T : Type}.
  Notation entry := (K * T)%type.
  Definition le_entry (a b : entry) : Prop := ehi a <= elo b.
  Definition ZS (l : list entry) : Prop := StronglySorted le_entry l /\ Forall okv l.

  Lemma ZS_nil : ZS [].
  Proof. split; constructor. Qed.
  Lemma ZS_app l1 l2 : ZS (l1 ++ l2) <-> ZS l1 /\ ZS l2 /\ (forall x y, In x l1 -> In y l2 -> ehi x <= elo y).
  Proof. unfold ZS. rewrite SS_app, Forall_app. unfold le_entry. clear IL. firstorder. Qed.
  Lemma ZS_cons a l : ZS (a :: l) <-> elo a <= ehi a /\ ZS l /\ Forall (fun e => ehi a <= elo e) l.
  Proof. unfold ZS. rewrite SS_cons, Forall_cons_iff. unfold le_entry, okv. clear IL. firstorder. Qed.
  Lemma ZS_okv l e : ZS l -> In e l -> elo e <= ehi e.
  Proof. intros [_ Hf] Hi. rewrite Forall_forall in Hf. apply Hf, Hi. Qed.

  Lemma zsplit (p : entry -> bool) l : ZS l ->
    (forall x y, okv x -> okv y -> ehi x <= elo y -> p y = true -> p x = true) ->
    exists L R, l = L ++ R /\ Forall (fun e => p e = true) L /\ Forall (fun e => p e = false) R.
  Proof.
    intros W Hp. induction l as [|a l IH].
    - exists [], []. repeat split; constructor.
    - apply ZS_cons in W. destruct W as (Va & W & Ha). destruct (p a) eqn:E.
      + destruct (IH W) as (L & R & -> & HL & HR).
        exists (a :: L), R. split; [reflexivity|]. split; [constructor; assumption|assumption].
      + exists [], (a :: l). split; [reflexivity|]. split; [constructor|]. constructor; [exact E|].
        rewrite Forall_forall in *. intros x Hx. destruct (p x) eqn:Ex; [|reflexivity].
        rewrite (Hp a x) in E; [discriminate|exact Va|apply (ZS_okv _ _ W Hx)|apply Ha, Hx|exact Ex].
  Qed.
  (** Entries below, meeting and above [s..t]. *)
  Lemma zsplit3 l s t : ZS l -> s <= t ->
    exists A M B, l = A ++ M ++ B /\ Forall (left_of s) A /\ Forall (meets s t) M /\ Forall (right_of t) B.
  Proof.
    intros W Hst. destruct (zsplit (fun e => ehi e <? s) l W) as (A & R & -> & HA & HR); [unfold okv; intros; lia|].
    apply ZS_app in W. destruct W as (_ & WR & _).
    destruct (zsplit (fun e => elo e <=? t) R WR) as (M & B & -> & HM & HB); [unfold okv; intros; lia|].
    exists A, M, B. split; [reflexivity|]. unfold left_of, meets, right_of.
    rewrite Forall_app in HR. destruct HR as [HRM _].
    split; [|split]; rewrite Forall_forall in *; intros x Hx.
    - specialize (HA x Hx). lia.
    - specialize (HM x Hx). specialize (HRM x Hx). lia.
    - specialize (HB x Hx). lia.
  Qed.
End Sorted.

Section Zosdit.
  Context {I : Type} `{PL : PointLaws I}.
  Context {K : Type} {IK : InclusiveInterval I K} {IL : IntervalLaws I K}.
  Context {V : Type}.
  Notation store := (BTreeMap K (list V)).
  Implicit Types (z : ZosditMap K V) (l A M B : store) (k : K) (v : V) (vs : list V).

  (** Every store holds a value; a non-singular interval holds exactly one. *)
  Definition okstore (e : K * list V) : Prop := snd e <> [] /\ (elo e < ehi e -> exists v, snd e = [v]).
  Definition count (l : store) : nat := length (flatten l).
  Definition ZWF (z : ZosditMap K V) : Prop :=
    ZS (z_inner z) /\ Forall okstore (z_inner z) /\ (count (z_inner z) <= z_len z)%nat.

  Lemma flatten_app l1 l2 : flatten (l1 ++ l2) = flatten l1 ++ flatten l2.
  Proof. apply flat_map_app. Qed.
  Lemma flatten_cons k vs l : flatten ((k, vs) :: l) = map (fun v => (k, v)) vs ++ flatten l.
  Proof. reflexivity. Qed.
  Lemma in_flatten l e : In e (flatten l) <-> exists vs, In (fst e, vs) l /\ In (snd e) vs.
  Proof.
    unfold flatten. rewrite in_flat_map. split.
    - intros ([k vs] & Hi & He). cbn in He. apply in_map_iff in He. destruct He as (v & <- & Hv). exists vs. auto.
    - intros (vs & Hi & Hv). exists (fst e, vs). split; [exact Hi|]. cbn. apply in_map_iff. exists (snd e).
      destruct e. auto.
  Qed.
  Lemma flatten_nil l : Forall okstore l -> flatten l = [] -> l = [].
  Proof.
    destruct l as [|[k vs] l]; [reflexivity|]. intros Hf E. inversion_clear Hf as [|? ? [Hn _] _].
    rewrite flatten_cons in E. destruct vs; [exfalso; apply Hn; reflexivity|discriminate].
  Qed.
  (** Facts about keys transfer to the entries and back. *)
  Lemma flatten_Forall (P : Z -> Z -> Prop) l : Forall okstore l ->
    (Forall (fun e => P (elo e) (ehi e)) l <-> Forall (fun e => P (elo e) (ehi e)) (flatten l)).
  Proof.
    intros Hok. rewrite !Forall_forall. split; intros HP e Hi.
    - apply in_flatten in Hi. destruct Hi as (vs & Hi & _). apply (HP _ Hi).
    - destruct e as [k vs]. rewrite Forall_forall in Hok. destruct (Hok _ Hi) as [Hn _]. cbn in Hn.
      destruct vs as [|v vs]; [exfalso; apply Hn; reflexivity|].
      apply (HP (k, v)). apply in_flatten. exists (v :: vs). split; [exact Hi|left; reflexivity].
  Qed.
  Lemma copies_ZS k vs : lo k = hi k -> ZS (map (fun v => (k, v)) vs).
  Proof.
    intros E. induction vs as [|v vs IHv]; [apply ZS_nil|]. cbn. apply ZS_cons.
    split; [unfold elo, ehi; cbn; lia|]. split; [exact IHv|]. rewrite Forall_forall. intros e Hi. apply in_map_iff in Hi.
    destruct Hi as (v' & <- & _). unfold elo, ehi. cbn. lia.
  Qed.
  Lemma flatten_ZS l : ZS l -> Forall okstore l -> ZS (flatten l).
  Proof.
    intros W Hok. induction l as [|[k vs] l IH]; [apply ZS_nil|].
    apply ZS_cons in W. destruct W as (Vk & W & Hk). apply Forall_cons_iff in Hok. destruct Hok as [[Hn Hs] Hok'].
    rewrite flatten_cons. apply ZS_app. split; [|split; [apply IH; assumption|]].
    - unfold elo, ehi in Vk, Hs. cbn in Vk, Hs.
      destruct (Z_lt_le_dec (lo k) (hi k)) as [L|L].
      + destruct (Hs L) as (v & ->). cbn. apply ZS_cons. split; [exact Vk|]. split; [apply ZS_nil|constructor].
      + apply copies_ZS; lia.
    - intros x y Hx Hy. apply in_map_iff in Hx. destruct Hx as (v & <- & _).
      apply in_flatten in Hy. destruct Hy as (vs' & Hy & _). rewrite Forall_forall in Hk. apply (Hk _ Hy).
  Qed.

  Lemma okvs l : ZS l -> Forall okv l.
  Proof. intros [_ X]. exact X. Qed.

  (** ** [is_zero_overlap] *)
  Lemma seek_exclusive p A B : Forall okv A -> Forall okv B ->
    Forall (fun e => ehi e <= rk p) A -> Forall (fun e => rk p < ehi e) B ->
    seek (exclusive_comp p Gt) (A ++ B) = (A, B).
  Proof.
    intros VA VB HA HB. apply seek_app.
    - rewrite Forall_forall in *. intros e Hi. apply exclusive_Gt_Gt; [apply VA, Hi|apply HA, Hi].
    - apply head_not_gt_all. rewrite Forall_forall in *. intros e Hi X. apply exclusive_Gt_Gt in X; [|apply VB, Hi].
      specialize (HB e Hi). unfold ehi in HB. lia.
  Qed.
  Lemma seek_split_exclusive p l : ZS l -> exists A B, l = A ++ B /\
    Forall (fun e => ehi e <= rk p) A /\ Forall (fun e => rk p < ehi e) B /\ seek (exclusive_comp p Gt) l = (A, B).
  Proof.
    intros W. destruct (zsplit (fun e => ehi e <=? rk p) l W) as (A & B & -> & HA & HB); [unfold okv; intros; lia|].
    apply ZS_app in W. destruct W as (WA & WB & _).
    assert (HA' : Forall (fun e => ehi e <= rk p) A) by (eapply Forall_impl; [|exact HA]; cbn; intros; lia).
    assert (HB' : Forall (fun e => rk p < ehi e) B) by (eapply Forall_impl; [|exact HB]; cbn; intros; lia).
    exists A, B. split; [reflexivity|]. split; [exact HA'|]. split; [exact HB'|].
    apply seek_exclusive; try assumption; apply okvs; assumption.
  Qed.

  Definition apart_from (s t : Z) {T} (e : K * T) : Prop := ehi e <= s \/ t <= elo e.
  Lemma is_zero_overlap_rk {Q} {IQ : InclusiveInterval I Q} z (q : Q) : ZS (z_inner z) -> lo q <= hi q ->
    (Forall (apart_from (lo q) (hi q)) (z_inner z) -> is_zero_overlap z q = Val true) /\
    (~ Forall (apart_from (lo q) (hi q)) (z_inner z) -> is_zero_overlap z q = Val false).
  Proof.
    intros W Vq. unfold is_zero_overlap. rewrite iip_valid by (apply valid_rk, Vq). cbn [obind].
    destruct (seek_split_exclusive (istart q) (z_inner z) W) as (A & B & El & HA & HB & Es).
    unfold range. rewrite Es. cbn [snd]. rewrite El in *. clear Es.
    fold (lo q) in HA, HB. apply ZS_app in W. destruct W as (WA & WB & _). split.
    - intros HF. apply Forall_app in HF. destruct HF as [_ HF]. destruct B as [|[k vs] B]; [reflexivity|].
      cbn [take_upper]. inversion_clear HF as [|? ? Hk _]. inversion_clear HB as [|? ? Hk' _].
      apply ZS_cons in WB. destruct WB as (Vk & _ & _).
      assert (X : exclusive_comp (iend q) Lt k = Lt).
      { apply exclusive_Lt_Lt; [exact Vk|]. destruct Hk as [L|L]; unfold elo, ehi in *; cbn in *; fold (hi q); lia. }
      rewrite X. reflexivity.
    - intros HF. destruct B as [|[k vs] B].
      + exfalso. apply HF, Forall_app. split; [|constructor]. eapply Forall_impl; [|exact HA]. intros e L. left. exact L.
      + cbn [take_upper]. destruct (exclusive_comp (iend q) Lt k) eqn:X; [reflexivity| |reflexivity].
        exfalso. apply ZS_cons in WB. destruct WB as (Vk & WB & Hk).
        apply exclusive_Lt_Lt in X; [|exact Vk]. fold (hi q) in X.
        apply HF, Forall_app. split; [eapply Forall_impl; [|exact HA]; intros e L; left; exact L|].
        constructor; [right; exact X|]. rewrite Forall_forall in *. intros e Hi. right. specialize (Hk e Hi).
        unfold elo, ehi in *. cbn in *. lia.
  Qed.

  (** ** [entry(..).or_default().push(..)] *)
  Lemma entry_comp_rk k' k : lo k' <= hi k' -> lo k <= hi k -> hi k' <= lo k \/ hi k <= lo k' ->
    (entry_comp k' k = Val Eq /\ hi k' <= lo k /\ hi k <= lo k') \/
    (entry_comp k' k = Val Gt /\ hi k' <= lo k /\ lo k' < hi k) \/
    (entry_comp k' k = Val Lt /\ lo k < hi k' /\ hi k <= lo k').
  Proof.
    intros Vk' Vk Ha. unfold entry_comp.
    pose proof (exclusive_Gt_Gt (istart k) k' Vk') as S1. pose proof (exclusive_Gt_Lt (istart k) k' Vk') as S2.
    pose proof (exclusive_Lt_Lt (iend k) k' Vk') as E1. pose proof (exclusive_Lt_Gt (iend k) k' Vk') as E2.
    fold (lo k) in S1, S2. fold (hi k) in E1, E2.
    destruct (Z_le_gt_dec (hi k') (lo k)) as [L1|L1].
    - rewrite (proj2 S1 L1). destruct (Z_le_gt_dec (hi k) (lo k')) as [L2|L2].
      + rewrite (proj2 E1 L2). left. auto.
      + rewrite (proj2 E2) by lia. right. left. split; [reflexivity|lia].
    - rewrite (proj2 S2) by lia. rewrite (proj2 E1) by lia. right. right. split; [reflexivity|lia].
  Qed.
  Lemma entry_push_spec k v l : ZS l -> lo k <= hi k -> Forall (apart_from (lo k) (hi k)) l -> forall pre,
    (exists A k' vs B, l = A ++ (k', vs) :: B /\ entry_push k v pre l = Val (pre ++ A ++ (k', vs ++ [v]) :: B) /\
       lo k' = lo k /\ hi k' = hi k /\ lo k = hi k /\
       Forall (fun e => ehi e <= lo k /\ elo e < hi k) A) \/
    (exists A B, l = A ++ B /\ entry_push k v pre l = Val (pre ++ A ++ (k, [v]) :: B) /\
       Forall (fun e => ehi e <= lo k /\ elo e < hi k) A /\ Forall (fun e => hi k <= elo e /\ lo k < ehi e) B).
  Proof.
    intros W Vk. induction l as [|[k' vs] l IH]; intros HF pre.
    - right. exists [], []. split; [reflexivity|]. split; [reflexivity|]. split; constructor.
    - apply ZS_cons in W. destruct W as (Vk' & W & Hk'). inversion_clear HF as [|? ? Hk HF'].
      unfold elo, ehi in Vk', Hk'. cbn in Vk', Hk'. unfold apart_from, elo, ehi in Hk. cbn in Hk.
      cbn [entry_push].
      destruct (entry_comp_rk k' k Vk' Vk Hk) as [(-> & L1 & L2)|[(-> & L1 & L2)|(-> & L1 & L2)]].
      + left. exists [], k', vs, l. split; [reflexivity|]. split; [reflexivity|]. repeat split; try lia. constructor.
      + assert (H1' : ehi (k', vs) <= lo k /\ elo (k', vs) < hi k) by (unfold elo, ehi; cbn; lia).
        destruct (IH W HF' (pre ++ [(k', vs)])) as [(A & k2 & vs2 & B & -> & E & X1 & X2 & X3 & X4)|(A & B & -> & E & X1 & X2)].
        * left. exists ((k', vs) :: A), k2, vs2, B. split; [reflexivity|]. rewrite E, <- app_assoc.
          split; [reflexivity|]. repeat (split; [assumption|]). constructor; assumption.
        * right. exists ((k', vs) :: A), B. split; [reflexivity|]. rewrite E, <- app_assoc.
          split; [reflexivity|]. split; [constructor; assumption|assumption].
      + right. exists [], ((k', vs) :: l). split; [reflexivity|]. split; [reflexivity|]. split; [constructor|].
        constructor; [unfold elo, ehi; cbn; lia|]. rewrite Forall_forall in *. intros e Hi. specialize (Hk' e Hi).
        pose proof (ZS_okv _ _ W Hi). unfold elo, ehi in *. cbn in *. lia.
  Qed.

  (** No two stores have the same interval. *)
  Definition ZD (l : store) : Prop := StronglySorted (fun a b => elo a < ehi b) l.
  Lemma ZD_app l1 l2 : ZD (l1 ++ l2) <-> ZD l1 /\ ZD l2 /\ (forall x y, In x l1 -> In y l2 -> elo x < ehi y).
  Proof. unfold ZD. rewrite SS_app. tauto. Qed.
  Lemma ZD_cons a l : ZD (a :: l) <-> ZD l /\ Forall (fun e => elo a < ehi e) l.
  Proof. unfold ZD. rewrite SS_cons. tauto. Qed.

  Lemma Forall_flatten (P : Z -> Z -> Prop) l :
    Forall (fun e => P (elo e) (ehi e)) l -> Forall (fun e => P (elo e) (ehi e)) (flatten l).
  Proof.
    rewrite !Forall_forall. intros HP e Hi. apply in_flatten in Hi. destruct Hi as (vs & Hi & _). apply (HP _ Hi).
  Qed.

  Lemma insert_back_cases z k v : ZWF z ->
    (hi k < lo k /\ insert_strict_back k v z = (z, Panic)) \/
    (lo k <= hi k /\ ~ Forall (apart_from (lo k) (hi k)) (z_inner z) /\ insert_strict_back k v z = (z, Val (Err v))) \/
    (lo k <= hi k /\ Forall (apart_from (lo k) (hi k)) (z_inner z) /\ exists (l1 l2 : list (K * V)) k' (inner' : store),
       insert_strict_back k v z = (mkZosdit (z_len z + 1) inner', Val (Ok tt)) /\
       flatten (z_inner z) = l1 ++ l2 /\ flatten inner' = l1 ++ (k', v) :: l2 /\
       lo k' = lo k /\ hi k' = hi k /\ (k' = k \/ exists v', In (k', v') l1) /\
       Forall (fun e => ehi e <= lo k) l1 /\ Forall (fun e => hi k <= elo e) l2 /\
       ZWF (mkZosdit (z_len z + 1) inner') /\
       (lo k < hi k \/ ZD (z_inner z) -> Forall (fun e => lo k < ehi e) l2) /\
       (ZD (z_inner z) -> ZD inner') /\
       (forall k2 (v2 : list V) l3, z_inner z = l3 ++ [(k2, v2)] -> ZD (z_inner z) -> Forall (fun e => ehi e <= lo k) (z_inner z) ->
          (lo k2 = lo k -> hi k2 = hi k -> lo k = hi k -> inner' = l3 ++ [(k2, v2 ++ [v])]) /\
          (lo k2 < hi k -> inner' = z_inner z ++ [(k, [v])]))).
  Proof.
    intros (W & Hok & Hlen). unfold insert_strict_back.
    destruct (Z_lt_le_dec (hi k) (lo k)) as [Vk|Vk].
    - left. split; [exact Vk|]. rewrite iip_invalid; [reflexivity|]. rewrite valid_rk. lia.
    - right. rewrite iip_valid by (apply valid_rk, Vk).
      destruct (is_zero_overlap_rk z k W Vk) as [Z1 Z2].
      assert (D : Forall (apart_from (lo k) (hi k)) (z_inner z) \/ ~ Forall (apart_from (lo k) (hi k)) (z_inner z)).
      { assert (Dec : forall e : K * list V, {apart_from (lo k) (hi k) e} + {~ apart_from (lo k) (hi k) e}).
        { intros e. unfold apart_from. destruct (Z_le_gt_dec (ehi e) (lo k)); [left; lia|].
          destruct (Z_le_gt_dec (hi k) (elo e)); [left; lia|right; lia]. }
        destruct (Forall_dec _ Dec (z_inner z)); [left|right]; assumption. }
      destruct D as [D|D]; [|left; rewrite (Z2 D); auto].
      right. rewrite (Z1 D). split; [exact Vk|]. split; [exact D|].
      destruct (entry_push_spec k v (z_inner z) W Vk D []) as
        [(A & k' & vs & B & El & -> & E1 & E2 & E3 & HA)|(A & B & El & -> & HA & HB)]; cbn [app].
      + exists (flatten A ++ map (fun v => (k', v)) vs), (flatten B), k', (A ++ (k', vs ++ [v]) :: B).
        split; [reflexivity|]. rewrite El in *. clear El Z1 Z2.
        rewrite !flatten_app, !flatten_cons, map_app, <- !app_assoc. cbn [map app].
        split; [reflexivity|]. split; [reflexivity|]. split; [exact E1|]. split; [exact E2|].
        apply ZS_app in W. destruct W as (WA & WB & HAB). apply ZS_cons in WB. destruct WB as (Vk' & WB & HB).
        apply Forall_app in Hok. destruct Hok as [OA OB]. apply Forall_cons_iff in OB. destruct OB as [[On Os] OB].
        cbn in On. unfold elo, ehi in Vk', HB, Os. cbn in Vk', HB, Os.
        split. { right. destruct vs as [|v' vs]; [exfalso; apply On; reflexivity|]. exists v'. apply in_or_app. right. left. reflexivity. }
        split. { apply Forall_app. split.
          - apply (Forall_flatten (fun _ h => h <= lo k)). eapply Forall_impl; [|exact HA]. intros e L. zl.
          - apply Forall_forall. intros e Hi. apply in_map_iff in Hi. destruct Hi as (v' & <- & _). unfold ehi. cbn. lia. }
        split. { apply (Forall_flatten (fun a _ => hi k <= a)). eapply Forall_impl; [|exact HB]. intros e L. zl. }
        split. { split; [|split].
          - cbn [z_inner]. apply ZS_app. split; [exact WA|]. split.
            + apply ZS_cons. split; [exact Vk'|]. split; [exact WB|exact HB].
            + intros x y Hx [<-|Hy]; [|apply (HAB x y Hx); right; exact Hy].
              apply (HAB x (k', vs) Hx). left. reflexivity.
          - cbn [z_inner]. apply Forall_app. split; [exact OA|]. constructor; [|exact OB]. split.
            + cbn. destruct vs; discriminate.
            + unfold elo, ehi. cbn. lia.
          - cbn [z_inner z_len]. unfold count in *. rewrite flatten_app, flatten_cons, !app_length, map_length in Hlen.
            rewrite flatten_app, flatten_cons, !app_length, map_length, app_length. cbn [length]. lia. }
        split. { intros [L|HD]; [lia|]. apply ZD_app in HD. destruct HD as (_ & HD & _). apply ZD_cons in HD. destruct HD as [_ HD].
          apply (Forall_flatten (fun _ h => lo k < h)). eapply Forall_impl; [|exact HD]. intros e L. zl. }
        split. { intros HD. apply ZD_app in HD. destruct HD as (D1 & D2 & D3). apply ZD_cons in D2. destruct D2 as (D2 & D4).
          apply ZD_app. split; [exact D1|]. split; [apply ZD_cons; split; [exact D2|exact D4]|].
          intros x y Hx [<-|Hy]; [|apply (D3 x y Hx); right; exact Hy].
          apply (D3 x (k', vs) Hx). left. reflexivity. }
        intros k2 v2 l3 E HD Hf.
        assert (EB : B = []).
        { destruct B as [|b B]; [reflexivity|exfalso]. apply ZD_app in HD. destruct HD as (_ & HD & _). apply ZD_cons in HD.
          destruct HD as [_ HD]. inversion_clear HD as [|? ? L _]. apply Forall_app in Hf. destruct Hf as [_ Hf].
          inversion_clear Hf as [|? ? _ Hf']. inversion_clear Hf' as [|? ? L' _]. unfold elo, ehi in *. cbn in *. lia. }
        subst B. apply app_inj_tail in E. destruct E as [<- E]. injection E as <- <-. split; [reflexivity|lia].
      + exists (flatten A), (flatten B), k, (A ++ (k, [v]) :: B).
        split; [reflexivity|]. rewrite El in *. clear El Z1 Z2.
        rewrite !flatten_app, !flatten_cons. cbn [map app].
        split; [reflexivity|]. split; [reflexivity|]. split; [reflexivity|]. split; [reflexivity|]. split; [left; reflexivity|].
        apply ZS_app in W. destruct W as (WA & WB & HAB).
        apply Forall_app in Hok. destruct Hok as [OA OB].
        split. { apply (Forall_flatten (fun _ h => h <= lo k)). eapply Forall_impl; [|exact HA]. intros e L. zl. }
        split. { apply (Forall_flatten (fun a _ => hi k <= a)). eapply Forall_impl; [|exact HB]. intros e L. zl. }
        split. { split; [|split].
          - cbn [z_inner]. apply ZS_app. split; [exact WA|]. split.
            + apply ZS_cons. split; [exact Vk|]. split; [exact WB|]. eapply Forall_impl; [|exact HB]. intros e L. zl.
            + rewrite Forall_forall in HA. intros x y Hx [<-|Hy]; [specialize (HA x Hx); unfold elo; cbn; lia|apply (HAB x y Hx Hy)].
          - cbn [z_inner]. apply Forall_app. split; [exact OA|]. constructor; [|exact OB]. split; [discriminate|].
            intros _. exists v. reflexivity.
          - cbn [z_inner z_len]. unfold count in *. rewrite flatten_app, !app_length in Hlen.
            rewrite flatten_app, flatten_cons, !app_length. cbn [map length]. lia. }
        split. { intros _. apply (Forall_flatten (fun _ h => lo k < h)). eapply Forall_impl; [|exact HB]. intros e L. zl. }
        split. { intros HD. apply ZD_app in HD. destruct HD as (D1 & D2 & D3).
          apply ZD_app. split; [exact D1|]. split; [apply ZD_cons; split; [exact D2|]|].
          - eapply Forall_impl; [|exact HB]. intros e L. zl.
          - rewrite Forall_forall in HA. intros x y Hx [<-|Hy]; [specialize (HA x Hx); unfold ehi; cbn; lia|apply (D3 x y Hx Hy)]. }
        intros k2 v2 l3 E HD Hf.
        assert (EB : B = []).
        { destruct B as [|b B]; [reflexivity|exfalso]. inversion_clear HB as [|? ? L _]. apply Forall_app in Hf. destruct Hf as [_ Hf].
          inversion_clear Hf as [|? ? L' _]. lia. }
        subst B. rewrite app_nil_r in *. split; [|reflexivity].
        intros F1 F2 F3. exfalso. rewrite E in HA. apply Forall_app in HA. destruct HA as [_ HA].
        inversion_clear HA as [|? ? L _]. unfold elo, ehi in L. cbn in L. lia.
  Qed.

  (** ** [overlapping] *)
  Lemma overlapping_zosdit {Q} {IQ : InclusiveInterval I Q} z (q : Q) A M B :
    lo q <= hi q -> z_inner z = A ++ M ++ B -> Forall okv A -> Forall okv M -> Forall okv B ->
    Forall (left_of (lo q)) A -> Forall (meets (lo q) (hi q)) M -> Forall (right_of (hi q)) B ->
    zosdit_overlapping z q = Val (flatten M).
  Proof.
    intros Vq El VA VM VB HA HM HB. unfold zosdit_overlapping. rewrite iip_valid by (apply valid_rk, Vq).
    cbn [obind]. unfold range. do 2 f_equal. rewrite El. clear El.
    rewrite seek_app with (A := A) (B := M ++ B).
    - cbn [snd]. apply take_upper_app.
      + rewrite Forall_forall in *. intros e Hi. apply inclusive_Gt_Gt; [apply VM, Hi|]. fold (hi q). apply (HM e Hi).
      + rewrite Forall_forall in *. intros e Hi. apply inclusive_Gt_Lt; [apply VB, Hi|]. apply (HB e Hi).
    - rewrite Forall_forall in *. intros e Hi. apply inclusive_Lt_Gt; [apply VA, Hi|]. apply (HA e Hi).
    - apply head_not_gt_all. apply Forall_app. rewrite !Forall_forall in *. split; intros e Hi X;
        apply inclusive_Lt_Gt in X; try (apply VM, Hi); try (apply VB, Hi); fold (lo q) in X.
      + specialize (HM e Hi). unfold meets, ehi, elo in HM. lia.
      + specialize (HB e Hi). specialize (VB e Hi). unfold right_of, okv, ehi, elo in *. lia.
  Qed.
End Zosdit.
