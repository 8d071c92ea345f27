(** * ZosditProofs: histories of ZosditMap calls, bulk construction and serde. *)
From Coq Require Import List ZArith Bool Lia ZifyBool Sorting.Sorted Permutation.
From Verif Require Import Base BTree UtilsModel IntervalModel NoditModel ZosditModel Spec ZosditOps
  PointFacts IntervalFacts ListFacts NoditFacts NoditQueries NoditGaps NoditMutations IntervalProofs ZosditFacts ZosditMut.
Import ListNotations.
Open Scope Z_scope.

Section Pieces.
  Context {I : Type} `{PL : PointLaws I}.
  Context {K : Type} {IK : InclusiveInterval I K} {IL : IntervalLaws I K}.
  Context {Q : Type} {IQ : InclusiveInterval I Q}.
  Implicit Types (q : Q) (k : K).

  Definition piece_keys q k (ks : list K) : Prop :=
    exists b a : option K, ks = opt_list b ++ opt_list a /\
      match b with
      | None => lo q <= lo k
      | Some x => lo k < lo q /\ lo x = lo k /\ hi x = lo q - 1
      end /\
      match a with
      | None => hi k <= hi q
      | Some x => hi q < hi k /\ lo x = hi q + 1 /\ hi x = hi k
      end.

  Lemma piece_keys_runs q k ks : lo q <= hi q -> lo k <= hi k -> lo k <= hi q -> lo q <= hi k -> piece_keys q k ks ->
    lists_max_runs (fun p => covers k p /\ ~ covers q p) (fun _ => True) ks.
  Proof.
    intros Vq Vk O1 O2 (b & a & -> & Hb & Ha).
    assert (Rb : forall x, b = Some x -> max_run (fun p => covers k p /\ ~ covers q p) x).
    { intros x ->. apply max_run_intro'; [lia| |].
      - intros p Hp. apply covers_rk in Hp. rewrite !covers_rk. lia.
      - intros p Hp. rewrite !covers_rk. lia. }
    assert (Ra : forall x, a = Some x -> max_run (fun p => covers k p /\ ~ covers q p) x).
    { intros x ->. apply max_run_intro'; [lia| |].
      - intros p Hp. apply covers_rk in Hp. rewrite !covers_rk. lia.
      - intros p Hp. rewrite !covers_rk. lia. }
    split; [|split].
    - unfold ascending. destruct b as [b|], a as [a|]; cbn [opt_list app].
      + apply SS_cons. split; [apply SS_one|]. constructor; [|constructor]. apply before_rk; lia.
      + apply SS_one.
      + apply SS_one.
      + constructor.
    - intros g Hg. split; [|exact Logic.I]. apply in_app_or in Hg. destruct Hg as [Hg|Hg].
      + apply Rb. destruct b as [b|]; [|destruct Hg]. destruct Hg as [<-|[]]. reflexivity.
      + apply Ra. destruct a as [a|]; [|destruct Hg]. destruct Hg as [<-|[]]. reflexivity.
    - intros j Hj _. pose proof Hj as ((p & Hp) & Pj & _). destruct (Pj p Hp) as [P1 P2].
      apply covers_rk in P1. rewrite covers_rk in P2.
      destruct (Z_lt_le_dec (rk p) (lo q)) as [L|L].
      + destruct b as [b|]; [|lia]. exists b. split; [left; reflexivity|].
        apply (max_run_same _ b j p (Rb b eq_refl) Hj); [|exact Hp]. apply covers_rk. lia.
      + destruct a as [a|]; [|lia]. exists a. split; [apply in_or_app; right; left; reflexivity|].
        apply (max_run_same _ a j p (Ra a eq_refl) Hj); [|exact Hp]. apply covers_rk. lia.
  Qed.
  Lemma whole_runs q k : lo q <= hi q -> lo k <= hi k -> ~ (lo k <= hi q /\ lo q <= hi k) ->
    lists_max_runs (fun p => covers k p /\ ~ covers q p) (fun _ => True) [k].
  Proof.
    intros Vq Vk No.
    assert (R : max_run (fun p => covers k p /\ ~ covers q p) k).
    { apply max_run_intro'; [exact Vk| |].
      - intros p Hp. split; [exact Hp|]. apply covers_rk in Hp. rewrite covers_rk. lia.
      - intros p Hp. rewrite !covers_rk. lia. }
    split; [apply SS_one|]. split; [intros g [<-|[]]; split; [exact R|exact Logic.I]|].
    intros j Hj _. pose proof Hj as ((p & Hp) & Pj & _). destruct (Pj p Hp) as [P1 _]. exists k. split; [left; reflexivity|].
    apply (max_run_same _ k j p R Hj P1 Hp).
  Qed.
End Pieces.

Section Proofs.
  Context {I : Type} `{PL : PointLaws I}.
  Context {K : Type} {IK : InclusiveInterval I K} {IL : IntervalLaws I K}.
  Context {V : Type}.
  Notation store := (BTreeMap K (list V)).
  Implicit Types (z : ZosditMap K V) (k : K) (v : V) (vs : list V).

  (** ** [cut] entry by entry *)
  Section Cut.
    Context {Q : Type} {IQ : InclusiveInterval I Q}.
    Implicit Type q : Q.

    Lemma zpieces_keys q k vs : lo q <= hi q -> okv (k, vs) -> meets (lo q) (hi q) (k, vs) ->
      exists ks, piece_keys q k ks /\ zpieces q (k, vs) = map (fun k' => (k', vs)) ks.
    Proof.
      unfold okv, meets, elo, ehi. cbn. intros Vq Vk Hm. unfold zpieces. cbn [fst snd].
      destruct (cut_interval_ok k q) as (r & -> & Hb & _ & Ha); try lia.
      exists (opt_list (option_map ifrom (before_cut r)) ++ opt_list (option_map ifrom (after_cut r))). split.
      - exists (option_map ifrom (before_cut r)), (option_map ifrom (after_cut r)). split; [reflexivity|].
        split; [destruct (before_cut r) as [i|]|destruct (after_cut r) as [i|]]; cbn; try rewrite from_lo, from_hi; lia.
      - destruct (before_cut r), (after_cut r); reflexivity.
    Qed.
    Lemma zinside_key q k vs : lo q <= hi q -> okv (k, vs) -> meets (lo q) (hi q) (k, vs) ->
      exists ki, lo ki = Z.max (lo k) (lo q) /\ hi ki = Z.min (hi k) (hi q) /\
        zinside q (k, vs) = map (fun v => (ki, v)) vs.
    Proof.
      unfold okv, meets, elo, ehi. cbn. intros Vq Vk Hm. unfold zinside. cbn [fst snd].
      destruct (cut_interval_ok k q) as (r & -> & _ & (i & Hi & L1 & L2) & _); try lia.
      exists (ifrom i). rewrite from_lo, from_hi by lia. rewrite Hi. auto.
    Qed.

    Lemma piece_keys_in q k ks x : piece_keys q k ks -> In x ks -> lo q <= hi q -> lo k <= hi k -> lo k <= hi q -> lo q <= hi k ->
      lo k <= lo x <= hi x /\ hi x <= hi k /\ (hi x < lo q \/ hi q < lo x).
    Proof.
      intros (b & a & -> & Hb & Ha) Hx Vq Vk O1 O2. apply in_app_or in Hx. destruct Hx as [Hx|Hx].
      - destruct b as [b|]; [|destruct Hx]. destruct Hx as [<-|[]]. lia.
      - destruct a as [a|]; [|destruct Hx]. destruct Hx as [<-|[]]. lia.
    Qed.
    Lemma zpieces_ok q (e : K * list V) : lo q <= hi q -> okv e -> meets (lo q) (hi q) e -> okstore e ->
      ZS (zpieces q e) /\ Forall okstore (zpieces q e) /\
      Forall (fun x => elo e <= elo x /\ ehi x <= ehi e /\ ~ meets (lo q) (hi q) x) (zpieces q e).
    Proof.
      destruct e as [k vs]. intros Vq Vk Hm [On Os]. destruct (zpieces_keys q k vs Vq Vk Hm) as (ks & Hk & ->).
      unfold okv, meets, elo, ehi in *. cbn in *.
      pose proof (fun x Hx => piece_keys_in q k ks x Hk Hx Vq Vk (proj1 Hm) (proj2 Hm)) as Hin.
      split; [|split].
      - destruct Hk as (b & a & -> & Hb & Ha). destruct b as [b|], a as [a|]; cbn [opt_list app map].
        + apply ZS_cons. split; [zl|]. split; [apply ZS_cons; split; [zl|split; [apply ZS_nil|constructor]]|].
          constructor; [zl|constructor].
        + apply ZS_cons. split; [zl|split; [apply ZS_nil|constructor]].
        + apply ZS_cons. split; [zl|split; [apply ZS_nil|constructor]].
        + apply ZS_nil.
      - apply Forall_forall. intros x Hx. apply in_map_iff in Hx. destruct Hx as (k' & <- & Hx). specialize (Hin k' Hx).
        split; [exact On|]. unfold elo, ehi. cbn. intros L. apply Os. lia.
      - apply Forall_forall. intros x Hx. apply in_map_iff in Hx. destruct Hx as (k' & <- & Hx). specialize (Hin k' Hx). cbn. lia.
    Qed.
    Lemma flat_map_ZS (f : K * list V -> store) (l : store) : ZS l ->
      (forall e, In e l -> ZS (f e) /\ Forall (fun x => elo e <= elo x /\ ehi x <= ehi e) (f e)) -> ZS (flat_map f l).
    Proof.
      induction l as [|e l IH]; intros W Hf; [apply ZS_nil|]. apply ZS_cons in W. destruct W as (Ve & W & Hl).
      cbn [flat_map]. apply ZS_app. split; [apply Hf; left; reflexivity|]. split; [apply IH; [exact W|intros x Hx; apply Hf; right; exact Hx]|].
      intros x y Hx Hy. apply in_flat_map in Hy. destruct Hy as (e' & He' & Hy).
      destruct (Hf e (or_introl eq_refl)) as [_ F1]. destruct (Hf e' (or_intror He')) as [_ F2].
      rewrite Forall_forall in F1, F2, Hl. specialize (F1 x Hx). specialize (F2 y Hy). specialize (Hl e' He'). lia.
    Qed.

    Lemma leaves_store q (e : K * list V) : lo q <= hi q -> okv e -> okstore e -> meets (lo q) (hi q) e ->
      exists ls, Forall2 (leaves q) (map (fun v => (fst e, v)) (snd e)) ls /\ flatten (zpieces q e) = concat ls.
    Proof.
      destruct e as [k vs]. intros Vq Vk [On Os] Hm. destruct (zpieces_keys q k vs Vq Vk Hm) as (ks & Hk & ->).
      unfold okv, meets, elo, ehi in *. cbn [fst snd] in *.
      exists (map (fun v => map (fun k' => (k', v)) ks) vs). split.
      - clear On Os. induction vs as [|v vs IH]; [constructor|]. cbn [map]. constructor; [|exact IH]. split; [|split].
        + rewrite map_map. cbn [fst]. rewrite map_id. apply (piece_keys_runs q k ks); try assumption; lia.
        + intros e' He'. apply in_map_iff in He'. destruct He' as (k' & <- & _). reflexivity.
        + intros Ho. exfalso. apply Ho, overlap_rk. cbn. lia.
      - destruct (Z_lt_le_dec (lo k) (hi k)) as [L|L].
        + destruct (Os L) as (v & ->). cbn [map concat]. rewrite app_nil_r. clear.
          induction ks as [|k' ks IH]; [reflexivity|]. cbn [map]. rewrite flatten_cons. cbn [map app]. f_equal. exact IH.
        + assert (ks = []) as ->.
          { destruct ks as [|x ks]; [reflexivity|]. destruct (piece_keys_in q k (x :: ks) x Hk); try (left; reflexivity); lia. }
          cbn. clear. induction vs as [|v vs IH]; [reflexivity|exact IH].
    Qed.
    Lemma leaves_whole q (e : K * V) : lo q <= hi q -> okv e -> ~ meets (lo q) (hi q) e -> leaves q e [e].
    Proof.
      unfold okv, meets, elo, ehi. intros Vq Vk Hm. split; [|split].
      - apply whole_runs; assumption.
      - intros e' [<-|[]]. reflexivity.
      - reflexivity.
    Qed.
    Lemma Forall2_leaves_whole q (l : list (K * V)) : lo q <= hi q -> Forall okv l -> Forall (fun e => ~ meets (lo q) (hi q) e) l ->
      exists ls, Forall2 (leaves q) l ls /\ l = concat ls.
    Proof.
      intros Vq Vl Hl. exists (map (fun e => [e]) l). split.
      - induction l as [|e l IH]; [constructor|]. inversion_clear Vl. inversion_clear Hl. constructor; [apply leaves_whole; assumption|auto].
      - clear. induction l as [|e l IH]; [reflexivity|]. cbn. f_equal. exact IH.
    Qed.

    Lemma flatten_Forall_ne {T} (P : Z -> Z -> Prop) (l : BTreeMap K (list T)) :
      Forall (fun e => P (elo e) (ehi e)) l -> Forall (fun e => P (elo e) (ehi e)) (flatten l).
    Proof. apply Forall_flatten. Qed.

    Theorem cut_done z q : ZWF z -> valid q -> cuttable z q ->
      exists z' out, zosdit_cut q z = (z', Val out) /\ ZWF z' /\
        (exists o, sub (fun e => overlap (fst e) q) (zosdit_iter z) o /\ Forall2 (yields q) o out) /\
        (exists ls, Forall2 (leaves q) (zosdit_iter z) ls /\ zosdit_iter z' = concat ls) /\
        Forall (fun e => ~ meets (lo q) (hi q) e) (zosdit_iter z') /\
        (z_len z' + length (zosdit_iter z) = z_len z + length (zosdit_iter z'))%nat.
    Proof.
      intros Wf Vq' Hc. pose proof Vq' as Vq. apply valid_rk in Vq. pose proof Wf as (W & Hok & Hlen).
      destruct (zsplit3 (z_inner z) (lo q) (hi q) W Vq) as (A & M & B & El & HA & HM & HB).
      destruct (cut_zosdit_cases z q A M B Wf Vq El HA HM HB) as [(_ & n' & E & En)|(Nc & _)]; [|contradiction].
      unfold zosdit_iter. rewrite El in *.
      apply ZS_app in W. destruct W as (WA & W & HAB). apply ZS_app in W. destruct W as (WM & WB & HMB).
      apply Forall_app in Hok. destruct Hok as [OA Hok]. apply Forall_app in Hok. destruct Hok as [OM OB].
      pose proof (okvs _ WA) as VA. pose proof (okvs _ WM) as VM. pose proof (okvs _ WB) as VB.
      assert (Pk : forall e, In e M -> ZS (zpieces q e) /\ Forall okstore (zpieces q e) /\
        Forall (fun x => elo e <= elo x /\ ehi x <= ehi e /\ ~ meets (lo q) (hi q) x) (zpieces q e)).
      { rewrite Forall_forall in VM, HM, OM. intros e He. apply zpieces_ok; auto. }
      assert (NA : Forall (fun e => ~ meets (lo q) (hi q) e) A).
      { eapply Forall_impl; [|exact HA]. unfold left_of, meets. intros e L. lia. }
      assert (NB : Forall (fun e => ~ meets (lo q) (hi q) e) B).
      { eapply Forall_impl; [|exact HB]. unfold right_of, meets. intros e L. lia. }
      assert (NP : Forall (fun e => ~ meets (lo q) (hi q) e) (flat_map (zpieces q) M)).
      { apply Forall_forall. intros x Hx. apply in_flat_map in Hx. destruct Hx as (e & He & Hx).
        destruct (Pk e He) as (_ & _ & F). rewrite Forall_forall in F. apply (F x Hx). }
      assert (WP : ZS (flat_map (zpieces q) M)).
      { apply flat_map_ZS; [exact WM|]. intros e He. destruct (Pk e He) as (P1 & _ & P3). split; [exact P1|].
        eapply Forall_impl; [|exact P3]. cbn. tauto. }
      exists (mkZosdit n' (A ++ flat_map (zpieces q) M ++ B)), (flat_map (zinside q) M). split; [exact E|]. cbn [z_inner z_len].
      split; [split; [|split]; cbn [z_inner z_len]|split; [|split; [|split]]].
      - apply ZS_app. split; [exact WA|]. split.
        + apply ZS_app. split; [exact WP|]. split; [exact WB|]. intros x y Hx Hy. apply in_flat_map in Hx.
          destruct Hx as (e & He & Hx). destruct (Pk e He) as (_ & _ & F). rewrite Forall_forall in F. specialize (F x Hx).
          specialize (HMB e y He Hy). lia.
        + intros x y Hx Hy. apply in_app_or in Hy. destruct Hy as [Hy|Hy]; [|apply HAB; [exact Hx|apply in_or_app; right; exact Hy]].
          apply in_flat_map in Hy. destruct Hy as (e & He & Hy). destruct (Pk e He) as (_ & _ & F). rewrite Forall_forall in F. specialize (F y Hy).
          assert (ehi x <= elo e); [|lia]. apply HAB; [exact Hx|apply in_or_app; left; exact He].
      - apply Forall_app. split; [exact OA|]. apply Forall_app. split; [|exact OB]. apply Forall_forall. intros x Hx. apply in_flat_map in Hx.
        destruct Hx as (e & He & Hx). destruct (Pk e He) as (_ & F & _). rewrite Forall_forall in F. apply F, Hx.
      - unfold count in *. rewrite !flatten_app, !app_length in *. lia.
      - exists (flatten M). split.
        + rewrite !flatten_app.
          enough (X : sub (fun e => overlap (fst e) q) (flatten A ++ flatten M ++ flatten B) ([] ++ flatten M ++ [])).
          { cbn [app] in X. rewrite app_nil_r in X. exact X. }
          apply sub_app; [apply sub_none|apply sub_app; [apply sub_all|apply sub_none]].
          * eapply Forall_impl; [|apply (Forall_flatten (fun a b => ~ (a <= hi q /\ lo q <= b))), NA].
            intros e L. rewrite overlap_rk. zl.
          * eapply Forall_impl; [|apply (Forall_flatten (fun a b => (a <= b /\ a <= hi q /\ lo q <= b)))].
            -- intros e L. apply overlap_rk. zl.
            -- rewrite Forall_forall in *. intros e He. split; [apply VM, He|apply HM, He].
          * eapply Forall_impl; [|apply (Forall_flatten (fun a b => ~ (a <= hi q /\ lo q <= b))), NB].
            intros e L. rewrite overlap_rk. zl.
        + clear -PL IL VM HM Vq. induction M as [|[k vs] M IH]; [constructor|].
          inversion_clear VM as [|? ? Vk VM']. inversion_clear HM as [|? ? Hk HM'].
          cbn [flat_map]. rewrite flatten_cons. apply Forall2_app; [|apply IH; assumption].
          destruct (zinside_key q k vs Vq Vk Hk) as (ki & L1 & L2 & ->). clear -PL L1 L2.
          induction vs as [|v vs IH]; [constructor|]. cbn [map]. constructor; [|exact IH]. split; [reflexivity|]. cbn [fst].
          intros p. rewrite !covers_rk. lia.
      - rewrite !flatten_app.
        destruct (Forall2_leaves_whole q (flatten A)) as (la & Fa & Ea); [exact Vq|apply (Forall_flatten (fun a b => a <= b)), VA|
          apply (Forall_flatten (fun a b => ~ (a <= hi q /\ lo q <= b))), NA|].
        destruct (Forall2_leaves_whole q (flatten B)) as (lb & Fb & Eb); [exact Vq|apply (Forall_flatten (fun a b => a <= b)), VB|
          apply (Forall_flatten (fun a b => ~ (a <= hi q /\ lo q <= b))), NB|].
        assert (HMl : exists ls, Forall2 (leaves q) (flatten M) ls /\ flatten (flat_map (zpieces q) M) = concat ls).
        { clear -PL IL VM HM OM Vq. induction M as [|e M IH]; [exists []; split; [constructor|reflexivity]|].
          inversion_clear VM as [|? ? Vk VM']. inversion_clear HM as [|? ? Hk HM']. inversion_clear OM as [|? ? Ok OM'].
          destruct (IH OM' HM' VM') as (ls & F & E). destruct (leaves_store q e Vq Vk Ok Hk) as (l0 & F0 & E0).
          exists (l0 ++ ls). destruct e as [k vs]. rewrite flatten_cons. cbn [flat_map]. rewrite flatten_app, concat_app, E, E0. split; [|reflexivity].
          apply Forall2_app; assumption. }
        destruct HMl as (lm & Fm & Em). exists (la ++ lm ++ lb). rewrite !concat_app, <- Ea, <- Eb, <- Em. split; [|reflexivity].
        apply Forall2_app; [exact Fa|]. apply Forall2_app; assumption.
      - apply (Forall_flatten (fun a b => ~ (a <= hi q /\ lo q <= b))). apply Forall_app. split; [exact NA|]. apply Forall_app. split; assumption.
      - unfold count in *. rewrite !flatten_app, !app_length in *. lia.
    Qed.
    Theorem cut_not_done z q : ZWF z -> valid q -> ~ cuttable z q -> zosdit_cut q z = (z, Val []).
    Proof.
      intros Wf Vq Hc. apply valid_rk in Vq. pose proof Wf as (W & _ & _).
      destruct (zsplit3 (z_inner z) (lo q) (hi q) W Vq) as (A & M & B & El & HA & HM & HB).
      destruct (cut_zosdit_cases z q A M B Wf Vq El HA HM HB) as [(C & _)|(_ & E)]; [contradiction|exact E].
    Qed.
    Lemma cuttable_dec z q : cuttable z q \/ ~ cuttable z q.
    Proof.
      unfold cuttable.
      assert (D1 : forall e : K * V, {elo e < lo q <= ehi e} + {~ elo e < lo q <= ehi e}).
      { intros e. destruct (Z_lt_le_dec (elo e) (lo q)), (Z_le_gt_dec (lo q) (ehi e)); [left|right|right|right]; lia. }
      assert (D2 : forall e : K * V, {lo q <= ehi e} + {~ lo q <= ehi e}).
      { intros e. destruct (Z_le_gt_dec (lo q) (ehi e)); [left|right]; lia. }
      destruct (Exists_dec _ (flatten (z_inner z)) D1) as [E|E].
      - left. left. apply Exists_exists in E. exact E.
      - destruct (Forall_dec _ D2 (flatten (z_inner z))) as [F|F].
        + left. right. apply Forall_forall, F.
        + right. intros [X|X]; [apply E, Exists_exists, X|apply F, Forall_forall, X].
    Qed.
  End Cut.

  (** ** Bulk construction *)
  Definition fresh (z : ZosditMap K V) (l : list (K * V)) : Prop :=
    Forall okv l /\ ForallOrdPairs (fun a b => apart_from (elo b) (ehi b) a) l /\
    (forall e x, In e (zosdit_iter z) -> In x l -> apart_from (elo x) (ehi x) e).

  Definition ext (a b : Z) (e : K * V) : bool := (elo e =? a) && (ehi e =? b).
  Definition vals (a b : Z) (l : list (K * V)) : list V := map snd (filter (ext a b) l).

  Definition grown (z : ZosditMap K V) (l : list (K * V)) (z' : ZosditMap K V) : Prop :=
    ZWF z' /\ ZD (z_inner z') /\ (z_len z' = z_len z + length l)%nat /\
    (exists l', Permutation (zosdit_iter z ++ l') (zosdit_iter z') /\ Forall2 same_entry l l') /\
    (forall a b, vals a b (zosdit_iter z') = vals a b (zosdit_iter z) ++ vals a b l).

  Lemma apart_iter z s t : ZWF z ->
    (Forall (apart_from s t) (z_inner z) <-> Forall (apart_from s t) (zosdit_iter z)).
  Proof. intros (_ & Hok & _). apply (flatten_Forall (fun a b => b <= s \/ t <= a)), Hok. Qed.

  Lemma insert_one z k v : ZWF z -> ZD (z_inner z) -> lo k <= hi k ->
    Forall (apart_from (lo k) (hi k)) (zosdit_iter z) ->
    exists z', insert_strict_back k v z = (z', Val (Ok tt)) /\ grown z [(k, v)] z'.
  Proof.
    intros Wf HD Vk Ha. apply apart_iter in Ha; [|exact Wf].
    destruct (insert_back_cases z k v Wf) as [(X & _)|[(_ & X & _)|(_ & _ & l1 & l2 & k' & inner' & E & E1 & E2 & L1 & L2 & _ & F1 & F2 & Wf' & F3 & HD' & _)]];
      [lia|contradiction|].
    exists (mkZosdit (z_len z + 1) inner'). split; [exact E|]. split; [exact Wf'|]. split; [apply HD', HD|]. split; [reflexivity|].
    unfold zosdit_iter. cbn [z_inner]. rewrite E1, E2. split.
    - exists [(k', v)]. split.
      + rewrite <- app_assoc. apply Permutation_app_head. apply Permutation_sym, Permutation_cons_append.
      + constructor; [|constructor]. split; [|reflexivity]. cbn. intros p. rewrite !covers_rk. lia.
    - intros a b. unfold vals. rewrite !filter_app, !map_app. cbn [filter].
      assert (X : ext a b (k', v) = ext a b (k, v)) by (unfold ext, elo, ehi; cbn; rewrite L1, L2; reflexivity).
      rewrite X. destruct (ext a b (k, v)) eqn:Y; [|rewrite app_nil_r; reflexivity].
      assert (Z0 : filter (ext a b) l2 = []).
      { specialize (F3 (or_intror HD)). clear -F2 F3 Y. induction l2 as [|e l2 IH]; [reflexivity|].
        inversion_clear F2 as [|? ? G1 F2']. inversion_clear F3 as [|? ? G2 F3']. cbn [filter].
        replace (ext a b e) with false; [apply IH; assumption|]. unfold ext, elo, ehi in *. cbn in *. lia. }
      rewrite Z0. cbn [map snd]. rewrite app_nil_r, <- ?app_assoc. reflexivity.
  Qed.

  Lemma same_entry_ext (a b : K * V) : okv a -> same_entry a b -> okv b -> elo a = elo b /\ ehi a = ehi b.
  Proof.
    unfold okv, elo, ehi. intros Va [S _] Vb. apply same_points_rk in S; [|assumption..]. exact S.
  Qed.

  Lemma grown_trans z l z1 l' z2 : ZWF z -> grown z l z1 -> grown z1 l' z2 -> grown z (l ++ l') z2.
  Proof.
    intros _ (W1 & D1 & N1 & (m1 & P1 & F1) & V1) (W2 & D2 & N2 & (m2 & P2 & F2) & V2).
    split; [exact W2|]. split; [exact D2|]. split; [rewrite app_length; lia|]. split.
    - exists (m1 ++ m2). split; [|apply Forall2_app; assumption]. rewrite app_assoc. rewrite <- P2. apply Permutation_app_tail, P1.
    - intros a b. rewrite V2, V1. unfold vals. rewrite filter_app, map_app, app_assoc. reflexivity.
  Qed.
  Lemma grown_nil z : ZWF z -> ZD (z_inner z) -> grown z [] z.
  Proof.
    intros W D. split; [exact W|]. split; [exact D|]. split; [cbn; lia|]. split.
    - exists []. rewrite app_nil_r. split; [reflexivity|constructor].
    - intros a b. cbn. rewrite app_nil_r. reflexivity.
  Qed.
  (** The extents stored after growing. *)
  Lemma grown_in z l z' e : grown z l z' -> Forall okv l -> In e (zosdit_iter z') ->
    exists x, (In x (zosdit_iter z) \/ In x l) /\ elo x = elo e /\ ehi x = ehi e.
  Proof.
    intros (W & D & _ & (l' & P & F) & _) Vl Hi.
    assert (Ve : okv e). { apply (ZS_okv (flatten (z_inner z'))); [apply flatten_ZS; apply W|exact Hi]. }
    apply (Permutation_in _ (Permutation_sym P)) in Hi. apply in_app_or in Hi. destruct Hi as [Hi|Hi]; [exists e; auto|].
    destruct (Forall2_in_r _ _ _ _ F Hi) as (x & Hx & S). exists x. split; [auto|].
    rewrite Forall_forall in Vl. apply same_entry_ext; auto.
  Qed.
  Lemma grown_has z l z' x : grown z l z' -> Forall okv l -> In x (zosdit_iter z) \/ In x l ->
    exists e, In e (zosdit_iter z') /\ elo x = elo e /\ ehi x = ehi e.
  Proof.
    intros (W & D & _ & (l' & P & F) & _) Vl [Hi|Hi].
    - exists x. split; [|auto]. apply (Permutation_in _ P), in_or_app. left. exact Hi.
    - destruct (Forall2_in_l _ _ _ _ F Hi) as (e & He & S). exists e.
      assert (Hin : In e (zosdit_iter z')) by (apply (Permutation_in _ P), in_or_app; right; exact He).
      split; [exact Hin|]. rewrite Forall_forall in Vl. apply same_entry_ext; [auto|exact S|].
      apply (ZS_okv (flatten (z_inner z'))); [apply flatten_ZS; apply W|exact Hin].
  Qed.

  Lemma extend_fresh l : forall z, ZWF z -> ZD (z_inner z) -> fresh z l ->
    exists z', extend_strict_back l z = Val (Ok z') /\ grown z l z'.
  Proof.
    induction l as [|[k v] l IH]; intros z Wf HD (Vl & Hp & Hz).
    - exists z. split; [reflexivity|apply grown_nil; assumption].
    - inversion_clear Vl as [|? ? Vk Vl']. inversion_clear Hp as [|? ? Hk Hp'].
      destruct (insert_one z k v Wf HD Vk) as (z1 & E1 & G1).
      { apply Forall_forall. intros e He. apply (Hz e (k, v) He (or_introl eq_refl)). }
      pose proof G1 as (W1 & D1 & _).
      destruct (IH z1 W1 D1) as (z' & E' & G').
      { split; [exact Vl'|]. split; [exact Hp'|]. intros e x He Hx.
        destruct (grown_in _ _ _ _ G1 (Forall_cons (k, v) Vk (Forall_nil _)) He) as (y & [Hy|[<-|[]]] & L1 & L2).
        - specialize (Hz y x Hy (or_intror Hx)). unfold apart_from in *. lia.
        - rewrite Forall_forall in Hk. specialize (Hk x Hx). unfold apart_from in *. lia. }
      exists z'. cbn [extend_strict_back]. rewrite E1. split; [exact E'|]. apply (grown_trans z [(k, v)] z1 l z' Wf G1 G').
  Qed.
  Lemma extend_app l1 l2 z : extend_strict_back (l1 ++ l2) z =
    match extend_strict_back l1 z with Val (Ok z') => extend_strict_back l2 z' | o => o end.
  Proof.
    revert z. induction l1 as [|[k v] l1 IH]; intros z; [reflexivity|]. cbn [app extend_strict_back].
    destruct (insert_strict_back k v z) as [z1 [[|]|]]; try reflexivity. apply IH.
  Qed.

  (** The first entry that cannot be added. *)
  Lemma extend_clash l1 k v l2 z : ZWF z -> ZD (z_inner z) -> fresh z l1 -> lo k <= hi k ->
    (exists e, (In e (zosdit_iter z) \/ In e l1) /\ ~ apart_from (lo k) (hi k) e) ->
    extend_strict_back (l1 ++ (k, v) :: l2) z = Val (Err v).
  Proof.
    intros Wf HD Hf Vk (e & He & Na). rewrite extend_app. destruct (extend_fresh l1 z Wf HD Hf) as (z1 & -> & G).
    destruct (grown_has _ _ _ _ G (proj1 Hf) He) as (e' & He' & L1 & L2). pose proof G as (W1 & _).
    cbn [extend_strict_back].
    destruct (insert_back_cases z1 k v W1) as [(X & _)|[(_ & _ & ->)|(_ & Ha & _)]]; [lia|reflexivity|exfalso].
    apply apart_iter in Ha; [|exact W1]. rewrite Forall_forall in Ha. specialize (Ha e' He'). unfold apart_from in *. lia.
  Qed.
  Lemma extend_invalid l1 k v l2 z : ZWF z -> ZD (z_inner z) -> fresh z l1 -> hi k < lo k ->
    extend_strict_back (l1 ++ (k, v) :: l2) z = Panic.
  Proof.
    intros Wf HD Hf Vk. rewrite extend_app. destruct (extend_fresh l1 z Wf HD Hf) as (z1 & -> & G). pose proof G as (W1 & _).
    cbn [extend_strict_back].
    destruct (insert_back_cases z1 k v W1) as [(_ & ->)|[(X & _)|(X & _)]]; [reflexivity|lia|lia].
  Qed.
  (** Every list is fresh, or has a first entry that is not. *)
  Lemma fresh_snoc z l k v : fresh z l -> lo k <= hi k ->
    (forall e, In e (zosdit_iter z) \/ In e l -> apart_from (lo k) (hi k) e) -> fresh z (l ++ [(k, v)]).
  Proof.
    intros (Vl & Hp & Hz) Vk Ha. split; [apply Forall_app; split; [exact Vl|constructor; [exact Vk|constructor]]|]. split.
    - clear Vl Hz. assert (Ha' : forall e, In e l -> apart_from (lo k) (hi k) e) by auto. clear Ha.
      induction Hp as [|a l Hal Hp IH]; [repeat constructor|]. cbn. constructor.
      + apply Forall_app. split; [exact Hal|]. constructor; [|constructor]. apply (Ha' a). left. reflexivity.
      + apply IH. intros e He. apply Ha'. right. exact He.
    - intros e x He Hx. apply in_app_or in Hx. destruct Hx as [Hx|[<-|[]]]; [apply (Hz e x He Hx)|]. apply Ha. left. exact He.
  Qed.
  Lemma apart_dec s t (e : K * V) : {apart_from s t e} + {~ apart_from s t e}.
  Proof.
    unfold apart_from. destruct (Z_le_gt_dec (ehi e) s); [left; lia|]. destruct (Z_le_gt_dec t (elo e)); [left; lia|right; lia].
  Qed.
  Lemma fresh_cases z l : fresh z l \/
    (exists l1 k v l2, l = l1 ++ (k, v) :: l2 /\ fresh z l1 /\ lo k <= hi k /\
       exists e, (In e (zosdit_iter z) \/ In e l1) /\ ~ apart_from (lo k) (hi k) e) \/
    (exists l1 k v l2, l = l1 ++ (k, v) :: l2 /\ fresh z l1 /\ hi k < lo k).
  Proof.
    induction l as [|[k v] l IH] using rev_ind.
    - left. split; [constructor|]. split; [constructor|]. intros e x _ [].
    - destruct IH as [Hf|[(l1 & k' & v' & l2 & -> & H1)|(l1 & k' & v' & l2 & -> & H1)]].
      + destruct (Z_lt_le_dec (hi k) (lo k)) as [L|L]; [right; right; exists l, k, v, []; auto|].
        destruct (Forall_dec _ (apart_dec (lo k) (hi k)) (zosdit_iter z ++ l)) as [F|F].
        * left. apply fresh_snoc; [exact Hf|exact L|]. rewrite Forall_forall in F. intros e He. apply F, in_or_app, He.
        * right. left. exists l, k, v, []. split; [reflexivity|]. split; [exact Hf|]. split; [exact L|].
          apply Exists_Forall_neg in F; [|intros x; destruct (apart_dec (lo k) (hi k) x); auto]. apply Exists_exists in F. destruct F as (e & He & Na).
          exists e. split; [apply in_app_or, He|exact Na].
      + right. left. exists l1, k', v', (l2 ++ [(k, v)]). rewrite <- app_assoc. split; [reflexivity|exact H1].
      + right. right. exists l1, k', v', (l2 ++ [(k, v)]). rewrite <- app_assoc. split; [reflexivity|exact H1].
  Qed.

  Lemma new_ZWF : ZWF (z_new : ZosditMap K V).
  Proof. split; [apply ZS_nil|]. split; [constructor|]. cbn. lia. Qed.
  Lemma new_ZD : ZD (z_inner (z_new : ZosditMap K V)).
  Proof. constructor. Qed.

  Lemma extend_results l z : ZWF z -> ZD (z_inner z) ->
    (forall z', extend_strict_back l z = Val (Ok z') <-> fresh z l /\ extend_strict_back l z = Val (Ok z')) /\
    (forall v, extend_strict_back l z = Val (Err v) <->
       exists l1 k l2, l = l1 ++ (k, v) :: l2 /\ fresh z l1 /\ lo k <= hi k /\
         exists e, (In e (zosdit_iter z) \/ In e l1) /\ ~ apart_from (lo k) (hi k) e) /\
    (extend_strict_back l z = Panic <->
       exists l1 k v l2, l = l1 ++ (k, v) :: l2 /\ fresh z l1 /\ hi k < lo k).
  Proof.
    intros Wf HD. split; [|split].
    - intros z'. split; [|tauto]. intros E. split; [|exact E].
      destruct (fresh_cases z l) as [F|[(l1 & k & v & l2 & -> & F & Vk & X)|(l1 & k & v & l2 & -> & F & Vk)]]; [exact F| |].
      + rewrite extend_clash in E by assumption. discriminate.
      + rewrite extend_invalid in E by assumption. discriminate.
    - intros v. split.
      + intros E. destruct (fresh_cases z l) as [F|[(l1 & k & v' & l2 & -> & F & Vk & X)|(l1 & k & v' & l2 & -> & F & Vk)]].
        * destruct (extend_fresh l z Wf HD F) as (z' & E' & _). congruence.
        * rewrite extend_clash in E by assumption. injection E as <-. exists l1, k, l2. auto.
        * rewrite extend_invalid in E by assumption. discriminate.
      + intros (l1 & k & l2 & -> & F & Vk & X). apply extend_clash; assumption.
    - split.
      + intros E. destruct (fresh_cases z l) as [F|[(l1 & k & v' & l2 & -> & F & Vk & X)|(l1 & k & v' & l2 & -> & F & Vk)]].
        * destruct (extend_fresh l z Wf HD F) as (z' & E' & _). congruence.
        * rewrite extend_clash in E by assumption. discriminate.
        * exists l1, k, v', l2. auto.
      + intros (l1 & k & v & l2 & -> & F & Vk). apply extend_invalid; assumption.
  Qed.

  Lemma fresh_new l : fresh (z_new : ZosditMap K V) l <-> zero_overlapping (map fst l).
  Proof.
    unfold fresh, zero_overlapping. rewrite Forall_map. split.
    - intros (Vl & Hp & _). split; [eapply Forall_impl; [|exact Vl]; intros e Ve; apply valid_rk, Ve|].
      induction Hp as [|a l Ha Hp IH]; [constructor|]. inversion_clear Vl as [|? ? Va Vl']. cbn. constructor; [|auto].
      rewrite Forall_map, Forall_forall in *. intros x Hx. apply zero_overlap_rk; [exact Va|apply Vl', Hx|apply (Ha x Hx)].
    - intros (Vl & Hp). assert (Vl' : Forall okv l) by (eapply Forall_impl; [|exact Vl]; intros e Ve; apply valid_rk, Ve).
      split; [exact Vl'|]. split; [|intros e x []]. clear Vl.
      induction l as [|a l IH]; [constructor|]. inversion_clear Hp as [|? ? Ha Hp']. inversion_clear Vl' as [|? ? Va Vl]. constructor; [|auto].
      rewrite Forall_map, Forall_forall in *. intros x Hx. specialize (Ha x Hx). apply zero_overlap_rk in Ha; [exact Ha|exact Va|apply Vl, Hx].
  Qed.

  (** ** Deserialization *)
  Lemma visit_seq_map l : forall (z : ZosditMap K V) r, zosdit_visit_seq (map Some l ++ r) z =
    match extend_strict_back l z with
    | Val (Ok z') => zosdit_visit_seq r z'
    | Val (Err _) => Val (Err DeOverlap)
    | Panic => Panic
    end.
  Proof.
    induction l as [|[k v] l IH]; intros z r; [reflexivity|]. cbn [map app zosdit_visit_seq extend_strict_back].
    destruct (insert_strict_back k v z) as [z1 [[|]|]]; try reflexivity. apply IH.
  Qed.
  Lemma somes {T} (es : list (option T)) : (exists l, es = map Some l) \/ (exists l r, es = map Some l ++ None :: r).
  Proof.
    induction es as [|[e|] es IH]; [left; exists []; reflexivity| |right; exists [], es; reflexivity].
    destruct IH as [(l & ->)|(l & r & ->)]; [left; exists (e :: l); reflexivity|right; exists (e :: l), r; reflexivity].
  Qed.
  Lemma deserialize_Ok_from_iter es (z : ZosditMap K V) : zosdit_deserialize es = Val (Ok z) <->
    exists l, es = map Some l /\ from_iter_strict_back l = Val (Ok z).
  Proof.
    unfold zosdit_deserialize, from_iter_strict_back. split.
    - intros E. destruct (somes es) as [(l & ->)|(l & r & ->)].
      + exists l. split; [reflexivity|]. rewrite <- (app_nil_r (map Some l)), visit_seq_map in E.
        destruct (extend_strict_back l z_new) as [[z'|]|]; try discriminate. cbn in E. injection E as ->. reflexivity.
      + rewrite visit_seq_map in E. destruct (extend_strict_back l z_new) as [[z'|]|]; discriminate.
    - intros (l & -> & E). rewrite <- (app_nil_r (map Some l)), visit_seq_map, E. reflexivity.
  Qed.

  (** ** Rebuilding a map from its entries *)
  Lemma rebuild r : forall pre z, ZWF z -> ZD (z_inner z) -> ZS (pre ++ r) -> Forall2 same_entry pre (zosdit_iter z) ->
    exists z', extend_strict_back r z = Val (Ok z') /\ Forall2 same_entry (pre ++ r) (zosdit_iter z') /\
      (z_len z' = z_len z + length r)%nat.
  Proof.
    induction r as [|[k v] r IH]; intros pre z Wf HD W F.
    - exists z. rewrite app_nil_r. split; [reflexivity|]. split; [exact F|]. cbn. lia.
    - pose proof W as W0. apply ZS_app in W. destruct W as (Wp & Wr & Hpr). apply ZS_cons in Wr. destruct Wr as (Vk & Wr & Hk).
      assert (Hle : Forall (fun e => ehi e <= lo k) (zosdit_iter z)).
      { apply Forall_forall. intros e He. destruct (Forall2_in_r _ _ _ _ F He) as (x & Hx & S).
        assert (Ve : okv e) by (apply (ZS_okv (flatten (z_inner z))); [apply flatten_ZS; apply Wf|exact He]).
        destruct (same_entry_ext x e (ZS_okv _ _ Wp Hx) S Ve) as [_ <-]. apply (Hpr x (k, v) Hx). left. reflexivity. }
      assert (Ha : Forall (apart_from (lo k) (hi k)) (z_inner z)).
      { apply apart_iter; [exact Wf|]. eapply Forall_impl; [|exact Hle]. intros e L. left. exact L. }
      destruct (insert_back_cases z k v Wf) as [(X & _)|[(_ & X & _)|(_ & _ & l1 & l2 & k' & inner' & E & E1 & E2 & L1 & L2 & _ & F1 & F2 & Wf' & F3 & HD' & _)]];
        [zl|contradiction|].
      assert (l2 = []) as ->.
      { specialize (F3 (or_intror HD)). destruct l2 as [|e l2]; [reflexivity|exfalso]. inversion_clear F3 as [|? ? L _].
        unfold zosdit_iter in Hle. rewrite E1 in Hle. apply Forall_app in Hle. destruct Hle as [_ Hle]. inversion_clear Hle as [|? ? L' _]. lia. }
      rewrite app_nil_r in E1. subst l1.
      destruct (IH (pre ++ [(k, v)]) (mkZosdit (z_len z + 1) inner') Wf' (HD' HD)) as (z' & E' & F' & N').
      { rewrite <- app_assoc. exact W0. }
      { unfold zosdit_iter. cbn [z_inner]. rewrite E2. apply Forall2_app; [exact F|]. constructor; [|constructor].
        split; [|reflexivity]. cbn. intros p. rewrite !covers_rk. lia. }
      exists z'. cbn [extend_strict_back]. rewrite E. split; [exact E'|]. rewrite <- app_assoc in F'. split; [exact F'|].
      cbn [z_len] in N'. cbn [length]. lia.
  Qed.

  (** The stores themselves, when no two have the same interval. *)
  Lemma rebuild_store k ws : forall vs (A : store) n, ZS (A ++ [(k, vs ++ ws)]) -> Forall okstore (A ++ [(k, vs ++ ws)]) ->
    ZD (A ++ [(k, vs ++ ws)]) -> vs <> [] -> (count (A ++ [(k, vs)]) <= n)%nat ->
    extend_strict_back (map (fun v => (k, v)) ws) (mkZosdit n (A ++ [(k, vs)])) =
      Val (Ok (mkZosdit (n + length ws) (A ++ [(k, vs ++ ws)]))).
  Proof.
    induction ws as [|w ws IH]; intros vs A n W Hok HD Hne Hn.
    - cbn. rewrite app_nil_r, Nat.add_0_r. reflexivity.
    - assert (Es : lo k = hi k).
      { apply Forall_app in Hok. destruct Hok as [_ Hok]. inversion_clear Hok as [|? ? [_ Os] _]. unfold elo, ehi in Os. cbn in Os.
        apply ZS_app in W. destruct W as (_ & W & _). apply ZS_cons in W. destruct W as (Vk & _).
        destruct (Z_lt_le_dec (lo k) (hi k)) as [L|L]; [exfalso|zl]. destruct (Os L) as (v & E).
        destruct vs as [|v0 vs]; [apply Hne; reflexivity|]. injection E as _ E. destruct vs; discriminate. }
      assert (Wf : ZWF (mkZosdit n (A ++ [(k, vs)]))).
      { split; [|split]; cbn [z_inner z_len]; [| |exact Hn].
        - apply ZS_app in W. destruct W as (W1 & W2 & W3). apply ZS_app. split; [exact W1|].
          split; [apply ZS_cons; split; [zl|split; [apply ZS_nil|constructor]]|]. intros x y Hx [<-|[]]. apply (W3 x _ Hx (or_introl eq_refl)).
        - apply Forall_app in Hok. destruct Hok as [H1 _]. apply Forall_app. split; [exact H1|]. constructor; [|constructor].
          split; [exact Hne|]. unfold elo, ehi. cbn. lia. }
      assert (HD1 : ZD (A ++ [(k, vs)])).
      { apply ZD_app in HD. destruct HD as (D1 & _ & D3). apply ZD_app. split; [exact D1|]. split; [apply ZD_cons; split; constructor|].
        intros x y Hx [<-|[]]. apply (D3 x _ Hx (or_introl eq_refl)). }
      assert (Hle : Forall (fun e => ehi e <= lo k) (A ++ [(k, vs)])).
      { apply ZS_app in W. destruct W as (_ & _ & W3). apply Forall_app. split; [|constructor; [zl|constructor]].
        apply Forall_forall. intros x Hx. apply (W3 x _ Hx (or_introl eq_refl)). }
      cbn [map extend_strict_back].
      destruct (insert_back_cases _ k w Wf) as [(X & _)|[(_ & X & _)|(_ & _ & l1 & l2 & k' & inner' & E & _ & _ & _ & _ & _ & _ & _ & _ & _ & _ & Hx)]]; [lia| |].
      { exfalso. apply X. cbn [z_inner]. eapply Forall_impl; [|exact Hle]. intros e L. left. exact L. }
      cbn [z_len z_inner] in E, Hx. rewrite E.
      destruct (Hx k vs A eq_refl HD1 Hle) as [Hx1 _]. rewrite (Hx1 eq_refl eq_refl Es).
      rewrite IH; rewrite <- ?app_assoc; cbn [app]; try assumption.
      + do 3 f_equal. cbn [length]. lia.
      + destruct vs; discriminate.
      + unfold count in *. rewrite flatten_app, flatten_cons, !app_length, map_length, app_length in *. cbn [length flatten flat_map] in *. lia.
  Qed.
  Lemma rebuild_exact (r : store) : forall (A : store) n, ZS (A ++ r) -> Forall okstore (A ++ r) -> ZD (A ++ r) -> (count A <= n)%nat ->
    extend_strict_back (flatten r) (mkZosdit n A) = Val (Ok (mkZosdit (n + count r) (A ++ r))).
  Proof.
    induction r as [|[k vs] r IH]; intros A n W Hok HD Hn.
    - cbn. rewrite app_nil_r, Nat.add_0_r. reflexivity.
    - rewrite flatten_cons, extend_app.
      replace (A ++ (k, vs) :: r) with ((A ++ [(k, vs)]) ++ r) in * by (rewrite <- app_assoc; reflexivity).
      pose proof W as W0. pose proof Hok as Hok0. pose proof HD as HD0.
      apply ZS_app in W. destruct W as (W & _ & _). apply Forall_app in Hok. destruct Hok as [Hok _].
      apply ZD_app in HD. destruct HD as (HD & _ & _).
      pose proof Hok as Hok1. apply Forall_app in Hok1. destruct Hok1 as [HokA Hok1]. inversion_clear Hok1 as [|? ? [On Os] _]. cbn in On.
      destruct vs as [|v vs]; [exfalso; apply On; reflexivity|].
      cbn [map extend_strict_back].
      assert (Wf : ZWF (mkZosdit n A)).
      { split; [|split]; cbn [z_inner z_len]; [apply ZS_app in W; apply W|exact HokA|exact Hn]. }
      apply ZS_app in W as (W1 & W2 & W3). apply ZS_cons in W2. destruct W2 as (Vk & _).
      apply ZD_app in HD as (D1 & D2 & D3).
      assert (Hle : Forall (fun e => ehi e <= lo k) A).
      { apply Forall_forall. intros x Hx. apply (W3 x _ Hx (or_introl eq_refl)). }
      assert (Ei : insert_strict_back k v (mkZosdit n A) = (mkZosdit (n + 1) (A ++ [(k, [v])]), Val (Ok tt))).
      { destruct (insert_back_cases _ k v Wf) as [(X & _)|[(_ & X & _)|(_ & Ha & l1 & l2 & k' & inner' & E & _ & _ & _ & _ & _ & _ & _ & _ & _ & _ & Hx)]]; [zl| |].
        { exfalso. apply X. cbn [z_inner]. eapply Forall_impl; [|exact Hle]. intros e L. left. exact L. }
        destruct (snoc_cases A) as [->|(A' & [k2 v2] & ->)].
        - clear -E. rewrite E. unfold insert_strict_back in E. destruct (invalid_interval_panic k); [|discriminate].
          destruct (is_zero_overlap _ k) as [[]|]; try discriminate. cbn in E. cbn. injection E as <-. reflexivity.
        - cbn [z_inner z_len] in E, Hx. rewrite E. destruct (Hx k2 v2 A' eq_refl D1 Hle) as [_ Hx2]. rewrite Hx2; [reflexivity|].
          assert (L : elo (k2, v2) < ehi (k, v :: vs)); [|exact L]. apply D3; [apply in_or_app; right; left; reflexivity|left; reflexivity]. }
      rewrite Ei. rewrite rebuild_store; cbn [app].
      + rewrite IH; try assumption.
        * do 3 f_equal. unfold count. rewrite flatten_cons, app_length, map_length. cbn [length]. lia.
        * unfold count in *. rewrite flatten_app, flatten_cons, !app_length, map_length. cbn [length flatten flat_map]. lia.
      + apply ZS_app. split; [exact W1|]. split; [apply ZS_cons; split; [exact Vk|split; [apply ZS_nil|constructor]]|exact W3].
      + exact Hok.
      + apply ZD_app. auto.
      + discriminate.
      + unfold count in *. rewrite flatten_app, flatten_cons, !app_length. cbn [map length flatten flat_map]. lia.
  Qed.

  (** ** Histories *)
  Implicit Type os : list (zop I K V).
  Lemma from_iter_grown l z : from_iter_strict_back l = Val (Ok z) -> grown z_new l z.
  Proof.
    intros E. unfold from_iter_strict_back in E. destruct (extend_results l z_new new_ZWF new_ZD) as (R & _).
    apply R in E. destruct E as [F E]. destruct (extend_fresh l z_new new_ZWF new_ZD F) as (z' & E' & G). congruence.
  Qed.
  Lemma grown_new_len l z : grown z_new l z -> z_len z = count (z_inner z).
  Proof.
    intros (_ & _ & N & (l' & P & F) & _). rewrite N. cbn. apply Permutation_length in P. cbn in P.
    unfold count. fold (zosdit_iter z). rewrite <- P. clear -F. induction F as [|a b l l' _ _ IH]; [reflexivity|cbn; rewrite IH; reflexivity].
  Qed.

  Lemma remove_ZWF z p : ZWF z -> ZWF (fst (remove_last_value_at_point p z)).
  Proof.
    intros Wf. destruct (remove_last_cases z p Wf) as [(l1 & l2 & k & v & z' & _ & -> & _ & _ & _ & _ & _ & Wf' & _)|(_ & -> & _)]; assumption.
  Qed.
  Lemma insert_ZWF z k v : ZWF z -> ZWF (fst (insert_strict_back k v z)).
  Proof.
    intros Wf. destruct (insert_back_cases z k v Wf) as [(_ & ->)|[(_ & _ & ->)|(_ & _ & l1 & l2 & k' & inner' & -> & _ & _ & _ & _ & _ & _ & _ & Wf' & _)]]; assumption.
  Qed.
  Lemma cut_invalid {Q} {IQ : InclusiveInterval I Q} (q : Q) z : ~ valid q -> zosdit_cut q z = (z, Panic).
  Proof. intros Vq. unfold zosdit_cut. rewrite iip_invalid by exact Vq. reflexivity. Qed.
  Lemma cut_ZWF {Q} {IQ : InclusiveInterval I Q} (q : Q) z : ZWF z -> ZWF (fst (zosdit_cut q z)).
  Proof.
    intros Wf. destruct (valid_dec q) as [Vq|Vq].
    - destruct (cuttable_dec z q) as [C|C].
      + destruct (cut_done z q Wf Vq C) as (z' & out & -> & Wf' & _). exact Wf'.
      + rewrite (cut_not_done z q Wf Vq C). exact Wf.
    - rewrite cut_invalid by exact Vq. exact Wf.
  Qed.
  Lemma zstep_ZWF z o : ZWF z -> ZWF (zstep z o).
  Proof.
    intros Wf. destruct o as [|k v|p|Q IQ q|l|l]; cbn [zstep].
    - apply new_ZWF.
    - apply insert_ZWF, Wf.
    - apply remove_ZWF, Wf.
    - apply cut_ZWF, Wf.
    - destruct (from_iter_strict_back l) as [[z'|]|] eqn:E; try exact Wf. apply from_iter_grown in E. apply E.
    - destruct (zosdit_deserialize l) as [[z'|]|] eqn:E; try exact Wf. apply deserialize_Ok_from_iter in E. destruct E as (l' & _ & E).
      apply from_iter_grown in E. apply E.
  Qed.
  Lemma zrun_snoc os o : zrun (os ++ [o]) = zstep (zrun os) o.
  Proof. unfold zrun. apply fold_left_app. Qed.
  Lemma zrun_ZWF os : ZWF (zrun os).
  Proof. induction os as [|o os IH] using rev_ind; [apply new_ZWF|]. rewrite zrun_snoc. apply zstep_ZWF, IH. Qed.
  Lemma zreachable_ZWF z : zreachable z -> ZWF z.
  Proof. intros (os & ->). apply zrun_ZWF. Qed.

  Lemma zstep_ZD z o : ZWF z -> ZD (z_inner z) -> not_cut o -> ZD (z_inner (zstep z o)).
  Proof.
    intros Wf HD Ho. destruct o as [|k v|p|Q IQ q|l|l]; cbn [zstep].
    - constructor.
    - destruct (insert_back_cases z k v Wf) as [(_ & ->)|[(_ & _ & ->)|(_ & _ & l1 & l2 & k' & inner' & -> & _ & _ & _ & _ & _ & _ & _ & _ & _ & HD' & _)]];
        [exact HD|exact HD|apply HD', HD].
    - destruct (remove_last_cases z p Wf) as [(l1 & l2 & k & v & z' & _ & -> & _ & _ & _ & _ & _ & _ & HD' & _)|(_ & -> & _)]; [apply HD', HD|exact HD].
    - destruct Ho.
    - destruct (from_iter_strict_back l) as [[z'|]|] eqn:E; try exact HD. apply from_iter_grown in E. apply E.
    - destruct (zosdit_deserialize l) as [[z'|]|] eqn:E; try exact HD. apply deserialize_Ok_from_iter in E. destruct E as (l' & _ & E).
      apply from_iter_grown in E. apply E.
  Qed.
  Lemma zrun_ZD os : Forall not_cut os -> ZD (z_inner (zrun os)).
  Proof.
    induction os as [|o os IH] using rev_ind; intros HF; [constructor|]. apply Forall_app in HF. destruct HF as [HF Ho]. inversion_clear Ho.
    rewrite zrun_snoc. apply zstep_ZD; [apply zrun_ZWF|apply IH, HF|assumption].
  Qed.

  Lemma removals_len os : forall z n, ZWF z -> z_len z = (count (z_inner z) + n)%nat ->
    z_len (fold_left zstep os z) = (count (z_inner (fold_left zstep os z)) + removals z n os)%nat.
  Proof.
    induction os as [|o os IH]; intros z n Wf Hn; [exact Hn|]. cbn [fold_left removals].
    apply IH; [apply zstep_ZWF, Wf|]. destruct o as [|k v|p|Q IQ q|l|l]; cbn [zstep].
    - reflexivity.
    - destruct (insert_back_cases z k v Wf) as [(_ & ->)|[(_ & _ & ->)|(_ & _ & l1 & l2 & k' & inner' & -> & E1 & E2 & _)]]; try exact Hn.
      cbn [fst z_len z_inner]. unfold count in *. rewrite E1 in Hn. rewrite E2. rewrite app_length in *. cbn [length]. lia.
    - destruct (remove_last_cases z p Wf) as [(l1 & l2 & k & v & z' & _ & -> & E1 & E2 & _ & _ & N & _)|(_ & -> & _)]; [|exact Hn].
      cbn [fst snd]. unfold count in *. rewrite E1 in Hn. rewrite E2, N. rewrite app_length in *. cbn [length] in Hn. lia.
    - destruct (valid_dec q) as [Vq|Vq]; [|rewrite cut_invalid by exact Vq; exact Hn].
      destruct (cuttable_dec z q) as [C|C]; [|rewrite (cut_not_done z q Wf Vq C); exact Hn].
      destruct (cut_done z q Wf Vq C) as (z' & out & -> & _ & _ & _ & _ & N). cbn [fst]. unfold zosdit_iter in N. unfold count in *. lia.
    - destruct (from_iter_strict_back l) as [[z'|]|] eqn:E; try exact Hn. apply from_iter_grown, grown_new_len in E. lia.
    - destruct (zosdit_deserialize l) as [[z'|]|] eqn:E; try exact Hn. apply deserialize_Ok_from_iter in E. destruct E as (l' & _ & E).
      apply from_iter_grown, grown_new_len in E. lia.
  Qed.
  Lemma removed_len os : zosdit_len (zrun os) = (length (zosdit_iter (zrun os)) + removed os)%nat.
  Proof. apply (removals_len os z_new 0 new_ZWF). reflexivity. Qed.

  (** ** The conditions in terms of points *)
  Lemma iter_okv z e : ZWF z -> In e (zosdit_iter z) -> elo e <= ehi e.
  Proof. intros (W & Hok & _) Hi. apply (ZS_okv (flatten (z_inner z))); [apply flatten_ZS; assumption|exact Hi]. Qed.
  Lemma cut_reaches_spec {Q} {IQ : InclusiveInterval I Q} (q : Q) z : ZWF z -> valid q ->
    (cut_reaches q (zosdit_iter z) <-> cuttable z q).
  Proof.
    intros Wf Vq. apply valid_rk in Vq. unfold cut_reaches, cuttable. fold (zosdit_iter z). split; (intros [X|X]; [left|right]).
    - destruct X as (e & x & Hi & Ho & Hx & Hq). exists e. split; [exact Hi|]. apply overlap_rk in Ho. apply covers_rk in Hx.
      specialize (Hq (istart q)). rewrite covers_rk, plt_rk in Hq. unfold elo, ehi, lo, hi in *. lia.
    - intros e Hi. pose proof (iter_okv z e Wf Hi) as Ve. specialize (X e Hi). rewrite before_rk in X by assumption. zl.
    - destruct X as (e & Hi & L). exists e, (istart (fst e)). pose proof (iter_okv z e Wf Hi) as Ve. unfold elo, ehi in L, Ve. split; [exact Hi|].
      split; [apply overlap_rk; lia|]. split; [apply covers_rk; unfold lo, hi in *; lia|]. intros y Hy. apply covers_rk in Hy. rewrite plt_rk. unfold lo, hi in *. lia.
    - intros e Hi. pose proof (iter_okv z e Wf Hi) as Ve. specialize (X e Hi). rewrite before_rk by assumption. zl.
  Qed.
  Lemma point_reached_spec z p : ZWF z -> (point_reached (zosdit_iter z) p <-> findable z p).
  Proof.
    intros Wf. unfold point_reached, findable. fold (zosdit_iter z). split; (intros [X|X]; [left|right]).
    - destruct X as (e & x & Hi & Hp & Hx & Hl). exists e. split; [exact Hi|]. apply covers_rk in Hp, Hx. rewrite plt_rk in Hl. zl.
    - intros e Hi. pose proof (iter_okv z e Wf Hi) as Ve. specialize (X e (iend (fst e)) Hi). rewrite covers_rk, ple_rk in X. unfold elo, ehi, lo, hi in *. lia.
    - destruct X as (e & Hi & L). exists e, (iend (fst e)). pose proof (iter_okv z e Wf Hi) as Ve. unfold elo, ehi in L, Ve. split; [exact Hi|].
      split; [apply covers_rk; lia|]. split; [apply covers_rk; unfold lo, hi in *; lia|]. rewrite plt_rk. unfold lo, hi in *. lia.
    - intros e x Hi Hx. specialize (X e Hi). apply covers_rk in Hx. rewrite ple_rk. zl.
  Qed.
  Lemma last_value_fun (l : list (K * V)) p v v' : last_value l p v -> last_value l p v' -> v = v'.
  Proof.
    intros (l1 & k & l2 & -> & Hk & H2) (l1' & k' & l2' & E & Hk' & H2'). revert l1' E. induction l1 as [|a l1 IH]; intros l1' E.
    - destruct l1' as [|b l1']; cbn in E; [congruence|]. injection E as <- E. exfalso. apply (H2 (k', v')); [|exact Hk'].
      rewrite E. apply in_or_app. right. left. reflexivity.
    - destruct l1' as [|b l1']; cbn in E.
      + injection E as -> E. exfalso. apply (H2' (k, v)); [|exact Hk]. rewrite <- E. apply in_or_app. right. left. reflexivity.
      + injection E as _ E. apply (IH l1' E).
  Qed.
  Lemma last_not_none (l : list (K * V)) p v : last_value l p v -> ~ no_value l p.
  Proof. intros (l1 & k & l2 & -> & Hk & _) Hn. apply (Hn (k, v)); [apply in_or_app; right; left; reflexivity|exact Hk]. Qed.

  Lemma get_last_sound z p v : ZWF z -> get_last_value_at_point z p = Some v -> last_value (zosdit_iter z) p v.
  Proof.
    intros Wf E. destruct (remove_last_cases z p Wf) as [(l1 & l2 & k & v' & z' & E' & _ & E1 & _ & Hk & H2 & _)|(E' & _)]; [|congruence].
    assert (v' = v) as -> by congruence. exists l1, k, l2. split; [exact E1|]. split; [apply covers_rk, Hk|].
    rewrite Forall_forall in H2. intros e He. specialize (H2 e He). rewrite covers_rk. zl.
  Qed.
  Lemma get_last_found z p : ZWF z -> findable z p -> get_last_value_at_point z p = None -> no_value (zosdit_iter z) p.
  Proof.
    intros Wf Hf E. destruct (remove_last_cases z p Wf) as [(l1 & l2 & k & v' & z' & E' & _)|(_ & _ & H1)]; [congruence|].
    specialize (H1 Hf). rewrite Forall_forall in H1. intros e He. rewrite covers_rk. apply (H1 e He).
  Qed.
  Lemma get_last_not_found z p : ZWF z -> ~ findable z p -> get_last_value_at_point z p = None.
  Proof.
    intros Wf Hf. destruct (remove_last_cases z p Wf) as [(l1 & l2 & k & v' & z' & _ & _ & _ & _ & _ & _ & _ & _ & _ & F)|(E & _)]; [contradiction|exact E].
  Qed.
  Lemma get_last_char z p : ZWF z -> findable z p ->
    (forall v, get_last_value_at_point z p = Some v <-> last_value (zosdit_iter z) p v) /\
    (get_last_value_at_point z p = None <-> no_value (zosdit_iter z) p).
  Proof.
    intros Wf Hf. destruct (get_last_value_at_point z p) as [w|] eqn:E.
    - pose proof (get_last_sound z p w Wf E) as L. split.
      + intros v. split; [intros X; congruence|]. intros X. f_equal. apply (last_value_fun _ _ _ _ L X).
      + split; [discriminate|]. intros X. exfalso. apply (last_not_none _ _ _ L X).
    - pose proof (get_last_found z p Wf Hf E) as N. split; [|tauto]. intros v. split; [discriminate|]. intros X. exfalso. apply (last_not_none _ _ _ X N).
  Qed.

  (** ** The order of the entries *)
  Lemma iter_sorted z : ZWF z ->
    Forall valid (map fst (zosdit_iter z)) /\
    StronglySorted up_to (map fst (zosdit_iter z)) /\
    StronglySorted (fun a b => ple (istart a) (istart b) /\ ple (iend a) (iend b)) (map fst (zosdit_iter z)) /\
    ForallOrdPairs zero_overlap (map fst (zosdit_iter z)).
  Proof.
    intros (W & Hok & _). pose proof (flatten_ZS _ W Hok) as [S F]. fold (zosdit_iter z) in S, F.
    split; [rewrite Forall_map; eapply Forall_impl; [|exact F]; intros e Ve; apply valid_rk, Ve|].
    induction S as [|e l S IH HS]; [repeat split; constructor|]. inversion_clear F as [|? ? Ve F']. destruct (IH F') as (S1 & S2 & S3).
    assert (HL : forall x, In x l -> elo x <= ehi x /\ ehi e <= elo x).
    { rewrite Forall_forall in F', HS. intros x Hx. split; [apply F', Hx|apply HS, Hx]. }
    unfold okv in Ve. cbn [map]. split; [|split].
    - apply SS_cons. split; [exact S1|]. rewrite Forall_map, Forall_forall. intros x Hx. destruct (HL x Hx). apply up_to_rk; zl.
    - apply SS_cons. split; [exact S2|]. rewrite Forall_map, Forall_forall. intros x Hx. destruct (HL x Hx). rewrite !ple_rk. unfold elo, ehi, lo, hi in *. lia.
    - constructor; [|exact S3]. rewrite Forall_map, Forall_forall. intros x Hx. destruct (HL x Hx). apply zero_overlap_rk; zl.
  Qed.
  Lemma iter_once z l1 e l2 : ZWF z -> zosdit_iter z = l1 ++ e :: l2 -> ~ singular (fst e) ->
    forall e', In e' (l1 ++ l2) -> ~ same_points (fst e') (fst e).
  Proof.
    intros (W & Hok & _) E Ns e' Hi Sp. pose proof (flatten_ZS _ W Hok) as S. fold (zosdit_iter z) in S. rewrite E in S.
    rewrite singular_rk in Ns. apply ZS_app in S. destruct S as (S1 & S2 & S3). apply ZS_cons in S2. destruct S2 as (Ve & S2 & S4).
    rewrite Forall_forall in S4. apply in_app_or in Hi. destruct Hi as [Hi|Hi].
    - pose proof (ZS_okv _ _ S1 Hi) as Ve'. apply same_points_rk in Sp; [|assumption..]. specialize (S3 e' e Hi (or_introl eq_refl)). zl.
    - pose proof (ZS_okv _ _ S2 Hi) as Ve'. apply same_points_rk in Sp; [|assumption..]. specialize (S4 e' Hi). zl.
  Qed.
  Lemma sorted_ZS (l : list (K * V)) : Forall valid (map fst l) -> StronglySorted up_to (map fst l) -> ZS l.
  Proof.
    induction l as [|e l IH]; intros Vl S; [apply ZS_nil|]. cbn in Vl, S. inversion_clear Vl as [|? ? Ve Vl']. apply SS_cons in S. destruct S as [S Se].
    apply valid_rk in Ve. apply ZS_cons. split; [exact Ve|]. split; [apply IH; assumption|].
    rewrite Forall_map, Forall_forall in *. intros x Hx. specialize (Se x Hx). specialize (Vl' x Hx). apply valid_rk in Vl'. apply up_to_rk in Se; assumption.
  Qed.
  Lemma any_sorted_reachable (l : list (K * V)) : Forall valid (map fst l) -> StronglySorted up_to (map fst l) ->
    Forall2 same_entry l (zosdit_iter (zrun [ZFromIter l])).
  Proof.
    intros Vl S. pose proof (sorted_ZS l Vl S) as W. unfold zrun. cbn [fold_left zstep]. unfold from_iter_strict_back.
    destruct (rebuild l [] z_new new_ZWF new_ZD W (Forall2_nil _)) as (z' & -> & F & _). exact F.
  Qed.

  (** ** Queries *)
  Lemma zero_overlap_decides {Q} {IQ : InclusiveInterval I Q} (q : Q) z : ZWF z -> valid q ->
    exists b, is_zero_overlap z q = Val b /\ (b = true <-> forall e, In e (zosdit_iter z) -> zero_overlap (fst e) q).
  Proof.
    intros Wf Vq. apply valid_rk in Vq. pose proof Wf as (W & _). destruct (is_zero_overlap_rk z q W Vq) as [Z1 Z2].
    assert (X : Forall (apart_from (lo q) (hi q)) (zosdit_iter z) <-> forall e, In e (zosdit_iter z) -> zero_overlap (fst e) q).
    { rewrite Forall_forall. split; intros HF e He; specialize (HF e He); pose proof (iter_okv z e Wf He) as Ve.
      - apply zero_overlap_rk; [exact Ve|exact Vq|exact HF].
      - apply zero_overlap_rk in HF; [exact HF|exact Ve|exact Vq]. }
    destruct (Forall_dec _ (apart_dec (lo q) (hi q)) (zosdit_iter z)) as [F|F].
    - exists true. split; [apply Z1, apart_iter; assumption|]. split; [intros _; apply X, F|reflexivity].
    - exists false. split; [apply Z2; rewrite apart_iter; assumption|]. split; [discriminate|intros Y; exfalso; apply F, X, Y].
  Qed.
  Lemma overlapping_lists {Q} {IQ : InclusiveInterval I Q} (q : Q) z : ZWF z -> valid q ->
    exists l, zosdit_overlapping z q = Val l /\ sub (fun e => overlap (fst e) q) (zosdit_iter z) l.
  Proof.
    intros Wf Vq. apply valid_rk in Vq. pose proof Wf as (W & _).
    destruct (zsplit3 (z_inner z) (lo q) (hi q) W Vq) as (A & M & B & El & HA & HM & HB).
    pose proof W as W'. rewrite El in W'. apply ZS_app in W'. destruct W' as (WA & W' & _). apply ZS_app in W'. destruct W' as (WM & WB & _).
    apply okvs in WA, WM, WB.
    exists (flatten M). split; [apply (overlapping_zosdit z q A M B Vq El); assumption|].
    unfold zosdit_iter. rewrite El, !flatten_app.
    enough (X : sub (fun e => overlap (fst e) q) (flatten A ++ flatten M ++ flatten B) ([] ++ flatten M ++ [])).
    { cbn [app] in X. rewrite app_nil_r in X. exact X. }
    apply sub_app; [apply sub_none|apply sub_app; [apply sub_all|apply sub_none]].
    - eapply Forall_impl; [|apply (Forall_flatten (fun _ b => b < lo q)), HA]. intros e L. rewrite overlap_rk. zl.
    - eapply Forall_impl; [|apply (Forall_flatten (fun a b => (a <= b /\ a <= hi q /\ lo q <= b)))].
      + intros e L. apply overlap_rk. zl.
      + rewrite Forall_forall in *. intros e He. split; [apply WM, He|apply HM, He].
    - eapply Forall_impl; [|apply (Forall_flatten (fun a _ => hi q < a)), HB]. intros e L. rewrite overlap_rk. zl.
  Qed.
  Lemma first_last z : ZWF z ->
    zosdit_first_key_value z = hd_error (zosdit_iter z) /\ zosdit_last_key_value z = hd_error (rev (zosdit_iter z)) /\
    zosdit_into_iter z = zosdit_iter z.
  Proof.
    intros (_ & Hok & _). unfold zosdit_first_key_value, zosdit_last_key_value, zosdit_iter. split; [|split; [|reflexivity]].
    - destruct (z_inner z) as [|[k vs] l]; [reflexivity|]. inversion_clear Hok as [|? ? [Hn _] _]. cbn in Hn.
      destruct vs as [|v vs]; [exfalso; apply Hn; reflexivity|reflexivity].
    - destruct (snoc_cases (z_inner z)) as [->|(l & [k vs] & E)]; [reflexivity|]. rewrite E in *. rewrite bt_last_snoc.
      apply Forall_app in Hok. destruct Hok as [_ Hok]. inversion_clear Hok as [|? ? [Hn _] _]. cbn in Hn.
      destruct (snoc_cases vs) as [->|(vs' & v & ->)]; [exfalso; apply Hn; reflexivity|]. rewrite vec_last_snoc.
      rewrite flatten_app, flatten_cons, map_app, app_nil_r, !rev_app_distr. reflexivity.
  Qed.

  (** ** Insertion *)
  Lemma insert_back_spec z k v : ZWF z -> valid k ->
    (~ (forall e, In e (zosdit_iter z) -> zero_overlap (fst e) k) -> insert_strict_back k v z = (z, Val (Err v))) /\
    ((forall e, In e (zosdit_iter z) -> zero_overlap (fst e) k) -> exists z' l1 k' l2,
       insert_strict_back k v z = (z', Val (Ok tt)) /\ zosdit_len z' = S (zosdit_len z) /\
       zosdit_iter z = l1 ++ l2 /\ zosdit_iter z' = l1 ++ (k', v) :: l2 /\
       same_points k' k /\ (k' = k \/ exists v', In (k', v') l1) /\
       (forall e, In e l1 -> up_to (fst e) k) /\ (forall e, In e l2 -> up_to k (fst e)) /\
       (~ singular k \/ ZD (z_inner z) -> forall e, In e l2 -> ~ up_to (fst e) k)).
  Proof.
    intros Wf Vk. apply valid_rk in Vk.
    assert (X : Forall (apart_from (lo k) (hi k)) (z_inner z) <-> forall e, In e (zosdit_iter z) -> zero_overlap (fst e) k).
    { rewrite (apart_iter z _ _ Wf), Forall_forall. split; intros HF e He; specialize (HF e He); pose proof (iter_okv z e Wf He) as Ve.
      - apply zero_overlap_rk; [exact Ve|exact Vk|exact HF].
      - apply zero_overlap_rk in HF; [exact HF|exact Ve|exact Vk]. }
    destruct (insert_back_cases z k v Wf) as [(Y & _)|[(_ & Y & E)|(_ & Y & l1 & l2 & k' & inner' & E & E1 & E2 & L1 & L2 & Hk' & F1 & F2 & Wf' & F3 & _)]]; [lia| |].
    - split; [intros _; exact E|]. intros Z0. exfalso. apply Y, X, Z0.
    - split; [intros N; exfalso; apply N, X, Y|]. intros _. exists (mkZosdit (z_len z + 1) inner'), l1, k', l2.
      assert (Hin : forall e, In e (l1 ++ l2) -> elo e <= ehi e) by (intros e He; apply (iter_okv z e Wf); unfold zosdit_iter; rewrite E1; exact He).
      rewrite Forall_forall in F1, F2.
      split; [exact E|]. split; [unfold zosdit_len; cbn; lia|]. split; [exact E1|]. split; [exact E2|].
      split; [intros p; rewrite !covers_rk; lia|]. split; [exact Hk'|]. split; [|split].
      + intros e He. apply up_to_rk; [apply Hin, in_or_app; left; exact He|exact Vk|apply (F1 e He)].
      + intros e He. apply up_to_rk; [exact Vk|apply Hin, in_or_app; right; exact He|apply (F2 e He)].
      + intros C e He. assert (Hlt : lo k < ehi e).
        { assert (C' : lo k < hi k \/ ZD (z_inner z)) by (destruct C as [C|C]; [left; rewrite singular_rk in C; lia|right; exact C]).
          specialize (F3 C'). rewrite Forall_forall in F3. apply (F3 e He). }
        rewrite up_to_rk; [zl|apply Hin, in_or_app; right; exact He|exact Vk].
  Qed.

  (** ** Bulk construction *)
  Lemma clash_zero_overlap (l1 : list (K * V)) k : zero_overlapping (map fst l1) -> lo k <= hi k ->
    ((exists e, (In e (zosdit_iter (z_new : ZosditMap K V)) \/ In e l1) /\ ~ apart_from (lo k) (hi k) e) <->
     exists k', In k' (map fst l1) /\ ~ zero_overlap k' k).
  Proof.
    intros [Vl _] Vk. rewrite Forall_map, Forall_forall in Vl. split.
    - intros (e & [[]|Hi] & Na). exists (fst e). split; [apply in_map, Hi|]. rewrite zero_overlap_rk; [exact Na|apply valid_rk, Vl, Hi|exact Vk].
    - intros (k' & Hi & Nz). apply in_map_iff in Hi. destruct Hi as (e & <- & Hi). exists e. split; [right; exact Hi|].
      rewrite zero_overlap_rk in Nz; [exact Nz|apply valid_rk, Vl, Hi|exact Vk].
  Qed.
  Lemma from_iter_Ok (l : list (K * V)) : (exists z, from_iter_strict_back l = Val (Ok z)) <-> zero_overlapping (map fst l).
  Proof.
    rewrite <- fresh_new. unfold from_iter_strict_back. split.
    - intros (z & E). apply (extend_results l z_new new_ZWF new_ZD) in E. apply E.
    - intros F. destruct (extend_fresh l z_new new_ZWF new_ZD F) as (z & E & _). exists z. exact E.
  Qed.
  Lemma from_iter_Err (l : list (K * V)) v : from_iter_strict_back l = Val (Err v) <->
    exists l1 k l2, l = l1 ++ (k, v) :: l2 /\ zero_overlapping (map fst l1) /\ valid k /\
      exists k', In k' (map fst l1) /\ ~ zero_overlap k' k.
  Proof.
    unfold from_iter_strict_back. destruct (extend_results l z_new new_ZWF new_ZD) as (_ & R & _). rewrite R. split.
    - intros (l1 & k & l2 & E & F & Vk & X). apply fresh_new in F. exists l1, k, l2. split; [exact E|]. split; [exact F|].
      split; [apply valid_rk, Vk|]. apply clash_zero_overlap in X; assumption.
    - intros (l1 & k & l2 & E & F & Vk & X). apply valid_rk in Vk. exists l1, k, l2. split; [exact E|]. split; [apply fresh_new, F|].
      split; [exact Vk|]. apply clash_zero_overlap; assumption.
  Qed.
  Lemma from_iter_Panic (l : list (K * V)) : from_iter_strict_back l = Panic <->
    exists l1 k v l2, l = l1 ++ (k, v) :: l2 /\ zero_overlapping (map fst l1) /\ ~ valid k.
  Proof.
    unfold from_iter_strict_back. destruct (extend_results l z_new new_ZWF new_ZD) as (_ & _ & R). rewrite R. split.
    - intros (l1 & k & v & l2 & E & F & Vk). apply fresh_new in F. exists l1, k, v, l2. split; [exact E|]. split; [exact F|]. rewrite valid_rk. lia.
    - intros (l1 & k & v & l2 & E & F & Vk). rewrite valid_rk in Vk. exists l1, k, v, l2. split; [exact E|]. split; [apply fresh_new, F|]. lia.
  Qed.
  Lemma vals_sub k (l l' : list (K * V)) : lo k <= hi k -> Forall okv l -> sub (fun e => same_points (fst e) k) l l' ->
    map snd l' = vals (lo k) (hi k) l.
  Proof.
    intros Vk Vl S. unfold vals. f_equal. apply (sub_unique (fun e => same_points (fst e) k) l); [exact S|].
    apply sub_filter. rewrite Forall_forall in Vl. intros e He. specialize (Vl e He). unfold ext, okv in *.
    rewrite same_points_rk by assumption. zl.
  Qed.
  Lemma from_iter_entries (l : list (K * V)) z : from_iter_strict_back l = Val (Ok z) ->
    zosdit_len z = length l /\
    (exists l', Permutation l' (zosdit_iter z) /\ Forall2 same_entry l l') /\
    (forall k l1 l2, valid k -> sub (fun e => same_points (fst e) k) l l1 ->
       sub (fun e => same_points (fst e) k) (zosdit_iter z) l2 -> map snd l2 = map snd l1).
  Proof.
    intros E. assert (F : fresh (z_new : ZosditMap K V) l) by (apply fresh_new, from_iter_Ok; exists z; exact E).
    apply from_iter_grown in E. destruct E as (Wf & _ & N & P & Hv). split; [exact N|]. split; [exact P|].
    intros k l1 l2 Vk S1 S2. apply valid_rk in Vk.
    rewrite (vals_sub k l l1 Vk (proj1 F) S1), (vals_sub k (zosdit_iter z) l2 Vk); [|apply Forall_forall; intros e He; apply (iter_okv z e Wf He)|exact S2].
    rewrite Hv. reflexivity.
  Qed.
  Lemma deserialize_rejects_zosdit (es : list (option (K * V))) :
    (forall k v, In (Some (k, v)) es -> valid k) ->
    ~ (exists l, es = map Some l /\ zero_overlapping (map fst l)) ->
    exists e, zosdit_deserialize es = Val (Err e).
  Proof.
    intros Vs N. unfold zosdit_deserialize.
    assert (Np : forall l r, es = map Some l ++ r -> extend_strict_back l (z_new : ZosditMap K V) <> Panic).
    { intros l r E X. apply (from_iter_Panic l) in X. destruct X as (l1 & k & v & l2 & -> & _ & Nv). apply Nv, (Vs k v).
      rewrite E, map_app. apply in_or_app. left. apply in_or_app. right. left. reflexivity. }
    destruct (somes es) as [(l & E)|(l & r & E)].
    - rewrite E, <- (app_nil_r (map Some l)), visit_seq_map. specialize (Np l [] (eq_trans E (eq_sym (app_nil_r _)))).
      destruct (extend_strict_back l z_new) as [[z'|v]|] eqn:X; [exfalso|exists DeOverlap; reflexivity|congruence].
      apply N. exists l. split; [exact E|]. apply from_iter_Ok. exists z'. exact X.
    - rewrite E, visit_seq_map. specialize (Np l _ E).
      destruct (extend_strict_back l z_new) as [[z'|v]|] eqn:X; [exists DeElement; reflexivity|exists DeOverlap; reflexivity|congruence].
  Qed.
  Lemma deserialize_Panic_zosdit (es : list (option (K * V))) : zosdit_deserialize es = Panic <->
    exists l k v es', es = map Some l ++ Some (k, v) :: es' /\ zero_overlapping (map fst l) /\ ~ valid k.
  Proof.
    unfold zosdit_deserialize. split.
    - intros E. destruct (somes es) as [(l & ->)|(l & r & ->)].
      + rewrite <- (app_nil_r (map Some l)), visit_seq_map in E.
        destruct (extend_strict_back l z_new) as [[z'|v]|] eqn:X; try discriminate.
        apply (from_iter_Panic l) in X. destruct X as (l1 & k & v & l2 & -> & F & Nv). exists l1, k, v, (map Some l2). rewrite map_app. auto.
      + rewrite visit_seq_map in E. destruct (extend_strict_back l z_new) as [[z'|v]|] eqn:X; try discriminate.
        apply (from_iter_Panic l) in X. destruct X as (l1 & k & v & l2 & -> & F & Nv). exists l1, k, v, (map Some l2 ++ None :: r).
        rewrite map_app, <- app_assoc. auto.
    - intros (l & k & v & es' & -> & F & Nv). change (Some (k, v) :: es') with (map Some [(k, v)] ++ es'). rewrite app_assoc, <- map_app, visit_seq_map.
      assert (X : from_iter_strict_back (l ++ [(k, v)]) = Panic) by (apply from_iter_Panic; exists l, k, v, []; auto).
      unfold from_iter_strict_back in X. rewrite X. reflexivity.
  Qed.
  Lemma round_trip z : ZWF z ->
    exists z', zosdit_deserialize (map Some (snd (zosdit_serialize z))) = Val (Ok z') /\
      Forall2 same_entry (zosdit_iter z) (zosdit_iter z') /\ zosdit_len z' = length (zosdit_iter z).
  Proof.
    intros Wf. pose proof Wf as (W & Hok & _). pose proof (flatten_ZS _ W Hok) as S.
    destruct (rebuild (zosdit_iter z) [] z_new new_ZWF new_ZD S (Forall2_nil _)) as (z' & E & F & N).
    exists z'. split; [|split; [exact F|exact N]]. apply deserialize_Ok_from_iter. exists (zosdit_iter z). split; [reflexivity|exact E].
  Qed.
  Lemma round_trip_exact z : ZWF z -> ZD (z_inner z) -> z_len z = count (z_inner z) ->
    zosdit_deserialize (map Some (snd (zosdit_serialize z))) = Val (Ok z).
  Proof.
    intros (W & Hok & _) HD N. apply deserialize_Ok_from_iter. exists (zosdit_iter z). split; [reflexivity|].
    unfold from_iter_strict_back, zosdit_iter, z_new. rewrite (rebuild_exact (z_inner z) [] 0); [|exact W|exact Hok|exact HD|cbn; lia].
    cbn [app]. destruct z as [n i]. cbn in *. rewrite N. reflexivity.
  Qed.

  (** [stored_once] in ranks. *)
  Lemma stored_once_ZD z : ZWF z -> (stored_once z <-> ZD (z_inner z)).
  Proof.
    intros (W & _ & _). unfold stored_once. revert W. generalize (z_inner z) as l. induction l as [|a l IH]; intros W.
    - split; constructor.
    - apply ZS_cons in W as (Va & W & Fa). rewrite ZD_cons, <- IH by exact W. clear IH.
      assert (Vl : forall b, In b l -> elo b <= ehi b) by (intros b Hb; destruct W as [_ F]; rewrite Forall_forall in F; apply (F b Hb)).
      assert (X : Forall (fun b => ~ same_points (fst a) (fst b)) l <-> Forall (fun e => elo a < ehi e) l).
      { rewrite !Forall_forall. rewrite Forall_forall in Fa. split; intros Y b Hb; specialize (Y b Hb); specialize (Fa b Hb); specialize (Vl b Hb).
        - destruct (Z.lt_ge_cases (elo a) (ehi b)) as [L|L]; [exact L|]. exfalso. apply Y. intros p. rewrite !covers_rk. unfold elo, ehi in *. lia.
        - intros S. apply same_points_rk in S; [|exact Va|exact Vl]. unfold elo, ehi in *. lia. }
      split.
      + intros F. inversion F as [|? ? F1 F2]; subst. split; [exact F2|apply X, F1].
      + intros [F2 F1]. constructor; [apply X, F1|exact F2].
  Qed.
  Lemma deserialized_once es z : zosdit_deserialize es = Val (Ok z) -> ZD (z_inner z) /\ z_len z = count (z_inner z).
  Proof.
    intros E. assert (Z : z = zrun [ZDeserialize es]) by (cbn; rewrite E; reflexivity). split.
    - rewrite Z. apply zrun_ZD. repeat constructor.
    - pose proof (removed_len [ZDeserialize es]) as L. rewrite <- Z in L. unfold zosdit_len in L. rewrite L. cbn. rewrite E. cbn.
      unfold count, zosdit_iter. lia.
  Qed.
End Proofs.
