(** * ZosditSize: how many entries a ZosditMap has (for C111). *)
From Coq Require Import List ZArith Bool Lia ZifyBool Permutation.
From Verif Require Import Base BTree UtilsModel IntervalModel NoditModel ZosditModel ZosditOps Spec Ledger
  PointFacts IntervalFacts ListFacts NoditFacts NoditQueries ZosditFacts ZosditMut ZosditProofs.
Import ListNotations.
Open Scope Z_scope.

(** The entries a call is given to insert; a [cut] counts as one. *)
Definition zhanded {I K V : Type} (o : zop I K V) : nat :=
  match o with
  | ZNew | ZRemoveLast _ => 0
  | ZInsertStrictBack _ _ | ZCut _ => 1
  | ZFromIter l => length l
  | ZDeserialize l => length l
  end.

Section Size.
  Context {I : Type} {OI : Ord I} {DI : DiscreteFinite I} {PL : PointLaws I}.
  Context {K : Type} {IK : InclusiveInterval I K} {IL : IntervalLaws I K}.
  Context {V : Type}.
  Implicit Types (z : ZosditMap K V).

  Section Cut.
    Context {Q : Type} {IQ : InclusiveInterval I Q}.
    Implicit Types q : Q.

    Lemma count_piece (ks : list K) (vs : list V) : count (map (fun k => (k, vs)) ks) = (length ks * length vs)%nat.
    Proof.
      unfold count. induction ks as [|k ks IH]; [reflexivity|]. cbn [map]. rewrite flatten_cons, app_length, map_length, IH. reflexivity.
    Qed.
    Lemma pieces_count q (e : K * list V) : lo q <= hi q -> okv e -> meets (lo q) (hi q) e -> okstore e ->
      (elo e < lo q /\ hi q < ehi e -> count (zpieces q e) = 2%nat /\ count [e] = 1%nat) /\
      (~ (elo e < lo q /\ hi q < ehi e) -> (count (zpieces q e) <= count [e])%nat).
    Proof.
      destruct e as [k vs]. intros Vq Vk Hm [_ Os]. destruct (zpieces_keys q k vs Vq Vk Hm) as (ks & Hk & ->).
      rewrite count_piece. replace (count [(k, vs)]) with (length vs) by (unfold count; rewrite flatten_cons, app_nil_r, map_length; reflexivity).
      unfold okv, meets, elo, ehi in *. cbn [fst snd] in *. destruct Hk as (b & a & -> & Hb & Ha).
      split; intros N; destruct b as [b|], a as [a|]; cbn [opt_list app length]; try lia.
      destruct Os as (v & ->); [lia|]. cbn. auto.
    Qed.
    Lemma count_cons (e : K * list V) l : count (e :: l) = (count [e] + count l)%nat.
    Proof. unfold count. change (e :: l) with ([e] ++ l). rewrite flatten_app, app_length. reflexivity. Qed.
    Lemma count_app (l1 l2 : BTreeMap K (list V)) : count (l1 ++ l2) = (count l1 + count l2)%nat.
    Proof. unfold count. rewrite flatten_app, app_length. reflexivity. Qed.

    Lemma zcut_size z q : ZWF z -> valid q ->
      exists z' out, zosdit_cut q z = (z', Val out) /\
        (count (z_inner z') <= count (z_inner z) + 1)%nat /\
        ((count (z_inner z') = count (z_inner z) + 1)%nat <-> exists e, In e (flatten (z_inner z)) /\ elo e < lo q /\ hi q < ehi e).
    Proof.
      intros Wf Vq. apply valid_rk in Vq. pose proof Wf as (W & Hok & Hlen).
      destruct (zsplit3 (z_inner z) (lo q) (hi q) W Vq) as (A & M & B & El & HA & HM & HB).
      destruct (cut_zosdit_cases z q A M B Wf Vq El HA HM HB) as [(_ & n' & E & En)|(Nc & E)].
      - exists (mkZosdit n' (A ++ flat_map (zpieces q) M ++ B)), (flat_map (zinside q) M). split; [exact E|]. cbn [z_inner]. clear E En Hlen.
        rewrite El in *. rewrite !count_app.
        apply ZS_app in W. destruct W as (_ & W & _). apply ZS_app in W. destruct W as (WM & _ & _).
        apply Forall_app in Hok. destruct Hok as [_ Hok]. apply Forall_app in Hok. destruct Hok as [OM _].
        assert (IN : (exists e, In e (flatten (A ++ M ++ B)) /\ elo e < lo q /\ hi q < ehi e) <->
                     (exists e, In e (flatten M) /\ elo e < lo q /\ hi q < ehi e)).
        { split; intros (e & Hi & X).
          - exists e. split; [|exact X]. rewrite !flatten_app in Hi. apply in_app_or in Hi. destruct Hi as [Hi|Hi].
            + exfalso. apply (Forall_flatten (fun a b => b < lo q)) in HA. rewrite Forall_forall in HA. specialize (HA e Hi). cbv beta in HA. lia.
            + apply in_app_or in Hi. destruct Hi as [Hi|Hi]; [exact Hi|].
              exfalso. apply (Forall_flatten (fun a b => hi q < a)) in HB. rewrite Forall_forall in HB. specialize (HB e Hi). cbv beta in HB. lia.
          - exists e. split; [|exact X]. rewrite !flatten_app. apply in_or_app. right. apply in_or_app. left. exact Hi. }
        rewrite IN. clear IN El HA HB.
        enough (X : (count (flat_map (zpieces q) M) <= count M + 1)%nat /\
          ((count (flat_map (zpieces q) M) = count M + 1)%nat <-> exists e, In e (flatten M) /\ elo e < lo q /\ hi q < ehi e)) by (destruct X as [X1 X2]; rewrite <- X2; clear X2; lia).
        pose proof (okvs _ WM) as VM.
        (* an entry sticking out on both sides is the only one met *)
        assert (One : forall e, In e M -> elo e < lo q /\ hi q < ehi e -> M = [e]).
        { intros e Hi X. apply in_split in Hi. destruct Hi as (l1 & l2 & ->). apply ZS_app in WM. destruct WM as (_ & WM & H12).
          apply ZS_cons in WM. destruct WM as (_ & _ & H2). rewrite !Forall_app, Forall_cons_iff in HM. destruct HM as (HM1 & _ & HM2).
          destruct l1 as [|a l1].
          - destruct l2 as [|b l2]; [reflexivity|exfalso]. apply Forall_inv in H2. apply Forall_inv in HM2. unfold meets in *. lia.
          - exfalso. specialize (H12 a e (or_introl eq_refl) (or_introl eq_refl)). apply Forall_inv in HM1. unfold meets in *. lia. }
        destruct (existsb (fun e => (elo e <? lo q) && (hi q <? ehi e)) M) eqn:Ex.
        + apply existsb_exists in Ex. destruct Ex as (e & Hi & X). assert (X' : elo e < lo q /\ hi q < ehi e) by lia.
          rewrite (One e Hi X') in *. apply Forall_inv in VM, HM, OM. destruct (pieces_count q e Vq VM HM OM) as [P _]. destruct (P X') as [P1 P2].
          cbn [flat_map]. rewrite app_nil_r, P1, P2. split; [lia|]. split; [intros _|lia].
          destruct e as [k vs]. destruct OM as [On _]. cbn in On. destruct vs as [|v vs]; [contradiction|]. exists (k, v).
          split; [left; reflexivity|exact X'].
        + assert (No : forall e, In e M -> ~ (elo e < lo q /\ hi q < ehi e)).
          { intros e Hi X. rewrite (proj2 (existsb_exists _ M)) in Ex; [discriminate|]. exists e. split; [exact Hi|lia]. }
          assert (L : (count (flat_map (zpieces q) M) <= count M)%nat).
          { clear One Ex WM. induction M as [|e M IH]; [cbn; lia|]. cbn [flat_map]. rewrite count_app, (count_cons e M).
            apply Forall_cons_iff in VM, HM, OM. destruct (pieces_count q e Vq (proj1 VM) (proj1 HM) (proj1 OM)) as [_ P].
            specialize (P (No e (or_introl eq_refl))). specialize (IH (proj2 OM) (proj2 HM) (proj2 VM) (fun x Hx => No x (or_intror Hx))). lia. }
          split; [lia|]. split; [lia|]. intros (e & Hi & X). exfalso. apply in_flatten in Hi. destruct Hi as (vs & Hi & _). apply (No _ Hi). exact X.
      - exists z, []. split; [exact E|]. split; [lia|]. split; [lia|]. intros (e & Hi & X1 & X2). exfalso. apply Nc. left. exists e. split; [exact Hi|lia].
    Qed.
  End Cut.

  Lemma zstep_size z (o : zop I K V) : ZWF z ->
    (count (z_inner (zstep z o)) <= match o with ZNew => 0 | ZFromIter _ | ZDeserialize _ => Nat.max (count (z_inner z)) (zhanded o) | _ => count (z_inner z) + zhanded o end)%nat.
  Proof.
    assert (FI : forall (l : list (K * V)) z', from_iter_strict_back l = Val (Ok z') -> count (z_inner z') = length l).
    { intros l z' E. pose proof (from_iter_grown l z' E) as G. rewrite <- (grown_new_len l z' G). destruct G as (_ & _ & N & _). exact N. }
    intros Wf. destruct o as [|k v|p|Q IQ q|l|l]; cbn [zstep zhanded].
    - reflexivity.
    - destruct (insert_back_cases z k v Wf) as [(_ & E)|[(_ & _ & E)|(_ & _ & l1 & l2 & k' & i' & E & E1 & E2 & _)]]; rewrite E; cbn [fst z_inner]; try lia.
      unfold count. rewrite E1, E2, !app_length. cbn [length]. lia.
    - destruct (remove_last_cases z p Wf) as [(l1 & l2 & k & v & z' & _ & E & E1 & E2 & _)|(_ & E & _)]; rewrite E; cbn [fst z_inner]; try lia.
      unfold count. rewrite E1, E2, !app_length. cbn [length]. lia.
    - destruct (valid_dec q) as [Vq|Vq].
      + destruct (zcut_size z q Wf Vq) as (z' & out & E & L & _). rewrite E. cbn [fst]. exact L.
      + unfold zosdit_cut. rewrite iip_invalid by exact Vq. cbn [fst]. lia.
    - destruct (from_iter_strict_back l) as [[z'|v]|] eqn:E; try lia. rewrite (FI l z' E). lia.
    - destruct (zosdit_deserialize l) as [[z'|v]|] eqn:E; try lia. apply deserialize_Ok_from_iter in E. destruct E as (l' & -> & E).
      rewrite (FI l' z' E), map_length. lia.
  Qed.
  Lemma zrun_size (os : list (zop I K V)) : (count (z_inner (zrun os)) <= list_sum (map zhanded os))%nat.
  Proof.
    induction os as [|o os IH] using rev_ind; [cbn; lia|]. rewrite zrun_snoc, map_app, list_sum_app. cbn [map list_sum fold_right].
    pose proof (zstep_size (zrun os) o (zrun_ZWF os)) as S. destruct o; lia.
  Qed.
End Size.
