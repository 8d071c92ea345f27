(** * PropsZosditOnce: which cuts break C64, C65, C68 and C82. *)
From Coq Require Import List ZArith Bool Lia.
From Verif Require Import EqModel EqFacts PropsEq TreeShape PropsTree Base IntervalModel NoditModel ZosditModel ZosditOps Spec InstancesModel Instances
  PointFacts IntervalFacts ZosditFacts ZosditMut ZosditProofs ZosditOnce PropsZosdit.
Import ListNotations.
Open Scope nat_scope.

Section Props.
  Context {I : Type} `{PL : PointLaws I}.
  Context {K : Type} {IK : InclusiveInterval I K} {IL : IntervalLaws I K}.
  Context {V : Type}.
  Context {Q : Type} {IQ : InclusiveInterval I Q}.
  Implicit Types (z : ZosditMap K V) (k : K) (q : Q) (v : V) (os : list (zop I K V)).

  (** ** C64, C65, C68, C82: full claims without [twinless]; false, see
      PropsZosdit, PropsTree and PropsEq.  Exactly the cuts that leave a twin
      store an interval twice. *)
  Theorem C64_cut_stored_once_iff_partial : forall z q, zreachable z -> valid q -> stored_once z ->
    (stored_once (fst (zosdit_cut q z)) <-> ~ (cut_reaches q (zosdit_iter z) /\ leaves_twin q (zosdit_iter z))).
  Proof. intros z q R. apply cut_once, zreachable_ZWF, R. Qed.
  Theorem C64_twinless_stored_once_partial : forall os, twinless os -> stored_once (zrun os).
  Proof. exact twinless_once. Qed.
  Theorem C64_twinless_round_trip_equal_partial : forall os, twinless os ->
    (zosdit_deserialize (map Some (snd (zosdit_serialize (zrun os)))) = Val (Ok (zrun os)) <-> removed os = 0).
  Proof.
    intros os T. rewrite C64_round_trip_equal_iff_partial. split; [intros [X _]; exact X|]. intros X. split; [exact X|apply twinless_once, T].
  Qed.
  Theorem C65_twinless_insert_at_the_back_partial : forall os k v, twinless os -> valid k ->
    (forall e, In e (zosdit_iter (zrun os)) -> zero_overlap (fst e) k) ->
    exists l1 k' l2, zosdit_iter (zrun os) = l1 ++ l2 /\
      zosdit_iter (fst (insert_strict_back k v (zrun os))) = l1 ++ (k', v) :: l2 /\ same_points k' k /\
      (forall e, In e l1 -> up_to (fst e) k) /\ (forall e, In e l2 -> ~ up_to (fst e) k).
  Proof. intros os k v T Vk Hz. apply C65_insert_at_the_back_partial; [exact Vk|exact Hz|]. right. right. apply twinless_once, T. Qed.
  Theorem C68_twinless_entry_partial : forall os k v, twinless os -> valid k ->
    (forall e, In e (zosdit_iter (zrun os)) -> zero_overlap (fst e) k) -> exists comp,
    (forall e, In e (z_inner (zrun os)) -> entry_comp (fst e) k = Val (comp (fst e))) /\
    forall t, entries t = z_inner (zrun os) -> entry_push k v [] (z_inner (zrun os)) = Val (t_entry_push comp k v t).
  Proof. intros os k v T Vk Hz. apply C68_entry_partial; [exact Vk|exact Hz|]. right. apply twinless_once, T. Qed.
  Theorem C82_twinless_zosdit_equality_partial : forall keq veq os os',
    (forall k k', keq k k' = true <-> k = k') -> (forall v v', veq v v' = true <-> v = v') -> twinless os -> twinless os' ->
    (zosdit_eqb keq veq (zrun os) (zrun os') = true <->
     zosdit_iter (zrun os) = zosdit_iter (zrun os') /\ zosdit_len (zrun os) = zosdit_len (zrun os')).
  Proof.
    intros keq veq os os' Hk Hv T T'. apply C82_zosdit_equality_stored_once_partial; [exact Hk|exact Hv|eexists; reflexivity..|apply twinless_once, T|apply twinless_once, T'].
  Qed.
End Props.

(** A cut of the middle of [0..9] beside a stored [9..9] leaves no twin; a cut of
    [3..8] would leave [9..9] a second time. *)
Example C64_twinless_example : twinless C64_cut_ops /\ length C64_cut_ops = 3 /\
  leaves_twin (3 --> 8 : Interval u8) (zosdit_iter (zrun (firstn 2 C64_cut_ops))).
Proof.
  assert (E : zosdit_iter (zrun (firstn 2 C64_cut_ops)) = [(0 --> 9, 1); (9 --> 9, 2)]) by (vm_compute; reflexivity).
  split; [|split; [reflexivity|]].
  - intros os1 o os2 H. destruct os1 as [|o1 [|o2 [|o3 os1]]]; unfold C64_cut_ops in H; cbn [app] in H.
    + injection H as <- _. exact (fun x => x).
    + injection H as _ <- _. exact (fun x => x).
    + injection H as <- <- <- _. change (~ leaves_twin (3 --> 4 : Interval u8) (zosdit_iter (zrun (firstn 2 C64_cut_ops)))). rewrite E.
      intros (e & e' & He & He' & Ho & [_ Hs] & Hc).
      assert (Ee : fst e' = 9 --> 9).
      { destruct He' as [<-|[<-|[]]]; [exfalso|reflexivity]. cbn [fst] in Hs.
        assert (X : cmp ('0 : u8) '9 = Eq) by (apply Hs; vm_compute; split; discriminate). vm_compute in X. discriminate. }
      rewrite Ee in Hc. destruct Hc as [Hc|Hc].
      * assert (X : covers (9 --> 9 : Interval u8) '9) by (vm_compute; split; discriminate). apply Hc in X. destruct X as [_ X].
        assert (G : plt ('9 : u8) '3) by (apply X; vm_compute; split; discriminate). vm_compute in G. discriminate.
      * destruct He as [<-|[<-|[]]]; cbn [fst] in *.
        -- assert (X : covers (9 --> 9 : Interval u8) '5).
           { apply Hc. split; [vm_compute; split; discriminate|]. intros y [_ Hy]. assert (G : plt ('4 : u8) '5) by (vm_compute; reflexivity). apply plt_rk in G. apply plt_rk. apply ple_rk in Hy. change (iend (3 --> 4 : Interval u8)) with ('4 : u8) in Hy. lia. }
           destruct X as [X _]. vm_compute in X. apply X. reflexivity.
        -- destruct Ho as (p & [H1 _] & [_ H2]). assert (X : ple ('9 : u8) '4) by (apply ple_rk in H1, H2; apply ple_rk; change (istart (9 --> 9 : Interval u8)) with ('9 : u8) in H1; change (iend (3 --> 4 : Interval u8)) with ('4 : u8) in H2; lia). vm_compute in X. apply X. reflexivity.
    + exfalso. injection H as _ _ _ H. destruct os1; discriminate.
  - rewrite E. exists (0 --> 9, 1), (9 --> 9, 2). cbn [fst]. split; [left; reflexivity|]. split; [right; left; reflexivity|].
    split; [exists '5; vm_compute; split; split; discriminate|]. assert (G : plt ('8 : u8) '9) by (vm_compute; reflexivity). assert (G0 : plt ('0 : u8) '9) by (vm_compute; reflexivity).
    split.
    + split; [apply valid_rk; unfold lo, hi; cbn; lia|]. intros x y [A B] [C D]. apply ple_rk in A, B, C, D. apply rk_eq. change (istart (9 --> 9 : Interval u8)) with ('9 : u8) in *. change (iend (9 --> 9 : Interval u8)) with ('9 : u8) in *. lia.
    + right. intros x. rewrite !covers_rk. apply plt_rk in G, G0. unfold lo, hi. cbn [istart iend].
      change (istart (9 --> 9 : Interval u8)) with ('9 : u8). change (iend (9 --> 9 : Interval u8)) with ('9 : u8).
      change (istart (0 --> 9 : Interval u8)) with ('0 : u8). change (iend (0 --> 9 : Interval u8)) with ('9 : u8). split.
      * intros X. split; [lia|]. intros y Hy. apply covers_rk in Hy. unfold lo, hi in Hy. change (iend (3 --> 8 : Interval u8)) with ('8 : u8) in Hy. apply plt_rk. lia.
      * intros [X Y]. specialize (Y '8). assert (Z : covers (3 --> 8 : Interval u8) '8) by (vm_compute; split; discriminate). specialize (Y Z). apply plt_rk in Y.
        assert (N : rk ('9 : u8) = (rk ('8 : u8) + 1)%Z); [|lia]. apply up_rk. vm_compute. reflexivity.
Qed.
Example C65_twinless_example : zosdit_iter (fst (insert_strict_back (9 --> 9) 3 (zrun C64_cut_ops))) = [(0 --> 2, 1); (5 --> 9, 1); (9 --> 9, 2); (9 --> 9, 3)] /\
  zosdit_deserialize (map Some (snd (zosdit_serialize (zrun C64_cut_ops)))) = Val (Ok (zrun C64_cut_ops)).
Proof. vm_compute. auto. Qed.

Print Assumptions C64_cut_stored_once_iff_partial.
Print Assumptions C64_twinless_stored_once_partial.
Print Assumptions C64_twinless_round_trip_equal_partial.
Print Assumptions C65_twinless_insert_at_the_back_partial.
Print Assumptions C68_twinless_entry_partial.
Print Assumptions C82_twinless_zosdit_equality_partial.
