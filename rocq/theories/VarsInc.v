(** Increments of poses and rotations; doubles for the inverse range. *)
From Coq Require Import List Arith ZArith QArith Bool Lia Reals Lra Psatz.
From Verif Require Import Base Sparse Graph SpecGraph SpecOpt Geom Vars Real Trig VarsLemmas VarOps SpecVars SpecGeom GeomR GeomExp GeomLog GeomNear VarsRun.
Import ListNotations.
Local Open Scope R_scope.

Lemma reach_pose id (t r : v3 RN) l v : vcalls (mk_pose id t r) l = Ok v -> is_pose v.
Proof.
  intros H. eapply pose_calls; [|exact H]. eexists. split; [apply (f_equal2 (@KPose RN)); [reflexivity|destruct r; reflexivity]|]. simpl. lia.
Qed.
Lemma pose_increment id (t r : v3 RN) l v p R dp dr : vcalls (mk_pose id t r) l = Ok v -> pos_W v = Some p -> dcm_CW v = Some R ->
  exists v' R', vcall v (OInc (v3list dp ++ v3list dr)) = Ok v' /\ pos_W v' = Some (v3add p dp) /\ dcm_CW v' = Some R' /\ rotation R' /\
  (exp_exact dr -> forall Rn, product (exp_so3 dr) R Rn ->
     within (3 * / 100000000) Rn R' /\ (Rn = m3id \/ / 100000 <= acos ((m3trace Rn - 1) / 2) -> R' = Rn)).
Proof.
  intros H Hp HR. apply reach_pose in H. destruct H as (x & Ek & L). destruct v as [i c kd]. cbn [l_kind] in Ek. subst kd.
  unfold pos_W, dcm_CW in *. cbn [l_kind] in *. apply (f_equal (fun o => match o with Some a => a | None => p end)) in Hp.
  apply (f_equal (fun o => match o with Some a => a | None => R end)) in HR. cbv beta iota in Hp, HR.
  assert (Hrot : rotation R) by (rewrite <- HR; apply dcm_rotation).
  assert (El : (length x <? 6)%nat = false) by (apply Nat.ltb_ge; exact L).
  set (Rx := m3mul (exp_so3 dr) R).
  exists (LVar i c (KPose (v3list (v3add p dp) ++ v3list (log_so3 Rx) ++ skipn 6 x) (dcm_of_rot (log_so3 Rx)))), (dcm_of_rot (log_so3 Rx)).
  split; [|split; [|split; [|split]]].
  - change (with_kind (LVar i c (KPose x (dcm_of_rot (seg3 3 x)))) (kinc (KPose x (dcm_of_rot (seg3 3 x))) (v3list dp ++ v3list dr)) =
      Ok (LVar i c (KPose (v3list (v3add p dp) ++ v3list (log_so3 Rx) ++ skipn 6 x) (dcm_of_rot (log_so3 Rx))))).
    cbn [kinc]. rewrite El. rewrite HR, Hp. unfold Rx. destruct dr; destruct dp; reflexivity.
  - cbn [l_kind]. f_equal. destruct p; destruct dp; reflexivity.
  - exact (dcm_rotation _).
  - intros Ex Rn HP. apply product_mul in HP. fold Rx in HP. subst Rn. assert (HRx : rotation Rx) by (apply rot_mul; [apply exp_rotation; auto|auto]).
    split; [intros a b Ha Hb; apply dcm_log_near; auto|apply dcm_log; auto].
Qed.
(** rotation variables: the matrix is composed exactly, for every increment *)
Lemma rot_call (v : lvar RN) op v' : (exists x R, l_kind v = KRot x R) -> vcall v op = Ok v' -> exists x R, l_kind v' = KRot x R.
Proof.
  intros (x & R & Ek) H. destruct v as [i c kd]. cbn [l_kind] in Ek. subst kd. destruct op; cbn [vcall] in H; try (injection H as <-; eexists _, _; reflexivity).
  - change (with_kind (LVar i c (KRot x R)) (kset (KRot x R) x0) = Ok v') in H. apply with_kind_ok in H. destruct H as (k & H & ->). cbn [kset] in H. unfold to_v3 in H.
    destruct (length x0 =? 3)%nat; [|discriminate]. cbn in H. injection H as <-. cbn. eauto.
  - change (with_kind (LVar i c (KRot x R)) (kinc (KRot x R) dx) = Ok v') in H. apply with_kind_ok in H. destruct H as (k & H & ->). cbn [kinc] in H. unfold to_v3 in H.
    destruct (length dx =? 3)%nat; [|discriminate]. cbn [obind] in H. injection H as <-. cbn. eauto.
Qed.
Lemma rot_increment id (R0 : m3 RN) l v R d : vcalls (mk_rotation id R0) l = Ok v -> dcm_AB v = Some R ->
  exists v' R', vcall v (OInc (v3list d)) = Ok v' /\ dcm_AB v' = Some R' /\ product (exp_so3 d) R R' /\ vval (lib RN) v' = v3list (log_so3 R').
Proof.
  intros H HR. assert (K : exists x R, l_kind v = KRot x R).
  { assert (G : forall l (v : lvar RN), (exists x R, l_kind v = KRot x R) -> forall v', vcalls v l = Ok v' -> exists x R, l_kind v' = KRot x R).
    { clear. induction l as [|op l IH]; intros v H v' E; cbn [vcalls] in E; [inversion E; subst; auto|].
      destruct (vcall v op) eqn:Ec; try discriminate; [eapply IH; [eapply rot_call; eauto|eauto]|eauto]. }
    eapply G; [|exact H]. cbn. eauto. }
  destruct K as (x & R1 & Ek). unfold dcm_AB in HR. rewrite Ek in HR. injection HR as ->. destruct v as [i c kd]. cbn [l_kind] in Ek. subst kd.
  exists (LVar i c (KRot (v3list (log_so3 (m3mul (exp_so3 d) R))) (m3mul (exp_so3 d) R))), (m3mul (exp_so3 d) R).
  split; [destruct d; reflexivity|]. split; [reflexivity|]. split; [apply product_mul; reflexivity|reflexivity].
Qed.
(** poses from matrices *)
Lemma pose_from_dcm id (t : v3 RN) R : rotation R -> exists R', dcm_CW (mk_pose_dcm id t R) = Some R' /\ within (2 * / 100000000) R R' /\
  (R = m3id \/ / 100000000 <= acos ((m3trace R - 1) / 2) -> R' = R).
Proof.
  intros H. eexists. split; [reflexivity|]. split; [intros i j Hi Hj; apply dcm_aa_near; auto|apply dcm_aa; auto].
Qed.
