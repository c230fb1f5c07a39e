(** An optimum stays one when variables are held constant there. *)
From Coq Require Import List Arith ZArith QArith Bool Lia Permutation Reals Lra.
From Verif Require Import Base Sparse Graph SpecGraph SpecOpt ListLemmas GraphLayout GraphFin GraphBasic GraphVec GraphSparse Optimizer OptLemmas OptWork OptMore Real RSum SpecSolver SpecSteps OptSteps OptVerdict SpecBlocks OptOrder OptOrderRun OptPart Change Info MarginalRun ContractRun OptFacts OptEnds SpecRest RestRun Agree SpecPinned Pinned SpecHeld.
From Verif Require Import Geom Vars VarsLemmas FactorsLin FactorsGeo FactorLib SpecShape OptStepsLib CovRun.
Import ListNotations.
Local Open Scope nat_scope.
Set Bullet Behavior "Strict Subproofs".

(** ** Library classes *)
Lemma held_get h h' a : held_still h h' -> (exists v v', hget h a = Ok v /\ hget h' a = Ok v' /\ l_kind v' = l_kind v /\ (l_const v = true -> l_const v' = true)) \/ hget h' a = UB UBDangling /\ hget h a = UB UBDangling.
Proof.
  intros H. unfold hget. revert a. induction H as [|v v' h h' (_ & K & C) _ IH]; intros [|a]; cbn; [right; auto|right; auto|left; exists v, v'; auto|apply IH].
Qed.
Lemma held_more h h' : held_still h h' -> holds_more h h'.
Proof. intros H. induction H as [|x x' h h' (_ & K & C) _ IH]; intros [|a] v v' A B; try discriminate; [cbn in A, B; injection A as <-; injection B as <-; split; [rewrite K; reflexivity|exact C]|exact (IH a v v' A B)]. Qed.
Ltac same_at H a := let v := fresh "v" in let v' := fresh "v'" in let E := fresh "E" in let E' := fresh "E'" in let K := fresh "K" in
  destruct (held_get _ _ a H) as [(v & v' & E & E' & K & _)|(E & E')]; [rewrite E, E'; cbn [obind]; unfold inv_pos; rewrite ?K; reflexivity|rewrite E, E'; reflexivity].
Section At.
Context (h h' : @heap (lvar RN)) (H : held_still h h').
Lemma held_pose a : pose_at h' a = pose_at h a. Proof. unfold pose_at. same_at H a. Qed.
Lemma held_landmark a : landmark_at h' a = landmark_at h a. Proof. unfold landmark_at. same_at H a. Qed.
Lemma held_rot a : rot_at h' a = rot_at h a. Proof. unfold rot_at. same_at H a. Qed.
Lemma held_inv a : inv_at h' a = inv_at h a. Proof. unfold inv_at. same_at H a. Qed.
Lemma held_plane a : plane_at h' a = plane_at h a. Proof. unfold plane_at. same_at H a. Qed.
Lemma held_pose2 a : pose2_at h' a = pose2_at h a. Proof. unfold pose2_at. same_at H a. Qed.
Lemma held_value a : value_at h' a = value_at h a. Proof. unfold value_at. same_at H a. Qed.
Lemma held_generic a : generic_at h' a = generic_at h a. Proof. unfold generic_at. same_at H a. Qed.
Lemma held_value3 a : value3_at h' a = value3_at h a. Proof. unfold value3_at. rewrite held_value. reflexivity. Qed.
Lemma held_value2 a : value2_at h' a = value2_at h a. Proof. unfold value2_at. rewrite held_value. reflexivity. Qed.
Lemma held_value0 a : value0_at h' a = value0_at h a. Proof. unfold value0_at. rewrite held_value. reflexivity. Qed.
Lemma held_local2 p l : local2 h' p l = local2 h p l. Proof. unfold local2. rewrite held_pose2, held_value2. reflexivity. Qed.
Ltac alike := rewrite ?held_pose, ?held_landmark, ?held_rot, ?held_inv, ?held_plane, ?held_local2, ?held_pose2, ?held_value3, ?held_value2, ?held_value0, ?held_value, ?held_generic.
Lemma held_res (lf : lib_factor RN) : f_res_ref (build lf) h' = f_res_ref (build lf) h.
Proof.
  destruct lf; cbn [build f_res_ref generic_prior generic_between linear_velocity pose_position_prior pose_orientation_prior rotation_prior pose_position_between pose_orientation_between bearing_observation inverse_range_bearing bearing_projection bearing_observation_2d range_bearing_2d pose2_prior pose2_between plane_factor plane_prior coordinate_transform].
  - unfold gprior_ref. destruct (held_get _ _ a H) as [(v & v' & E & E' & K & _)|(E & E')]; [rewrite E, E'; cbn [obind vval lib]; rewrite K; reflexivity|rewrite E, E'; reflexivity].
  - unfold gbetween_ref. destruct (held_get _ _ a H) as [(v & v' & E & E' & K & _)|(E & E')]; rewrite E, E'; cbn [obind]; [|reflexivity].
    destruct (held_get _ _ b H) as [(v1 & v1' & E1 & E1' & K1 & _)|(E1 & E1')]; rewrite E1, E1'; cbn [obind]; [|reflexivity].
    destruct (held_get _ _ d H) as [(v2 & v2' & E2 & E2' & K2 & _)|(E2 & E2')]; rewrite E2, E2'; cbn [obind vval lib]; [|reflexivity]. rewrite K, K1, K2. reflexivity.
  - unfold linvel_ref. alike. reflexivity.
  - unfold pospri_ref. alike. reflexivity.
  - unfold oripri_ref. alike. reflexivity.
  - unfold rotpri_ref. alike. reflexivity.
  - unfold posbet_ref. alike. reflexivity.
  - unfold oribet_ref. alike. reflexivity.
  - unfold bearing_ref. alike. reflexivity.
  - unfold invbear_ref. alike. reflexivity.
  - unfold proj_ref. alike. reflexivity.
  - unfold bear2_ref. alike. reflexivity.
  - unfold range2_ref. alike. reflexivity.
  - unfold pri2_ref. alike. reflexivity.
  - unfold bet2_ref. alike. reflexivity.
  - unfold plane_ref. alike. reflexivity.
  - unfold planepri_ref. alike. reflexivity.
  - unfold ctrans_ref. alike. reflexivity.
Qed.
(** the blocks of the variables that are still optimised *)
Ltac peels E := repeat peel E; try (injection E as <-).
Ltac choose k Hk := repeat (destruct k as [|k]; [cbn in Hk; injection Hk as Hk; subst|]); try (cbn in Hk; discriminate Hk); try (destruct k; discriminate Hk).
Ltac blocks_same E E' k Hk := peels E; peels E'; pose proof (held_more h h' H) as Hm; choose k Hk; same_block; reflexivity.
Lemma held_blocks (lf : lib_factor RN) js js' : f_jac (build lf) h [] = (js, Ok tt) -> f_jac (build lf) h' [] = (js', Ok tt) ->
  forall k a, nth_error (f_vars (build lf)) k = Some (Some a) -> 0 < width (lib RN) h' a -> nth_error js' k = nth_error js k.
Proof.
  destruct (match lf with LGenericPrior _ _ _ _ | LGenericBetween _ _ _ _ _ _ | LLinearVelocity _ _ _ _ _ _ _ _ | LPositionPrior _ _ _ _ | LPose2Prior _ _ _ _ _ | LPositionBetween _ _ _ _ _ false | LPose2Between _ _ _ _ _ _ false => true | _ => false end) eqn:F.
  { apply pinned_blocks; [destruct lf; try discriminate F; try destruct loc; try discriminate F; exact I|apply held_more; exact H]. }
  intros E E' k x Hk Hw.
  destruct lf; try discriminate F; try destruct loc; try discriminate F;
  cbn [build f_jac f_vars pose_orientation_prior rotation_prior pose_position_between pose_orientation_between bearing_observation inverse_range_bearing bearing_projection bearing_observation_2d range_bearing_2d pose2_between plane_factor plane_prior coordinate_transform] in E, E', Hk.
  - unfold oripri_jac in E, E'. rewrite held_pose in E'. choose k Hk. destruct (hget h x) as [v| |] eqn:Ev; [|discriminate|discriminate]. destruct (hget h' x) as [v'| |] eqn:Ev'; [|discriminate|discriminate]. cbn [withj] in E, E'.
    destruct (free_at h h' x v v' (held_more h h' H) Ev Ev' Hw) as (C & C' & _). rewrite C in E. rewrite C' in E'. congruence.
  - unfold rotpri_jac in E, E'. rewrite held_rot in E'. choose k Hk. destruct (hget h x) as [v| |] eqn:Ev; [|discriminate|discriminate]. destruct (hget h' x) as [v'| |] eqn:Ev'; [|discriminate|discriminate]. cbn [withj] in E, E'.
    destruct (free_at h h' x v v' (held_more h h' H) Ev Ev' Hw) as (C & C' & _). rewrite C in E. rewrite C' in E'. congruence.
  - unfold posbet_jac in E, E'. cbn zeta in E, E'. rewrite !held_pose in E'. destruct (pose_at h b) as [B| |]; [|discriminate|discriminate]. destruct (pose_at h a) as [A| |]; [|discriminate|discriminate]. cbn [obind withj] in E, E'. blocks_same E E' k Hk.
  - unfold oribet_jac in E, E'. cbn zeta in E, E'. rewrite !held_pose, held_rot in E'. match type of E with withj _ ?o _ = _ => destruct o as [((C & M0) & M)| |] end; [|discriminate|discriminate]. cbn [withj] in E, E'. blocks_same E E' k Hk.
  - unfold bearing_jac in E, E'. cbn zeta in E, E'. rewrite held_pose, held_landmark in E'. match type of E with withj _ ?o _ = _ => destruct o as [(C & M)| |] end; [|discriminate|discriminate]. cbn [withj] in E, E'. blocks_same E E' k Hk.
  - unfold invbear_jac in E, E'. cbn zeta in E, E'. rewrite held_pose, held_inv in E'. match type of E with withj _ ?o _ = _ => destruct o as [((C & M) & ((x0 & rho) & dir))| |] end; [|discriminate|discriminate]. cbn [withj] in E, E'.
    destruct (nltb (nabs rho) min_dist); [peel E; discriminate|]. blocks_same E E' k Hk.
  - unfold proj_jac in E, E'. cbn zeta in E, E'. rewrite held_pose, held_landmark in E'. match type of E with withj _ ?o _ = _ => destruct o as [(C & M)| |] end; [|discriminate|discriminate]. cbn [withj] in E, E'.
    match type of E with (if ?c then _ else _) = _ => destruct c end; blocks_same E E' k Hk.
  - unfold bear2_jac in E, E'. cbn zeta in E, E'. rewrite held_local2 in E'. match type of E with withj _ ?o _ = _ => destruct o as [(((dx & dy) & r2) & t)| |] end; [|discriminate|discriminate]. cbn [withj] in E, E'. blocks_same E E' k Hk.
  - unfold range2_jac in E, E'. cbn zeta in E, E'. rewrite held_local2 in E'. match type of E with withj _ ?o _ = _ => destruct o as [(((dx & dy) & r2) & t)| |] end; [|discriminate|discriminate]. cbn [withj] in E, E'. blocks_same E E' k Hk.
  - unfold bet2_jac in E, E'. cbn zeta in E, E'. rewrite !held_pose2 in E'. destruct (pose2_at h b) as [B| |]; [|discriminate|discriminate]. destruct (pose2_at h a) as [A| |]; [|discriminate|discriminate]. cbn [obind withj] in E, E'. blocks_same E E' k Hk.
  - unfold plane_jac in E, E'. cbn zeta in E, E'. rewrite held_value3, held_plane in E'. match type of E with withj _ ?o _ = _ => destruct o as [(p & (n & d))| |] end; [|discriminate|discriminate]. cbn [withj] in E, E'.
    match type of E with match ?c with _ => _ end = _ => destruct c as [(r0 & p0)|] end; blocks_same E E' k Hk.
  - unfold planepri_jac in E, E'. cbn zeta in E, E'. rewrite held_plane in E'. choose k Hk. destruct (hget h x) as [v| |] eqn:Ev; [|discriminate|discriminate]. destruct (hget h' x) as [v'| |] eqn:Ev'; [|discriminate|discriminate]. cbn [withj] in E, E'.
    destruct (free_at h h' x v v' (held_more h h' H) Ev Ev' Hw) as (C & C' & _). rewrite C in E. rewrite C' in E'. congruence.
  - unfold ctrans_jac in E, E'. cbn zeta in E, E'. rewrite held_rot, held_landmark, held_generic in E'. match type of E with withj _ ?o _ = _ => destruct o as [((R0 & k0) & b0)| |] end; [|discriminate|discriminate]. cbn [withj] in E, E'. blocks_same E E' k Hk.
Qed.
End At.

(** ** Gradients *)
Section Any.
Context {V : Type} (VC : vclass RN V).
Notation factor := (factor (N:=RN) (V:=V)).
Context (h h' : @heap V) (vs vs' : list addr) (fs fs' : list factor).
Hypothesis Gr : same_graph vs vs' fs fs'.
Hypothesis Wd : forall a, In a vs -> width VC h' a = width VC h a \/ width VC h' a = 0.
Hypothesis Rs : forall f, In f fs -> f_res_ref f h' = f_res_ref f h.
Hypothesis Bl : forall f js js', In f fs -> f_jac f h [] = (js, Ok tt) -> f_jac f h' [] = (js', Ok tt) ->
  forall k a, nth_error (f_vars f) k = Some (Some a) -> 0 < width VC h' a -> nth_error js' k = nth_error js k.
Lemma jac_each k us (gs : list factor) J : jacobian_at VC k us gs J -> forall f, In f gs -> exists js, f_jac f k [] = (js, Ok tt).
Proof. intros (jss & F2 & _). clear - F2. induction F2 as [|f js l jss X _ IH]; intros g Hg; [destruct Hg|destruct Hg as [<-|Hg]; eauto]. Qed.
Lemma stationary_held r' J' : stacked h' fs' r' -> jacobian_at VC h' vs' fs' J' -> stationary VC h vs fs -> stationary VC h' vs' fs'.
Proof.
  intros Hr HJ St. apply (proj2 (stationary_pull VC h' vs' fs' r' J' Hr HJ)). intros a c Ha Hc. pose proof (proj2 (proj1 Gr a) Ha) as Ia.
  pose proof St as (r & J & S1 & S2 & _). assert (Ec : c < width VC h a) by (destruct (Wd a Ia); lia).
  etransitivity; [|exact (proj1 (stationary_pull VC h vs fs r J S1 S2) St a c Ia Ec)]. unfold pull. rewrite (lsum_perm _ _ _ (proj2 Gr)). apply lsum_ext. intros f Hf. apply rsum_ext. intros i _.
  replace (resid h' f i) with (resid h f i) by (unfold resid; rewrite (Rs f Hf); reflexivity).
  cut (deriv h' f a i c = deriv h f a i c); [intros ->; reflexivity|]. unfold deriv. destruct (listed_at a (f_vars f)) as [k|] eqn:El; [|reflexivity].
  destruct (jac_each _ _ _ _ S2 f Hf) as (js & Ej). destruct (jac_each _ _ _ _ HJ f (Permutation_in f (Permutation_sym (proj2 Gr)) Hf)) as (js' & Ej').
  rewrite Ej, Ej'. cbn [fst]. rewrite (Bl f js js' Hf Ej Ej' k a (listed_at_nth _ _ _ El)); [reflexivity|lia].
Qed.
Lemma held_cost r r' : stacked h fs r -> stacked h' fs' r' -> sqnorm (N:=RN) r' = sqnorm (N:=RN) r.
Proof.
  intros S1 S2. rewrite (parts_sq _ _ _ _ (stacked_parts _ _ _ S1)), (parts_sq _ _ _ _ (stacked_parts _ _ _ S2)).
  rewrite (lsum_perm _ _ _ (proj2 Gr)). apply lsum_ext. intros f Hf. apply rsum_ext. intros i _. unfold resid. rewrite (Rs f Hf). reflexivity.
Qed.
End Any.

Section Two.
Context {S S' : Type} (SV : solver RN S) (SV' : solver RN S') (EV EV' : nat -> env (N:=RN) (V:=lvar RN)).
Hypothesis HE : forall n, env_ok (EV n).
Hypothesis HE' : forall n, env_ok (EV' n).
Hypothesis HF : factorising_solver SV.
Hypothesis HF' : factorising_solver SV'.
Lemma held_width h h' a : held_still h h' -> width (lib RN) h' a = width (lib RN) h a \/ width (lib RN) h' a = 0.
Proof.
  intros H. revert a. unfold width. induction H as [|v v' h h' (_ & K & C) _ IH]; intros [|a]; cbn; [left; reflexivity|left; reflexivity| |apply IH]. destruct (l_const v') eqn:C'; [right; reflexivity|].
  destruct (l_const v); [specialize (C eq_refl); discriminate|]. left. rewrite K. reflexivity.
Qed.
Theorem held_stays l1 l2 h1 g1 (q : pstate (N:=RN) (V:=lvar RN) (S:=S)) h vs fs q' :
  let vs' := get_all_variables (p_graph q) in let fs' := get_all_factors (p_graph q) in let st := p_set q in
  finalized_history (lib RN) l1 l2 h1 (p_heap q) g1 (p_graph q) -> unfinalized (lib RN) ([], empty_graph) l1 -> careful ([], empty_graph) l1 -> careful (h1, g1) l2 ->
  Forall (factor_wf (lib RN) (p_heap q) vs') fs' -> some_active (lib RN) (p_heap q) fs' ->
  held_still h (p_heap q) -> same_graph vs vs' fs fs' -> Forall (fun f => exists lf, f = build lf) fs ->
  stationary (lib RN) h vs fs -> all_rest (lib RN) (p_heap q) vs' ->
  st_method st = GaussNewton \/
    (forall a v, nth_error (p_heap q) a = Some v -> real_kind (l_kind v)) /\ (0 < st_lambda0 st)%R /\ (0 < st_up st)%R /\ (0 < st_max_lambda st)%R /\ 1 <= st_max_iter st ->
  optimize (lib RN) SV EV q = (q', Ok tt) -> p_caught q' = false ->
  p_heap q' = p_heap q /\
  (st_method st = GaussNewton -> ss_chi2 (p_cur q') = ss_chi2 (p_init q') /\
     (ss_status (p_cur q') = SUCCESS \/ (ss_status (p_cur q') = FAILED \/ ss_status (p_cur q') = SINGULAR_HESSIAN \/ ss_status (p_cur q') = ILL_CONDITIONED) /\
        exists J, jacobian_at (lib RN) (p_heap q) vs' fs' J /\ verdict (ss_status (p_cur q')) J)).
Proof.
  intros vs' fs' st A B C1 C2 W Ac Hs Gr Lb St Re Hm E Hc. destruct (lib_history _ _ _ _ _ _ A C1 C2) as (G1 & G2).
  assert (St' : forall r J, stacked (p_heap q) fs' r -> jacobian_at (lib RN) (p_heap q) vs' fs' J -> stationary (lib RN) (p_heap q) vs' fs').
  { intros r J Hr HJ. apply (stationary_held (lib RN) h (p_heap q) vs vs' fs fs' Gr) with (r' := r) (J' := J); auto.
    - intros a _. apply held_width. exact Hs.
    - intros f Hf. rewrite Forall_forall in Lb. destruct (Lb f Hf) as (lf & ->). apply held_res. exact Hs.
    - intros f js js' Hf Ej Ej'. rewrite Forall_forall in Lb. destruct (Lb f Hf) as (lf & ->). apply (held_blocks h (p_heap q) Hs lf js js' Ej Ej'). }
  destruct (st_method (p_set q)) eqn:Em.
  - destruct (gn_still (lib RN) SV EV lib_ok HE HF l1 l2 h1 g1 q A B W Ac G1 G2 q' St' Re Em E Hc) as (X & Y). split; [exact X|]. intros _. exact Y.
  - destruct Hm as [Hm|(H2 & H3 & H4 & H5 & H6)]; [unfold st in Hm; congruence|]. split; [|unfold st; congruence].
    exact (lm_still (lib RN) SV EV lib_ok HE HF l1 l2 h1 g1 q A B W Ac G1 G2 (fun v => real_kind (l_kind v)) q' St' Re lib_real H2 H3 H4 H5 Em H6 E Hc).
Qed.
(** ... after a run that left everything as it was *)
Theorem held_run l1 l1' l2 l2' h1 h1' g1 g1' (p p' : pstate (N:=RN) (V:=lvar RN) (S:=S)) (q q' : pstate (N:=RN) (V:=lvar RN) (S:=S')) :
  finalized_history (lib RN) l1 l2 h1 (p_heap p) g1 (p_graph p) -> unfinalized (lib RN) ([], empty_graph) l1 -> careful ([], empty_graph) l1 -> careful (h1, g1) l2 ->
  finalized_history (lib RN) l1' l2' h1' (p_heap q) g1' (p_graph q) -> unfinalized (lib RN) ([], empty_graph) l1' -> careful ([], empty_graph) l1' -> careful (h1', g1') l2' ->
  let vs := get_all_variables (p_graph p) in let fs := get_all_factors (p_graph p) in let vs' := get_all_variables (p_graph q) in let fs' := get_all_factors (p_graph q) in
  Forall (factor_wf (lib RN) (p_heap p) vs) fs -> some_active (lib RN) (p_heap p) fs -> Forall (factor_wf (lib RN) (p_heap q) vs') fs' -> some_active (lib RN) (p_heap q) fs' ->
  held_still (p_heap p) (p_heap q) -> same_graph vs vs' fs fs' -> Forall (fun f => exists lf, f = build lf) fs ->
  all_responsive (lib RN) (p_heap p) vs -> st_rate (p_set p) <> 0%R -> all_rest (lib RN) (p_heap q) vs' ->
  st_method (p_set p) = GaussNewton -> st_max_iter (p_set p) = 1 -> optimize (lib RN) SV EV p = (p', Ok tt) -> ss_status (p_cur p') = SUCCESS -> p_heap p' = p_heap p ->
  st_method (p_set q) = GaussNewton -> optimize (lib RN) SV' EV' q = (q', Ok tt) -> p_caught q' = false ->
  p_heap q' = p_heap q /\ ss_chi2 (p_cur q') = ss_chi2 (p_cur p').
Proof.
  intros A B C1 C2 A' B' C1' C2' vs fs vs' fs' W Ac W' Ac' Hs Gr Lb Rp Rt Re Hm Hn E Hu Hh Hm' E' Hc'.
  destruct (lib_history _ _ _ _ _ _ A C1 C2) as (G1 & G2). destruct (lib_history _ _ _ _ _ _ A' C1' C2') as (G1' & G2').
  pose proof (gn_rests_only_there (lib RN) SV EV lib_ok HE HF l1 l2 h1 g1 p p' A B W Ac G1 G2 Rp Rt Hm Hn E Hu Hh) as St. fold vs fs in St.
  assert (St' : forall r J, stacked (p_heap q) fs' r -> jacobian_at (lib RN) (p_heap q) vs' fs' J -> stationary (lib RN) (p_heap q) vs' fs').
  { intros r J Hr HJ. apply (stationary_held (lib RN) (p_heap p) (p_heap q) vs vs' fs fs' Gr) with (r' := r) (J' := J); auto.
    - intros a _. apply held_width. exact Hs.
    - intros f Hf. rewrite Forall_forall in Lb. destruct (Lb f Hf) as (lf & ->). apply held_res. exact Hs.
    - intros f js js' Hf Ej Ej'. rewrite Forall_forall in Lb. destruct (Lb f Hf) as (lf & ->). apply (held_blocks (p_heap p) (p_heap q) Hs lf js js' Ej Ej'). }
  destruct (gn_still (lib RN) SV' EV' lib_ok HE' HF' l1' l2' h1' g1' q A' B' W' Ac' G1' G2' q' St' Re Hm' E' Hc') as (X & _). split; [exact X|].
  pose proof (uncaught (lib RN) SV EV lib_ok HE l1 l2 h1 g1 p p' A E Hu) as Hc.
  destruct (stats_gn (lib RN) SV EV lib_ok HE l1 l2 h1 g1 p p' A Hm E Hc) as (r0 & r1 & _ & S1 & _ & _ & S2 & _). destruct (stats_gn (lib RN) SV' EV' lib_ok HE' l1' l2' h1' g1' q q' A' Hm' E' Hc') as (s0 & s1 & _ & T1 & _ & _ & T2 & _).
  fold fs in S1. fold fs' in T1. rewrite S2, T2. apply (held_cost (p_heap p) (p_heap q) vs vs' fs fs' Gr).
  - intros f Hf. rewrite Forall_forall in Lb. destruct (Lb f Hf) as (lf & ->). apply held_res. exact Hs.
  - rewrite <- Hh. exact S1.
  - rewrite <- X. exact T1.
Qed.
End Two.
