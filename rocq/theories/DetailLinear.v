(** Proofs for PropsNumJac: linear factors pass detailed_factor_test at every tolerance, except priors on constant variables. *)
From Coq Require Import List Arith ZArith QArith Bool Lia Reals Lra.
From Verif Require Import Base Sparse Graph Geom Vars SpecGraph ListLemmas Real FactorsLin FactorsGeo FactorLib SpecFactor SpecShape FactorShape FactorSafe NumJac SpecTools NumJacFacts NumJacLib NumJacReal DetailFacts DetailLib.
Import ListNotations.
Set Bullet Behavior "Strict Subproofs".
Local Open Scope nat_scope.

Lemma vector_at (h : @heap (lvar RN)) a x n : sees_vector h a x -> length x = n -> var_at h a (of_size n).
Proof. intros (id & c & [H|(L & H)]) E; eexists; (split; [exact H|]); unfold in_shape, of_size; cbn; auto; split; auto. congruence. Qed.
Lemma vector_return (h : @heap (lvar RN)) a x v : sees_vector h a x -> nth_error h a = Some v -> returns (lib RN) v.
Proof. intros S H. apply (vector_additive _ _ _ _ S H). Qed.
Lemma linear_well_used h f : linear_use h f -> well_used h f.
Proof.
  destruct f; cbn [linear_use well_used]; try contradiction.
  - intros (x & S & L & _). eapply vector_at; eauto.
  - intros (xa & xb & xd & Sa & Sb & Sd & La & Lb & Ld & _). repeat split; eapply vector_at; eauto.
Qed.
Lemma linear_returns h f : linear_use h f -> each_variable (lib RN) (build f) h (returns (lib RN)).
Proof.
  destruct f; try (intros []; fail); cbn [linear_use build].
  - intros (x & S & _) a' v [E|[]] Ha _. injection E as <-. eapply vector_return; eauto.
  - intros (xa & xb & xd & Sa & Sb & Sd & _) a' v [E|[E|[E|[]]]] Ha _; injection E as <-; eapply vector_return; try exact Ha; eassumption.
Qed.
Lemma linear_num h f (eps : R) : eps <> 0%R -> linear_use h f -> exists Js Ja, num_jac (lib RN) (build f) eps h = (h, Ok Js) /\ f_jac (build f) h [] = (Ja, Ok tt) /\ entrywise (lib RN) h (build f) eq Js Ja.
Proof.
  intros He. destruct f; try (intros []; fail); cbn [linear_use build].
  - intros (x & S & L & _). eapply prior_num; eauto.
  - intros (xa & xb & xd & Sa & Sb & Sd & La & Lb & Ld & N1 & N2 & N3). eapply between_num; eauto.
Qed.
Lemma linear_agree tol h f (eps : R) Ja Js : no_empty h -> linear_use h f -> f_jac (build f) h [] = (Ja, Ok tt) -> difference_quotients (lib RN) (build f) h eps Js ->
  entrywise (lib RN) h (build f) eq Js Ja -> jacobians_agree (lib RN) h (build f) tol Ja Js.
Proof.
  intros P U EJ Q W. assert (NC : ~ constant_generic_prior h f) by (destruct f; cbn in U |- *; try tauto; destruct U as (? & _ & _ & X); exact X).
  assert (O : ~ odd_transform_buffer f (@nil (mat RN))) by (destruct f; cbn; tauto).
  destruct (jac_shapes f h [] (linear_well_used h f U) NC O) as [(J & E & S)|(M & _)]; [|destruct f; contradiction]. rewrite EJ in E. injection E as <-.
  pose proof (quotients_shaped _ _ _ _ Q) as SQ. unfold shaped in S, SQ. apply Forall2_nth in S. apply Forall2_nth in SQ. destruct S as (L & S). destruct SQ as (LQ & SQ).
  split; [exact (eq_trans (eq_sym L) LQ)|]. intros q a v A B Hq Ha HA HB. destruct (S _ _ _ Hq HA) as (a1 & v1 & E1 & Ha1 & C1). destruct (SQ _ _ _ Hq HB) as (a2 & v2 & E2 & Ha2 & C2).
  injection E1 as <-. injection E2 as <-. rewrite Ha in Ha1, Ha2. injection Ha1 as <-. injection Ha2 as <-. change (vconst (lib RN) v) with (l_const v). destruct (l_const v) eqn:C; [intuition|].
  destruct C1 as (R1 & K1). destruct C2 as (R2 & K2). split; [exact (eq_trans R1 (eq_sym R2))|]. split; [exact (eq_trans K1 (eq_sym K2))|].
  pose proof (rows_pos h f P (linear_well_used h f U)) as Pr. pose proof (P _ _ Ha) as Pc. change (ksize (l_kind v)) with (vsize (lib RN) v) in Pc.
  destruct (max_abs_total B) as (m & Em); [rewrite R2; exact Pr|rewrite K2; exact Pc|]. exists m. split; [apply max_abs_largest; exact Em|]. intros i j Hi Hj. rewrite R2 in Hi. rewrite K2 in Hj.
  rewrite (W q a v B A Hq Ha C HB HA i j Hi Hj). rewrite Rminus_eq_0, Rabs_R0. eapply Rlt_le_trans; [|apply Rmax_l]. lra.
Qed.
Lemma million : (Q2R (1 # 1000000) <> 0)%R.
Proof. unfold Q2R. simpl. lra. Qed.
Lemma linear_factor_true tol h f : shapely h -> no_empty h -> linear_use h f -> test_factor (lib RN) tol (build f) h = (h, Ok true).
Proof.
  intros S P U. destruct (factor_runs tol h f S P (linear_well_used h f U) (linear_returns h f U)) as (o & E & [(M & _)|(b & ->)]); [destruct f; contradiction|]. rewrite E. do 2 f_equal.
  destruct (test_factor_spec (lib RN) tol (build f) h h b (linear_returns h f U) E) as (_ & Ja & Jn & E1 & Q & V). apply V.
  destruct (linear_num h f (Q2R (1 # 1000000)) million U) as (Js & Ja' & E2 & E3 & W). rewrite E1 in E3. injection E3 as <-.
  assert (Q' : difference_quotients (lib RN) (build f) h (nlit (n:=RN) (1 # 1000000)) Js) by (eapply num_jac_ok; [apply linear_returns; exact U|exact E2]).
  apply (agree_ext (lib RN) h (build f) tol (nlit (n:=RN) (1 # 1000000)) Ja Js Jn Q' Q). eapply linear_agree; eauto.
Qed.
Lemma linear_passes tol (h : @heap (lvar RN)) (g : graph (N:=RN) (V:=lvar RN)) : ly_final (g_lay g) = true -> shapely h -> no_empty h ->
  (forall f, In f (get_all_factors g) -> exists lf, f = build lf /\ linear_use h lf) -> detailed_factor_test (lib RN) tol h g = (h, Ok true).
Proof.
  intros F S P. unfold detailed_factor_test. rewrite F. cbn [negb]. unfold get_all_factors. generalize (rg_factors (g_reg g)). intros fs. induction fs as [|f fs IH]; intros H; [reflexivity|].
  destruct (H f (or_introl eq_refl)) as (lf & -> & U). cbn [test_factors]. rewrite (linear_factor_true tol h lf S P U). cbn [hthen]. rewrite IH; [reflexivity|]. intros f Hf. apply H. right. exact Hf.
Qed.
(** the second (empty) matrix of a prior on a constant variable makes the test fail *)
Lemma constant_fails tol (h h' : @heap (lvar RN)) g b id a prior sigma v : (forall f, In f (get_all_factors g) -> each_variable (lib RN) f h (returns (lib RN))) ->
  In (generic_prior (lib RN) id a prior sigma) (get_all_factors g) -> nth_error h a = Some v -> l_const v = true -> detailed_factor_test (lib RN) tol h g = (h', Ok b) -> b = false.
Proof.
  intros R I Ha C E. destruct (verdict (lib RN) tol h h' g b R E) as (_ & V). destruct b; [|reflexivity]. exfalso. destruct (proj1 V eq_refl _ I) as (Ja & Jn & EJ & (LQ & _) & (L & _)).
  destruct (constant_prior_two id a prior sigma h v [] Ha C) as (E2 & _). cbn [build] in E2. rewrite EJ in E2. injection E2 as ->. cbn [length] in L. cbn in LQ.
  assert (X : 2%nat = 1%nat) by exact (eq_trans L LQ). discriminate X.
Qed.
