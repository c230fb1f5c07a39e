(** A variable at 4 with priors 3 and 5, and a further measurement of 4. *)
From Coq Require Import List Arith ZArith QArith Bool Reals Lra Lia Qreals Permutation.
From Verif Require RestRun.
From Verif Require Import Base Sparse Graph SpecGraph SpecOpt Geom Vars VarsLemmas FactorsLin FactorsLinFacts FactorsGeo Optimizer OptLemmas Real SpecSolver OptToy Ldlt LdltSolver OptReal LdltCase FactorLib SpecShape FactorSafe SpecSteps RSum OptStepsLib SpecDefined OptDefined OptVerdict Gram OptWork OrderCase PartCase SpecRest RestVars RestCase SpecAgree.
Import ListNotations.
Local Open Scope nat_scope.
Set Bullet Behavior "Strict Subproofs".

Definition tf3 : factor (N:=RN) (V:=lvar RN) := build (LGenericPrior (N:=RN) 12 0 [4%R] 1%R).
Definition uops : list (op (N:=RN) (V:=lvar RN)) := [ ONew (LVar 1 false (KGeneric [4%R])); OAddVar (Some 0); OAddFactor (Some tf1); OAddFactor (Some tf3); OAddFactor (Some tf2) ].
Definition ustart (m : method) : lstate := start (lib RN) LS env0 empty_ldlt (tset m) uops.
Lemma u_used : exists lf, tf3 = build lf /\ well_used theap lf /\ ~ may_refuse lf.
Proof. exists (LGenericPrior (N:=RN) 12 0 [4%R] 1%R); (split; [reflexivity|]); (split; [|exact (fun H => H)]); (eexists; split; [reflexivity|split; reflexivity]). Qed.
Lemma u_wf : factor_wf (lib RN) theap [0] tf3.
Proof.
  split; [cbn; lia|]. split; [|cbn; repeat constructor; cbn; intuition discriminate]. intros q [<-|[]]; (eexists _, _; split; [reflexivity|]; split; [reflexivity|]);
    (split; [intros _; split; [cbn; tauto|cbn; lia]|]); intros b [<-|[]]; cbn; intros; congruence.
Qed.
Lemma ustart_hist m : ohist LS uops (ustart m).
Proof.
  unfold ohist. cbn zeta. split; [unfold on_ops, ustart; apply start_finalized; rc; reflexivity|]. change (get_all_variables (p_graph (ustart m))) with [0]. change (get_all_factors (p_graph (ustart m))) with [tf1; tf3; tf2]. change (p_heap (ustart m)) with theap.
  split; [repeat (split; [discriminate|]); exact I|]. destruct t_used as ((lf & U1 & U2 & _) & (lg & U3 & U4 & _)). destruct u_used as (lh & U5 & U6 & _). destruct t_wf as (W1 & W2). pose proof u_wf as W3.
  split; [|split; [auto|exists tf1, 0, (LVar (N:=RN) 1 false (KGeneric [4%R])); cbn; auto]].
  do 2 (split; [first [exact I|reflexivity]|]). split; [exists lf; split; [exact U1|exact U2]|]. split; [exists lh; split; [exact U5|exact U6]|]. split; [exists lg; split; [exact U3|exact U4]|exact I].
Qed.
Lemma u_run m : exists q', optimize (lib RN) LS EV0 (ustart m) = (q', Ok tt) /\ p_caught q' = false.
Proof.
  destruct (ustart_hist m) as (A & B & C & D & E).
  apply (lib_optimize_answers LS EV0 EV0_ok _ _ _ _ (ustart m) natural_sized A C I eq_refl B D E); [|reflexivity].
  change (get_all_factors (p_graph (ustart m))) with [tf1; tf3; tf2]. change (p_heap (ustart m)) with theap. destruct t_used as (U1 & U2). apply Forall_cons; [exact U1|apply Forall_cons; [exact u_used|apply Forall_cons; [exact U2|apply Forall_nil]]].
Qed.
Lemma u_grown : grown_agreeing theap [0] [0] [tf1; tf2] [tf1; tf3; tf2].
Proof.
  split; [intros a Ha; exact Ha|]. exists [tf3]. split; [apply perm_skip; apply perm_swap|]. constructor; [|constructor].
  exists [(ow * (4 - 4))%R]. split; [reflexivity|]. intros y [<-|[]]. ring.
Qed.
(** the graph without that measurement, one iteration allowed *)
Definition tonce : lstate := start (lib RN) LS env0 empty_ldlt (Settings GaussNewton 1 (1/10)%R (1/10)%R 1%R 4%R 2%R (1/2)%R 1%R) tops.
Lemma tonce_hist : ohist LS tops tonce.
Proof.
  destruct (tstart_hist GaussNewton) as (A & B & C & D & F). unfold ohist. cbn zeta. split; [unfold on_ops, tonce; apply start_finalized; rc; reflexivity|].
  change (get_all_variables (p_graph tonce)) with [0]. change (get_all_factors (p_graph tonce)) with [tf1; tf2]. change (p_heap tonce) with theap. auto.
Qed.
Lemma tonce_run : exists p', optimize (lib RN) LS EV0 tonce = (p', Ok tt) /\ ss_status (p_cur p') = SUCCESS /\ p_heap p' = p_heap tonce.
Proof.
  destruct tonce_hist as (A & B & C & D & E).
  assert (X : exists p', optimize (lib RN) LS EV0 tonce = (p', Ok tt) /\ p_caught p' = false).
  { apply (lib_optimize_answers LS EV0 EV0_ok _ _ _ _ tonce natural_sized A C I eq_refl B D E); [|reflexivity].
    change (get_all_factors (p_graph tonce)) with [tf1; tf2]. change (p_heap tonce) with theap. destruct t_used as (U1 & U2). apply Forall_cons; [exact U1|apply Forall_cons; [exact U2|apply Forall_nil]]. }
  destruct X as (p' & Ep & Hc). exists p'. split; [exact Ep|]. destruct (lib_history _ _ _ _ _ _ A C I) as (G1 & G2).
  destruct (RestRun.gn_stays (lib RN) LS EV0 lib_ok EV0_ok LS_factorising _ _ _ _ tonce A B D E G1 G2 t_stationary t_rest p' eq_refl Ep Hc) as (X & _ & Z).
  split; [|exact X]. destruct Z as [(Z1 & _)|(Z1 & _ & J & Z2 & Z3)]; [exact Z1|exfalso].
  change (get_all_factors (p_graph tonce)) with [tf1; tf2] in Z2. change (get_all_variables (p_graph tonce)) with [0] in Z2. change (p_heap tonce) with theap in Z2.
  destruct (OptVerdict.jacobian_unique (lib RN) _ _ _ _ _ Z2 tjacobian) as (U1 & U2 & U3).
  apply t_posed. apply (OptVerdict.ill_posed_same J tjac 0 U1 U2 U3). exact (OptVerdict.verdict_ill _ J Z1 Z3).
Qed.
Lemma t_responsive : all_responsive (lib RN) theap [0].
Proof. intros a v [<-|[]] Ev _. injection Ev as <-. apply linear_responsive. exact I. Qed.
