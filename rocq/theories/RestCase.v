(** A variable at 4, the optimum of two priors 3 and 5: its residuals are 1 and -1, its gradient is zero. *)
From Coq Require Import List Arith ZArith QArith Bool Reals Lra Lia Qreals Permutation.
From Verif Require Import Base Sparse Graph SpecGraph SpecOpt Geom Vars VarsLemmas FactorsLin FactorsLinFacts FactorsGeo Optimizer OptLemmas Real SpecSolver OptToy Ldlt LdltSolver OptReal LdltCase FactorLib SpecShape FactorSafe SpecSteps RSum OptStepsLib SpecDefined OptDefined OptVerdict Gram OptWork OrderCase PartCase SpecRest RestVars.
Import ListNotations.
Set Bullet Behavior "Strict Subproofs".

Definition tf1 : factor (N:=RN) (V:=lvar RN) := build (LGenericPrior (N:=RN) 10 0%nat [3%R] 1%R).
Definition tf2 : factor (N:=RN) (V:=lvar RN) := build (LGenericPrior (N:=RN) 11 0%nat [5%R] 1%R).
Definition tops : list (op (N:=RN) (V:=lvar RN)) := [ ONew (LVar 1 false (KGeneric [4%R])); OAddVar (Some 0%nat); OAddFactor (Some tf1); OAddFactor (Some tf2) ].
Definition theap : @heap (lvar RN) := [LVar (N:=RN) 1 false (KGeneric [4%R])].
Definition tset (m : method) : settings (N:=RN) := Settings m 10 (1/10)%R (1/10)%R 1%R 4%R 2%R (1/2)%R 1%R.
Definition tstart (m : method) : lstate := start (lib RN) LS env0 empty_ldlt (tset m) tops.
Lemma t_used : (exists lf, tf1 = build lf /\ well_used theap lf /\ ~ may_refuse lf) /\ (exists lf, tf2 = build lf /\ well_used theap lf /\ ~ may_refuse lf).
Proof.
  split; [exists (LGenericPrior (N:=RN) 10 0%nat [3%R] 1%R)|exists (LGenericPrior (N:=RN) 11 0%nat [5%R] 1%R)]; (split; [reflexivity|]); (split; [|exact (fun H => H)]);
    (eexists; split; [reflexivity|split; reflexivity]).
Qed.
Lemma t_wf : factor_wf (lib RN) theap [0]%nat tf1 /\ factor_wf (lib RN) theap [0]%nat tf2.
Proof.
  split; (split; [cbn; lia|]); (split; [|cbn; repeat constructor; cbn; intuition discriminate]); intros q [<-|[]]; (eexists _, _; split; [reflexivity|]; split; [reflexivity|]);
    (split; [intros _; split; [cbn; tauto|cbn; lia]|]); intros b [<-|[]]; cbn; intros; congruence.
Qed.
Lemma tstart_hist m : ohist LS tops (tstart m).
Proof.
  unfold ohist. cbn zeta. split; [unfold on_ops, tstart; apply start_finalized; rc; reflexivity|]. change (get_all_variables (p_graph (tstart m))) with [0]%nat. change (get_all_factors (p_graph (tstart m))) with [tf1; tf2]. change (p_heap (tstart m)) with theap.
  split; [repeat (split; [discriminate|]); exact I|]. destruct t_used as ((lf & U1 & U2 & _) & (lg & U3 & U4 & _)). destruct t_wf as (W1 & W2).
  split; [|split; [auto|exists tf1, 0%nat, (LVar (N:=RN) 1 false (KGeneric [4%R])); cbn; auto]].
  do 2 (split; [first [exact I|reflexivity]|]). split; [exists lf; split; [exact U1|exact U2]|]. split; [exists lg; split; [exact U3|exact U4]|exact I].
Qed.
Definition tjac : mat RN := Mat (N:=RN) 2 1 (fun _ _ => ow).
Lemma tjacobian : jacobian_at (lib RN) theap [0]%nat [tf1; tf2] tjac.
Proof.
  exists [[diagm (N:=RN) 1%nat ow]; [diagm (N:=RN) 1%nat ow]]. split; [constructor; [reflexivity|constructor; [reflexivity|constructor]]|].
  split; [reflexivity|]. split; [reflexivity|]. intros k f js m a r c Hk Hj Hm Hr Hc.
  destruct k as [|[|k]]; [| |destruct k; discriminate]; injection Hk as <-; injection Hj as <-; cbn in Hr;
    (destruct m as [|m]; [|destruct m; discriminate]; injection Hm as <-; cbn in Hc; try lia; destruct r as [|r]; try lia; destruct c as [|c]; try lia; reflexivity).
Qed.
Lemma t_stationary : stationary (lib RN) theap [0]%nat [tf1; tf2].
Proof.
  exists [(ow * (4 - 3))%R; (ow * (4 - 5))%R], tjac. split; [|split; [exact tjacobian|]].
  - exists [[(ow * (4 - 3))%R]; [(ow * (4 - 5))%R]]. split; [|reflexivity]. constructor; [split; reflexivity|constructor; [split; reflexivity|constructor]].
  - intros i Hi. cbn -[ow Rmult Rplus Rminus]. rewrite ?q0, ow1. lra.
Qed.
Lemma t_rest : all_rest (lib RN) theap [0]%nat.
Proof. intros a v [<-|[]] E _. injection E as <-. apply settled_rests. exact I. Qed.
Lemma t_run m : exists p', optimize (lib RN) LS EV0 (tstart m) = (p', Ok tt) /\ p_caught p' = false.
Proof.
  destruct (tstart_hist m) as (A & B & C & D & E).
  apply (lib_optimize_answers LS EV0 EV0_ok _ _ _ _ (tstart m) natural_sized A C I eq_refl B D E); [|reflexivity].
  change (get_all_factors (p_graph (tstart m))) with [tf1; tf2]. change (p_heap (tstart m)) with theap. destruct t_used as (U1 & U2). apply Forall_cons; [exact U1|apply Forall_cons; [exact U2|apply Forall_nil]].
Qed.
Lemma t_posed : ~ ill_posed 0 tjac.
Proof.
  intros (y & i & L & Hi & X1 & X2). cbn in Hi, L. destruct y as [|u [|? ?]]; try discriminate L. rewrite damped_zero in X2.
  assert (i = 0)%nat by lia. subst i. cbn in X1. subst u.
  assert (I2 : image_sq tjac [1%R] = 2%R) by (unfold image_sq; cbn -[ow Rmult Rplus]; rewrite ?q0, ow1; lra). rewrite I2 in X2.
  destruct X2 as [X2|(c & Hc & X2)]; [lra|]. assert (column_sq tjac c = 2)%R by (unfold column_sq; cbn -[ow Rmult Rplus]; rewrite ?q0, ow1; lra). lra.
Qed.
