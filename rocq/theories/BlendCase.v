(** x measured as z, y - x as m, for three values of z and m. *)
From Coq Require Import List Arith ZArith QArith Bool Reals Lra Lia Qreals Permutation.
From Verif Require OptSteps.
From Verif Require Import Base Sparse Graph SpecGraph SpecOpt Geom Vars VarsLemmas FactorsLin FactorsLinFacts FactorsGeo Optimizer OptLemmas Real SpecSolver OptToy Ldlt LdltSolver OptReal LdltCase FactorLib SpecShape FactorSafe SpecSteps RSum OptStepsLib SpecDefined OptDefined OptVerdict Gram OptWork OptMore OrderCase PartCase RestVars RestCase MarginalRun CovRun Info ResumeCase SpecContract ContractCase ContractLib SpecBlend.
Import ListNotations.
Local Open Scope nat_scope.
Set Bullet Behavior "Strict Subproofs".

Section W.
Context (z x y m : R).
Definition wl : list (lib_factor RN) := [LGenericPrior (N:=RN) 10 0 [z] 1%R; LGenericBetween (N:=RN) 12 0 1 2 1 1%R].
Definition wf1 : factor (N:=RN) (V:=lvar RN) := build (LGenericPrior (N:=RN) 10 0 [z] 1%R).
Definition wf2 : factor (N:=RN) (V:=lvar RN) := build (LGenericBetween (N:=RN) 12 0 1 2 1 1%R).
Definition wops : list (op (N:=RN) (V:=lvar RN)) :=
  [ ONew (LVar 1 false (KGeneric [x])); ONew (LVar 2 false (KGeneric [y])); ONew (LVar 3 true (KGeneric [m])) ] ++
  [ OAddVar (Some 0); OAddVar (Some 1); OAddVar (Some 2); OAddFactor (Some wf1); OAddFactor (Some wf2) ].
Definition wheap : @heap (lvar RN) := [LVar (N:=RN) 1 false (KGeneric [x]); LVar 2 false (KGeneric [y]); LVar 3 true (KGeneric [m])].
Definition wstart : lstate := start (lib RN) LS env0 empty_ldlt half_set wops.
Lemma w_used : Forall (well_used wheap) wl.
Proof.
  apply Forall_cons; [|apply Forall_cons; [|apply Forall_nil]]; cbn [well_used]; unfold var_at, of_size; repeat split; (eexists; split; [reflexivity|split; reflexivity]).
Qed.
Lemma w_wf : Forall (factor_wf (lib RN) wheap [0; 1; 2]) [wf1; wf2].
Proof.
  apply Forall_cons; [|apply Forall_cons; [|apply Forall_nil]]; (split; [cbn; lia|]); (split; [|cbn; repeat constructor; cbn; intuition discriminate]);
    intros q Hq; cbn in Hq; repeat (destruct Hq as [<-|Hq]); try destruct Hq; (eexists _, _; split; [reflexivity|]; split; [reflexivity|]);
    (split; [intros _; split; [cbn; tauto|cbn; lia]|]); intros c [<-|[<-|[<-|[]]]]; cbn; intros; congruence.
Qed.
Lemma w_lists : get_all_variables (p_graph wstart) = [0; 1; 2] /\ get_all_factors (p_graph wstart) = map build wl /\ p_heap wstart = wheap.
Proof. split; [reflexivity|]. split; reflexivity. Qed.
Lemma wstart_hist : ohist LS wops wstart.
Proof.
  unfold ohist. cbn zeta. destruct w_lists as (-> & -> & Eh). split; [unfold on_ops, wstart; apply start_finalized; rc; reflexivity|]. rewrite Eh.
  split; [repeat (split; [discriminate|]); exact I|]. pose proof w_used as X. inversion X as [|? ? U1 X2]; subst. inversion X2 as [|? ? U2 _]; subst.
  split; [|split; [exact w_wf|exists wf2, 1, (LVar (N:=RN) 2 false (KGeneric [y])); cbn; auto]].
  do 6 (split; [first [exact I|reflexivity]|]). split; [eexists; split; [reflexivity|exact U1]|]. split; [eexists; split; [reflexivity|exact U2]|exact I].
Qed.
Lemma w_plain : plain wheap [0; 1; 2].
Proof. intros a v Ha Hv _. destruct Ha as [<-|[<-|[<-|[]]]]; injection Hv as <-; left; exact I. Qed.
(** J = (1 0; -1 1) *)
Definition wjac : mat RN := Mat (N:=RN) 2 2 (fun i j => match i, j with 1, O => (- ow)%R | 1, _ => ow | _, O => ow | _, _ => @nzero RN end).
Lemma wjacobian : jacobian_at (lib RN) wheap [0; 1; 2] [wf1; wf2] wjac.
Proof.
  exists [[diagm (N:=RN) 1 ow]; [diagm (N:=RN) 1 (nneg ow); diagm 1 ow; mempty]]. split; [constructor; [reflexivity|constructor; [reflexivity|constructor]]|].
  split; [reflexivity|]. split; [reflexivity|]. intros k f js n a r c Hk Hj Hm Hr Hc.
  destruct k as [|[|k]]; [| |destruct k; discriminate]; injection Hk as <-; injection Hj as <-; cbn in Hr; assert (r = 0) by lia; subst r;
    (destruct n as [|[|[|n]]]; [| | |destruct n; discriminate]; injection Hm as <-; cbn in Hc; try lia; assert (c = 0) by lia; subst c; reflexivity).
Qed.
Lemma w_posed : ~ ill_posed 0 wjac.
Proof.
  intros (v & i & L & Hi & X1 & X2). cbn in Hi, L. destruct v as [|a [|b [|? ?]]]; try discriminate L. rewrite damped_zero in X2. unfold image_sq, column_sq in X2. cbn in X2. rewrite ?ow1, ?q0 in X2.
  pose proof (pow2_ge_0 a) as A. pose proof (pow2_ge_0 (b - a)) as B. pose proof (pow2_ge_0 (a - 1/2)) as C.
  assert (K : (1 / 2 <= a * a + (b - a) * (b - a))%R) by (destruct i as [|[|i]]; [| |lia]; cbn in X1; subst; nra).
  destruct X2 as [X2|(c & Hc & X2)]; [nra|]. destruct c as [|[|c]]; [| |lia]; cbn in X2; rewrite ?ow1, ?q0 in X2; nra.
Qed.
Lemma w_run : exists p', optimize (lib RN) LS EV0 wstart = (p', Ok tt) /\ p_caught p' = false /\ ss_iter (p_cur p') = 1.
Proof.
  destruct wstart_hist as (A & B & C & D & F). destruct w_lists as (Ev & Ef & Eh).
  assert (Q : exists p', optimize (lib RN) LS EV0 wstart = (p', Ok tt) /\ p_caught p' = false).
  { apply (lib_optimize_answers LS EV0 EV0_ok _ _ _ _ wstart natural_sized A C I eq_refl B D F); [|reflexivity].
    rewrite Ef, Eh. pose proof w_used as X. inversion X as [|? ? U1 X2]; subst. inversion X2 as [|? ? U2 _]; subst.
    apply Forall_cons; [|apply Forall_cons; [|apply Forall_nil]]; (eexists; split; [reflexivity|]); (split; [assumption|exact (fun H => H)]). }
  destruct Q as (p' & E & Hc). exists p'. split; [exact E|]. split; [exact Hc|].
  destruct (lib_history _ _ _ _ _ _ A C I) as (Bf & Sh).
  pose proof (gn_firm (lib RN) LS EV0 lib_ok EV0_ok LS_factorising _ _ _ _ wstart p' A B D F Bf Sh eq_refl E Hc) as M.
  apply (one_iteration LS EV0 EV0_ok wstart p' E Hc); [|reflexivity]. intros Fa.
  destruct (gn_failure_codes (lib RN) LS EV0 lib_ok EV0_ok LS_factorising _ _ _ _ wstart p' A B D F Bf Sh eq_refl E Hc Fa) as (J & J1 & J2).
  pose proof (moves_revalued _ _ _ _ _ _ _ M) as Rv. rewrite Ev, Ef in J1. rewrite Eh in Rv.
  assert (J3 : jacobian_at (lib RN) (p_heap p') [0; 1; 2] (map build wl) wjac).
  { apply (jacobian_moved (lib RN) lib_ok wheap (p_heap p') [0; 1; 2] (map build wl) wjac Rv); [repeat constructor; cbn; lia| |exact wjacobian].
    intros f Hf. apply in_map_iff in Hf. destruct Hf as (lf & <- & Hf). pose proof w_used as X. rewrite Forall_forall in X. apply class_jac; [|exact (OptSteps.revalued_hpres (lib RN) lib_ok _ _ Rv)|exact (X lf Hf)]. destruct Hf as [<-|[<-|[]]]; exact I. }
  destruct (jacobian_unique (lib RN) _ _ _ _ _ J1 J3) as (E1 & E2 & E3).
  exact (w_posed (ill_posed_same _ _ 0 E1 E2 E3 (verdict_ill _ _ Fa J2))).
Qed.
End W.
Lemma w_mixed : all3 (mixed_factors (1/2)) (wl 3) (wl 7) (wl 5).
Proof.
  apply all3_cons; [|apply all3_cons; [|apply all3_nil]]; cbn [mixed_factors]; (split; [reflexivity|]); [|reflexivity]. split; [reflexivity|].
  split; [reflexivity|]. split; [reflexivity|]. intros [|c] Hc; cbn in *; [lra|lia].
Qed.
Lemma w_heaps : mixed_heaps (1/2) (wheap 0 0 2) (wheap 2 4 6) (wheap 1 2 4).
Proof.
  split; [reflexivity|]. split; [reflexivity|]. intros [|[|[|a]]] u v w Hu Hv Hw; [| | |destruct a; discriminate Hu]; injection Hu as <-; injection Hv as <-; injection Hw as <-;
    (split; [split; reflexivity|]); (split; [split; reflexivity|]); (split; [reflexivity|]); (split; [reflexivity|]); intros [|c] Hc; cbn in *; first [lra|lia].
Qed.
