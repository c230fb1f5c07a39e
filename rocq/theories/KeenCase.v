(** x measured as z with standard deviation s, y - x as m with standard deviation t. *)
From Coq Require Import List Arith ZArith QArith Bool Reals Lra Lia Permutation.
From Verif Require Import Base Sparse Graph SpecGraph SpecOpt Geom Vars VarsLemmas FactorLib SpecShape FactorSafe Optimizer OptWork OptMore Real SpecSolver SpecSteps OptStepsLib SpecDefined OptDefined OptToy Ldlt LdltSolver OptReal LdltCase OrderCase OptVerdict.
Import ListNotations.
Local Open Scope nat_scope.
Set Bullet Behavior "Strict Subproofs".

Section K.
Context (z m s t : R).
Definition kl : list (lib_factor RN) := [LGenericPrior (N:=RN) 20 0 [z] s; LGenericBetween (N:=RN) 21 0 1 2 1 t].
Definition kf1 : factor (N:=RN) (V:=lvar RN) := build (LGenericPrior (N:=RN) 20 0 [z] s).
Definition kf2 : factor (N:=RN) (V:=lvar RN) := build (LGenericBetween (N:=RN) 21 0 1 2 1 t).
Definition kops : list (op (N:=RN) (V:=lvar RN)) :=
  [ ONew (LVar 1 false (KGeneric [0%R])); ONew (LVar 2 false (KGeneric [0%R])); ONew (LVar 3 true (KGeneric [m])) ] ++
  [ OAddVar (Some 2); OAddVar (Some 1); OAddVar (Some 0); OAddFactor (Some kf2); OAddFactor (Some kf1) ].
Definition kheap : @heap (lvar RN) := [LVar (N:=RN) 1 false (KGeneric [0%R]); LVar 2 false (KGeneric [0%R]); LVar 3 true (KGeneric [m])].
Definition kstart : lstate := start (lib RN) LS env0 empty_ldlt (lset GaussNewton 1) kops.
Lemma k_used : Forall (well_used kheap) kl.
Proof. apply Forall_cons; [|apply Forall_cons; [|apply Forall_nil]]; cbn [well_used]; unfold var_at, of_size; repeat split; (eexists; split; [reflexivity|split; reflexivity]). Qed.
Lemma k_wf : Forall (factor_wf (lib RN) kheap [2; 1; 0]) [kf2; kf1].
Proof.
  apply Forall_cons; [|apply Forall_cons; [|apply Forall_nil]]; (split; [cbn; lia|]); (split; [|cbn; repeat constructor; cbn; intuition discriminate]);
    intros q Hq; cbn in Hq; repeat (destruct Hq as [<-|Hq]); try destruct Hq; (eexists _, _; split; [reflexivity|]; split; [reflexivity|]);
    (split; [intros _; split; [cbn; tauto|cbn; lia]|]); intros c [<-|[<-|[<-|[]]]]; cbn; intros; congruence.
Qed.
Lemma k_lists : get_all_variables (p_graph kstart) = [2; 1; 0] /\ get_all_factors (p_graph kstart) = [kf2; kf1] /\ p_heap kstart = kheap.
Proof. split; [reflexivity|]. split; reflexivity. Qed.
Lemma kstart_hist : ohist LS kops kstart.
Proof.
  unfold ohist. cbn zeta. destruct k_lists as (-> & -> & Eh). split; [unfold on_ops, kstart; apply start_finalized; rc; reflexivity|]. rewrite Eh.
  split; [repeat (split; [discriminate|]); exact I|]. pose proof k_used as X. inversion X as [|? ? U1 X2]; subst. inversion X2 as [|? ? U2 _]; subst.
  split; [|split; [exact k_wf|exists kf2, 1, (LVar (N:=RN) 2 false (KGeneric [0%R])); cbn; auto]].
  do 6 (split; [first [exact I|reflexivity]|]). split; [eexists; split; [reflexivity|exact U2]|]. split; [eexists; split; [reflexivity|exact U1]|exact I].
Qed.
Lemma k_run : exists p', optimize (lib RN) LS EV0 kstart = (p', Ok tt) /\ p_caught p' = false.
Proof.
  destruct kstart_hist as (A & B & C & D & F). destruct k_lists as (Ev & Ef & Eh).
  apply (lib_optimize_answers LS EV0 EV0_ok _ _ _ _ kstart natural_sized A C I eq_refl B D F); [|reflexivity].
  rewrite Ef, Eh. pose proof k_used as X. inversion X as [|? ? U1 X2]; subst. inversion X2 as [|? ? U2 _]; subst.
  apply Forall_cons; [|apply Forall_cons; [|apply Forall_nil]]; (eexists; split; [reflexivity|]); (split; [assumption|exact (fun H => H)]).
Qed.
End K.
