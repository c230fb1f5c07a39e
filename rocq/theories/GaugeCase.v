(** A loop of three planar poses with three relative measurements and nothing that fixes it to the ground. *)
From Coq Require Import List Arith ZArith QArith Bool Lia.
From Verif Require Import Base Sparse Graph SpecGraph SpecOpt Geom Vars VarsLemmas FactorsLin FactorsGeo FactorLib SpecShape FactorSafe Optimizer Ldlt SpecDefined OptDefined OptToy.
Import ListNotations.
Local Open Scope nat_scope.
Set Bullet Behavior "Strict Subproofs".

Section Case.
Context {N : num} (p1 p2 p3 m1 m2 m3 : v3 N) (s : N) (loc : bool).
Definition gvars : @heap (lvar N) :=
  [ mk_pose2 1 p1; mk_pose2 2 p2; mk_pose2 3 p3; LVar 4 true (KGeneric (v3list m1)); LVar 5 true (KGeneric (v3list m2)); LVar 6 true (KGeneric (v3list m3)) ].
Definition gfactors : list (lib_factor N) := [ LPose2Between 10 0 1 3 s s loc; LPose2Between 11 1 2 4 s s loc; LPose2Between 12 2 0 5 s s loc ].
Definition gops : list (op (N:=N) (V:=lvar N)) :=
  map (fun v => ONew v) gvars ++ map (fun a => OAddVar (Some a)) [0; 1; 2; 3; 4; 5] ++ map (fun f => OAddFactor (Some (build f))) gfactors.
Definition gl : list (env (N:=N) (V:=lvar N) * op (N:=N) (V:=lvar N)) := map (fun o => (env0, o)) gops.
Definition gs0 := run (lib N) ([], empty_graph) gl.
Context (ord : mat N -> list nat) (Hord : forall H, length (ord H) = mrows H).
Definition gstart (m : method) : pstate (N:=N) (V:=lvar N) (S:=ldlt N) := start (lib N) (ldlt_solver ord) env0 (Ldlt true [] []) (defaults m 20) gops.
Lemma g_heap m : p_heap (gstart m) = gvars. Proof. reflexivity. Qed.
Lemma g_set m : p_set (gstart m) = defaults m 20. Proof. reflexivity. Qed.
Lemma g_factors m : get_all_factors (p_graph (gstart m)) = map build gfactors. Proof. reflexivity. Qed.
Lemma g_variables m : get_all_variables (p_graph (gstart m)) = [0; 1; 2; 3; 4; 5]. Proof. reflexivity. Qed.
Lemma g_history m : finalized_history (lib N) gl [] (fst gs0) (p_heap (gstart m)) (fst (finalize_structure (lib N) (fst gs0) (snd gs0))) (p_graph (gstart m)).
Proof. apply start_finalized. vm_compute. reflexivity. Qed.
Lemma g_unfinalized : unfinalized (lib N) ([], empty_graph) gl.
Proof. unfold gl, gops. repeat (split; [discriminate|]). exact I. Qed.
Lemma g_used : Forall (well_used gvars) gfactors.
Proof. repeat constructor; cbn [well_used]; unfold var_at, of_size, is_pose2; repeat split; (eexists; split; [reflexivity|split; reflexivity]). Qed.
Lemma g_careful : careful ([], empty_graph) gl.
Proof.
  pose proof g_used as U. rewrite Forall_forall in U. unfold gl, gops. cbn [map careful app gvars]. do 12 (split; [first [exact I|reflexivity]|]).
  split; [exists (LPose2Between 10 0 1 3 s s loc); split; [reflexivity|]; apply U; cbn; auto|].
  split; [exists (LPose2Between 11 1 2 4 s s loc); split; [reflexivity|]; apply U; cbn; auto|].
  split; [exists (LPose2Between 12 2 0 5 s s loc); split; [reflexivity|]; apply U; cbn; auto|exact I].
Qed.
Lemma g_wf : Forall (factor_wf (lib N) gvars [0; 1; 2; 3; 4; 5]) (map build gfactors).
Proof.
  unfold gfactors, gvars. cbn [map]. repeat (apply Forall_cons; [|]); [| | |apply Forall_nil];
    (split; [cbn; lia|split; [|cbn; repeat (apply NoDup_cons; [cbn; intuition discriminate|]); apply NoDup_nil]]); intros q Hq; cbn in Hq;
    repeat match type of Hq with _ \/ _ => destruct Hq as [<-|Hq] end; try contradiction; (eexists _, _; split; [reflexivity|]; split; [reflexivity|]);
    (split; [intros _; split; [cbn; tauto|cbn; lia]|]); intros b [<-|[<-|[<-|[<-|[<-|[<-|[]]]]]]]; cbn; intros; congruence.
Qed.
Lemma g_active : some_active (lib N) gvars (map build gfactors).
Proof. exists (build (LPose2Between 10 0 1 3 s s loc)), 0, (mk_pose2 1 p1). cbn. auto. Qed.
Lemma g_runs m : exists p', optimize (lib N) (ldlt_solver ord) EV0 (gstart m) = (p', Ok tt) /\ p_caught p' = false.
Proof.
  apply (lib_optimize_answers (ldlt_solver ord) EV0 EV0_ok gl [] _ _ (gstart m) (ldlt_sized ord Hord) (g_history m) g_careful I eq_refl).
  - exact g_unfinalized.
  - rewrite g_heap, g_factors, g_variables. exact g_wf.
  - rewrite g_heap, g_factors. exact g_active.
  - rewrite g_factors, g_heap. pose proof g_used as U. rewrite Forall_forall in U. apply Forall_forall. intros f Hf. apply in_map_iff in Hf. destruct Hf as (lf & <- & Hf).
    exists lf. split; [reflexivity|]. split; [exact (U lf Hf)|]. destruct Hf as [<-|[<-|[<-|[]]]]; exact (fun H => H).
  - reflexivity.
Qed.
End Case.
