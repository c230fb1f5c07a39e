(** Two cameras and two landmarks that see each other in every combination, twice; either one camera or one landmark is constant. *)
From Coq Require Import List Arith ZArith QArith Bool Lia.
From Verif Require Import Base Sparse Graph SpecGraph SpecOpt Geom Vars VarsLemmas FactorsLin FactorsGeo FactorLib SpecShape FactorSafe Optimizer Ldlt SpecDefined OptDefined OptToy.
Import ListNotations.
Local Open Scope nat_scope.
Set Bullet Behavior "Strict Subproofs".

Section Case.
Context {N : num} (cam : bool) (a b l m ra rb o1 o2 o3 o4 : v3 N) (s tol : N).
Definition zvars : @heap (lvar N) :=
  [ LVar 1 cam (KPose (v3list a ++ v3list ra) (dcm_of_rot ra)); mk_pose 2 b rb; LVar 3 (negb cam) (KLandmark (v3list l)); mk_landmark 4 m ].
Definition zfactors : list (lib_factor N) := [ LProjection 10 0 2 o1 s tol; LProjection 11 0 3 o2 s tol; LProjection 12 1 2 o3 s tol; LProjection 13 1 3 o4 s tol;
  LProjection 14 0 2 o4 s tol; LProjection 15 0 3 o3 s tol; LProjection 16 1 2 o2 s tol; LProjection 17 1 3 o1 s tol ].
Definition zops : list (op (N:=N) (V:=lvar N)) :=
  map (fun v => ONew v) zvars ++ map (fun a => OAddVar (Some a)) [0; 1; 2; 3] ++ map (fun f => OAddFactor (Some (build f))) zfactors.
Definition zl : list (env (N:=N) (V:=lvar N) * op (N:=N) (V:=lvar N)) := map (fun o => (env0, o)) zops.
Definition zs0 := run (lib N) ([], empty_graph) zl.
Definition zstart (ord : mat N -> list nat) (me : method) : pstate (N:=N) (V:=lvar N) (S:=ldlt N) := start (lib N) (ldlt_solver ord) env0 (Ldlt true [] []) (defaults me 20) zops.
End Case.
Lemma never_finalized {N : num} (l : list (env (N:=N) (V:=lvar N) * op)) : forall s, ~ In OFinalize (map snd l) -> unfinalized (lib N) s l.
Proof.
  induction l as [|[E o] l IH]; intros s H; [exact I|]. split; [intros ->; destruct H; left; reflexivity|]. apply IH. intros X. apply H. right. exact X.
Qed.
(** variables first, then factors *)
Lemma careful_factors {N : num} E (fs : list (lib_factor N)) : forall s, Forall (well_used (fst s)) fs -> careful s (map (fun o => (E, o)) (map (fun f => OAddFactor (Some (build f))) fs)).
Proof.
  induction fs as [|f fs IH]; intros [h g] H; [exact I|]. inversion H as [|? ? H1 H2]; subst. cbn [map careful]. split; [exists f; split; [reflexivity|exact H1]|].
  apply IH. cbn [step]. destruct (add_factor _ _) as [g' r]. exact H2.
Qed.
Lemma careful_adds {N : num} E (fs : list (lib_factor N)) (q : list addr) : forall s, Forall (well_used (fst s)) fs ->
  careful s (map (fun o => (E, o)) (map (fun a => OAddVar (Some a)) q ++ map (fun f => OAddFactor (Some (build f))) fs)).
Proof.
  induction q as [|a q IH]; intros [h g] H; [exact (careful_factors E fs (h, g) H)|]. cbn [map app careful]. split; [exact I|].
  apply IH. cbn [step]. destruct (add_variable _ _ _ _) as [g' r]. exact H.
Qed.
Lemma careful_builds {N : num} E (fs : list (lib_factor N)) (q : list addr) (vs : @heap (lvar N)) : Forall (fun v => in_shape (l_kind v)) vs -> forall h g, Forall (well_used (h ++ vs)) fs ->
  careful (h, g) (map (fun o => (E, o)) (map (fun v => ONew v) vs ++ map (fun a => OAddVar (Some a)) q ++ map (fun f => OAddFactor (Some (build f))) fs)).
Proof.
  induction vs as [|v vs IH]; intros Sh h g H; [rewrite app_nil_r in H; exact (careful_adds E fs q (h, g) H)|]. inversion Sh as [|? ? S1 S2]; subst. cbn [map app careful]. split; [exact S1|].
  apply (IH S2 (h ++ [v]) g). rewrite <- app_assoc. exact H.
Qed.
Section Facts.
Context {N : num} (cam : bool) (a b l m ra rb o1 o2 o3 o4 : v3 N) (s tol : N) (ord : mat N -> list nat) (Hord : forall H, length (ord H) = mrows H).
Notation zvars := (zvars cam a b l m ra rb).
Notation zfactors := (zfactors o1 o2 o3 o4 s tol).
Notation zl := (zl cam a b l m ra rb o1 o2 o3 o4 s tol).
Notation zs0 := (zs0 cam a b l m ra rb o1 o2 o3 o4 s tol).
Notation zstart := (zstart cam a b l m ra rb o1 o2 o3 o4 s tol ord).
Lemma z_heap me : p_heap (zstart me) = zvars. Proof. destruct cam; reflexivity. Qed.
Lemma z_set me : p_set (zstart me) = defaults me 20. Proof. destruct cam; reflexivity. Qed.
Lemma z_factors me : get_all_factors (p_graph (zstart me)) = map build zfactors. Proof. destruct cam; reflexivity. Qed.
Lemma z_variables me : get_all_variables (p_graph (zstart me)) = [0; 1; 2; 3]. Proof. destruct cam; reflexivity. Qed.
Lemma z_history me : finalized_history (lib N) zl [] (fst zs0) (p_heap (zstart me)) (fst (finalize_structure (lib N) (fst zs0) (snd zs0))) (p_graph (zstart me)).
Proof. apply start_finalized. destruct cam; vm_compute; reflexivity. Qed.
Lemma z_unfinalized : unfinalized (lib N) ([], empty_graph) zl.
Proof. apply never_finalized. unfold SimilarCase.zl, zops, SimilarCase.zvars, SimilarCase.zfactors. cbn [map app In snd]. intros H. repeat (destruct H as [H|H]; [discriminate|]). exact H. Qed.
Lemma z_used : Forall (well_used zvars) zfactors.
Proof. repeat constructor; cbn [well_used]; unfold var_at; repeat split; (eexists; split; [reflexivity|split; [cbn; first [reflexivity|repeat split]|exact I]]). Qed.
Lemma z_careful : careful ([], empty_graph) zl.
Proof. apply careful_builds; [|exact z_used]. repeat constructor. Qed.
Lemma z_wf : Forall (factor_wf (lib N) zvars [0; 1; 2; 3]) (map build zfactors).
Proof.
  unfold SimilarCase.zfactors, SimilarCase.zvars. cbn [map]. destruct cam; cbn [negb]; repeat (apply Forall_cons; [|]); try apply Forall_nil;
    (split; [cbn; lia|split; [|cbn; repeat (apply NoDup_cons; [cbn; intuition discriminate|]); apply NoDup_nil]]); intros q Hq; cbn in Hq;
    repeat match type of Hq with _ \/ _ => destruct Hq as [<-|Hq] end; try contradiction; (eexists _, _; split; [reflexivity|]; split; [reflexivity|]);
    (split; [intros _; split; [cbn; tauto|cbn; lia]|]); intros c [<-|[<-|[<-|[<-|[]]]]]; cbn; intros; congruence.
Qed.
Lemma z_active : some_active (lib N) zvars (map build zfactors).
Proof. exists (build (LProjection 13 1 3 o4 s tol)), 1, (mk_pose 2 b rb). cbn. auto 6. Qed.
Lemma z_runs me : exists p', optimize (lib N) (ldlt_solver ord) EV0 (zstart me) = (p', Ok tt) /\ p_caught p' = false.
Proof.
  apply (lib_optimize_answers (ldlt_solver ord) EV0 EV0_ok zl [] _ _ (zstart me) (ldlt_sized ord Hord) (z_history me) z_careful I).
  - destruct cam; reflexivity.
  - exact z_unfinalized.
  - rewrite z_heap, z_factors, z_variables. exact z_wf.
  - rewrite z_heap, z_factors. exact z_active.
  - rewrite z_factors, z_heap. pose proof z_used as U. rewrite Forall_forall in U. apply Forall_forall. intros f Hf. apply in_map_iff in Hf. destruct Hf as (lf & <- & Hf).
    exists lf. split; [reflexivity|]. split; [exact (U lf Hf)|]. destruct Hf as [<-|[<-|[<-|[<-|[<-|[<-|[<-|[<-|[]]]]]]]]]; exact (fun H => H).
  - destruct cam; reflexivity.
Qed.
End Facts.
