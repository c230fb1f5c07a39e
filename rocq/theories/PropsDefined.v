(** C69, C70: sessions with a finalized graph are defined, and optimize() completes. *)
From Coq Require Import List Arith ZArith QArith Bool Permutation Lia.
From Verif Require Import Base Sparse Graph SpecGraph SpecOpt Geom Vars VarsLemmas FactorsLin FactorsGeo FactorLib SpecShape FactorSafe Optimizer Ldlt SpecDefined OptDefined.
From Verif Require Import Float OptToy.
Import ListNotations.
Local Open Scope nat_scope.
Set Bullet Behavior "Strict Subproofs".

Section Any.
Context {N : num} {V : Type} (VC : vclass N V) {S : Type} (SV : solver N S) (EV : nat -> env (N:=N) (V:=V)).
Hypothesis Hok : vclass_ok VC.
Hypothesis HE : forall n, env_ok (EV n).

(** C69: whatever the scalars (doubles with infinities and NaN included) and whatever the solver answers, no call of a session is undefined *)
Theorem C69_session_defined : forall (P : @heap V -> Prop) l1 l2 h1 g1 (p : pstate (N:=N) (V:=V) (S:=S)),
  let vs := get_all_variables (p_graph p) in let fs := get_all_factors (p_graph p) in
  finalized_history VC l1 l2 h1 (p_heap p) g1 (p_graph p) -> P (p_heap p) -> workable VC fs P -> p_hvalid p = false ->
  forall l, sized_solver SV -> Forall (lists_members VC (p_heap p) vs) fs -> 0 < total_cols VC (p_heap p) vs -> proper_session VC SV EV P vs p l ->
  forall k o, nth_error l k = Some o -> ~ undefined_call VC SV EV (orun VC SV EV p (firstn k l)) o.
Proof. exact (session_defined VC SV EV Hok HE). Qed.

(** C70: optimize() returns whenever the factors have residuals at the start *)
Theorem C70_optimize_returns : forall (P : @heap V -> Prop) l1 l2 h1 g1 (p : pstate (N:=N) (V:=V) (S:=S)),
  let vs := get_all_variables (p_graph p) in let fs := get_all_factors (p_graph p) in
  finalized_history VC l1 l2 h1 (p_heap p) g1 (p_graph p) -> P (p_heap p) -> workable VC fs P -> p_hvalid p = false ->
  sized_solver SV -> Forall (lists_members VC (p_heap p) vs) fs -> 0 < total_cols VC (p_heap p) vs -> p_hasgraph p = true ->
  (forall f, In f fs -> exists r, f_res_ref f (p_heap p) = Ok r) -> exists p', optimize VC SV EV p = (p', Ok tt).
Proof. exact (optimize_returns VC SV EV Hok HE). Qed.
(** ... and no exception was caught on the way when the factors and variables answer at all heaps in [P] *)
Theorem C70_optimize_completes : forall (P : @heap V -> Prop) l1 l2 h1 g1 (p : pstate (N:=N) (V:=V) (S:=S)), sized_solver SV ->
  finalized_history VC l1 l2 h1 (p_heap p) g1 (p_graph p) -> unfinalized VC ([], empty_graph) l1 ->
  Forall (factor_wf VC (p_heap p) (get_all_variables (p_graph p))) (get_all_factors (p_graph p)) ->
  some_active VC (p_heap p) (get_all_factors (p_graph p)) -> Forall buf_indep (get_all_factors (p_graph p)) ->
  P (p_heap p) -> workable VC (get_all_factors (p_graph p)) P -> answering VC (get_all_factors (p_graph p)) P ->
  p_hvalid p = false -> p_hasgraph p = true -> exists p', optimize VC SV EV p = (p', Ok tt) /\ p_caught p' = false.
Proof. exact (optimize_answers VC SV EV Hok HE). Qed.
End Any.

(** the LDL^T factorisation with a fill-reducing ordering is a solver with these sizes, over any scalars *)
Theorem C69_ldlt_sized : forall {N : num} (ord : mat N -> list nat), (forall H, length (ord H) = mrows H) -> sized_solver (ldlt_solver ord).
Proof. exact @ldlt_sized. Qed.

(** programs that use the library's classes as documented *)
Section Library.
Context {N : num} {S : Type} (SV : solver N S) (EV : nat -> env (N:=N) (V:=lvar N)).
Hypothesis HE : forall n, env_ok (EV n).
Theorem C69_library_session_defined : forall l1 l2 h1 g1 (p : pstate (N:=N) (V:=lvar N) (S:=S)),
  let vs := get_all_variables (p_graph p) in let fs := get_all_factors (p_graph p) in
  sized_solver SV -> finalized_history (lib N) l1 l2 h1 (p_heap p) g1 (p_graph p) -> careful ([], empty_graph) l1 -> careful (h1, g1) l2 -> p_hvalid p = false ->
  forall l, Forall (lists_members (lib N) (p_heap p) vs) fs -> 0 < total_cols (lib N) (p_heap p) vs -> proper_session (lib N) SV EV (usable fs) vs p l ->
  forall k o, nth_error l k = Some o -> ~ undefined_call (lib N) SV EV (orun (lib N) SV EV p (firstn k l)) o.
Proof. exact (lib_session_defined SV EV HE). Qed.
(** constructing another variable in such a session is proper *)
Theorem C69_library_new_variable : forall (fs : list (factor (N:=N) (V:=lvar N))) (h : @heap (lvar N)) v,
  usable fs h -> in_shape (l_kind v) -> usable fs (h ++ [v]).
Proof. exact usable_new. Qed.
Theorem C70_library_returns : forall l1 l2 h1 g1 (p : pstate (N:=N) (V:=lvar N) (S:=S)),
  let vs := get_all_variables (p_graph p) in let fs := get_all_factors (p_graph p) in
  sized_solver SV -> finalized_history (lib N) l1 l2 h1 (p_heap p) g1 (p_graph p) -> careful ([], empty_graph) l1 -> careful (h1, g1) l2 -> p_hvalid p = false ->
  Forall (lists_members (lib N) (p_heap p) vs) fs -> 0 < total_cols (lib N) (p_heap p) vs -> p_hasgraph p = true ->
  exists p', optimize (lib N) SV EV p = (p', Ok tt).
Proof. exact (lib_optimize_returns SV EV HE). Qed.
Theorem C70_library_completes : forall l1 l2 h1 g1 (p : pstate (N:=N) (V:=lvar N) (S:=S)),
  let vs := get_all_variables (p_graph p) in let fs := get_all_factors (p_graph p) in
  sized_solver SV -> finalized_history (lib N) l1 l2 h1 (p_heap p) g1 (p_graph p) -> careful ([], empty_graph) l1 -> careful (h1, g1) l2 -> p_hvalid p = false ->
  unfinalized (lib N) ([], empty_graph) l1 -> Forall (factor_wf (lib N) (p_heap p) vs) fs -> some_active (lib N) (p_heap p) fs ->
  Forall (fun f => exists lf, f = build lf /\ well_used (p_heap p) lf /\ ~ may_refuse lf) fs -> p_hasgraph p = true ->
  exists p', optimize (lib N) SV EV p = (p', Ok tt) /\ p_caught p' = false.
Proof. exact (lib_optimize_answers SV EV HE). Qed.
End Library.

(** ** Concrete cases: one optimised variable, two constants, two priors and a factor between them, over any scalars *)
Section Case.
Context {N : num} (x p1 p2 c d s : N).
Definition in_order (H : mat N) : list nat := seq 0 (mrows H).
Definition DS : solver N (ldlt N) := ldlt_solver in_order.
Lemma DS_sized : sized_solver DS.
Proof. apply C69_ldlt_sized. intros H. apply seq_length. Qed.
Definition dl : list (env (N:=N) (V:=lvar N) * op (N:=N) (V:=lvar N)) := map (fun o => (env0, o)) (problem x p1 p2 c d s).
Definition ds0 := run (lib N) ([], empty_graph) dl.
Definition dvars : @heap (lvar N) := [LVar 1 false (KGeneric [x]); LVar 2 true (KGeneric [c]); LVar 3 true (KGeneric [d])].
Definition dfactors : list (lib_factor N) := [LGenericPrior 10 0 [p1] s; LGenericPrior 11 0 [p2] nunit; LGenericBetween 12 0 1 2 1 nunit].
Definition dstart (m : method) : pstate (N:=N) (V:=lvar N) (S:=ldlt N) := start (lib N) DS env0 (Ldlt true [] []) (defaults m 20) (problem x p1 p2 c d s).
Lemma d_heap m : p_heap (dstart m) = dvars. Proof. reflexivity. Qed.
Lemma d_factors m : get_all_factors (p_graph (dstart m)) = map build dfactors. Proof. reflexivity. Qed.
Lemma d_variables m : get_all_variables (p_graph (dstart m)) = [0; 1; 2]. Proof. reflexivity. Qed.
Lemma d_history m : finalized_history (lib N) dl [] (fst ds0) (p_heap (dstart m)) (fst (finalize_structure (lib N) (fst ds0) (snd ds0))) (p_graph (dstart m)).
Proof. apply start_finalized. vm_compute. reflexivity. Qed.
Lemma d_unfinalized : unfinalized (lib N) ([], empty_graph) dl.
Proof. unfold dl, problem. repeat (split; [discriminate|]). exact I. Qed.
Lemma d_used : Forall (well_used dvars) dfactors.
Proof. repeat constructor; cbn [well_used]; unfold var_at, of_size; repeat split; (eexists; split; [reflexivity|split; reflexivity]). Qed.
Lemma d_careful : careful ([], empty_graph) dl.
Proof.
  pose proof d_used as U. rewrite Forall_forall in U. unfold dl, problem. cbn [map careful]. do 8 (split; [first [exact I|reflexivity]|]).
  split; [exists (LGenericPrior 10 0 [p1] s); split; [reflexivity|]; apply U; cbn; auto|].
  split; [exists (LGenericPrior 11 0 [p2] nunit); split; [reflexivity|]; apply U; cbn; auto|].
  split; [exists (LGenericBetween 12 0 1 2 1 nunit); split; [reflexivity|]; apply U; cbn; auto|exact I].
Qed.
Lemma d_wf : Forall (factor_wf (lib N) dvars [0; 1; 2]) (map build dfactors).
Proof.
  unfold dfactors, dvars. cbn [map]. repeat (apply Forall_cons; [|]); [| | |apply Forall_nil];
    (split; [cbn; lia|split; [|cbn; repeat (apply NoDup_cons; [cbn; intuition discriminate|]); apply NoDup_nil]]); intros q Hq; cbn in Hq;
    repeat match type of Hq with _ \/ _ => destruct Hq as [<-|Hq] end; try contradiction; (eexists _, _; split; [reflexivity|]; split; [reflexivity|]);
    (split; [intros _; split; [cbn; tauto|cbn; lia]|]); intros b [<-|[<-|[<-|[]]]]; cbn; intros; congruence.
Qed.
Lemma d_members m : Forall (lists_members (lib N) (p_heap (dstart m)) (get_all_variables (p_graph (dstart m)))) (get_all_factors (p_graph (dstart m))).
Proof. rewrite d_heap, d_factors, d_variables. apply wf_members. exact d_wf. Qed.
(** a session: a value set by the caller, covariances asked for too early, optimize() twice *)
Definition dsession : list (oop (N:=N) (V:=lvar N)) :=
  [OOp (OSetVal 0 [p1]); OPrepare; OOptimize; OPrepare; OEstimate (Some 0); OEstimate (Some 1); OOp (OApplyInc [p1; p2]); OOptimize; OEstimate (Some 0)].
Example C69_case m k o : nth_error dsession k = Some o -> ~ undefined_call (lib N) DS EV0 (orun (lib N) DS EV0 (dstart m) (firstn k dsession)) o.
Proof.
  apply (C69_library_session_defined DS EV0 EV0_ok dl [] _ _ (dstart m) DS_sized (d_history m) d_careful I eq_refl).
  - apply d_members.
  - rewrite d_heap, d_variables. cbn. lia.
  - rewrite d_variables. unfold dsession. cbn [proper_session proper]. rewrite d_heap.
    repeat split; try (cbn; tauto). exists (LVar 1 false (KGeneric [x])). split; reflexivity.
Qed.
Example C70_case m : exists p', optimize (lib N) DS EV0 (dstart m) = (p', Ok tt) /\ p_caught p' = false.
Proof.
  apply (C70_library_completes DS EV0 EV0_ok dl [] _ _ (dstart m) DS_sized (d_history m) d_careful I eq_refl).
  - exact d_unfinalized.
  - rewrite d_heap, d_factors, d_variables. exact d_wf.
  - rewrite d_heap, d_factors. exists (build (LGenericPrior 10 0 [p1] s)), 0, (LVar 1 false (KGeneric [x])). cbn. auto.
  - rewrite d_factors, d_heap. pose proof d_used as U. rewrite Forall_forall in U. apply Forall_forall. intros f Hf. apply in_map_iff in Hf. destruct Hf as (lf & <- & Hf).
    exists lf. split; [reflexivity|]. split; [exact (U lf Hf)|]. destruct Hf as [<-|[<-|[<-|[]]]]; exact (fun H => H).
  - reflexivity.
Qed.
End Case.

(** ** What is not excluded: a graph all of whose variables are constant is finalized without complaint, and optimize() is undefined on it *)
Definition kops {N : num} (x y s : N) : list (op (N:=N) (V:=lvar N)) :=
  [ ONew (LVar 1 true (KGeneric [x])); OAddVar (Some 0); OAddFactor (Some (build (LGenericPrior 10 0 [y] s))) ].
Theorem C69_all_constant_refuted : forall (N : num) (x y s : N) m,
  let SV := ldlt_solver (N:=N) in_order in let p := start (lib N) SV env0 (Ldlt true [] []) (defaults m 20) (kops x y s) in
  let s0 := run (lib N) ([], empty_graph) (map (fun o => (env0, o)) (kops x y s)) in
  finalized_history (lib N) (map (fun o => (env0, o)) (kops x y s)) [] (fst s0) (p_heap p) (fst (finalize_structure (lib N) (fst s0) (snd s0))) (p_graph p) /\
  careful ([], empty_graph) (map (fun o => (env0, o)) (kops x y s)) /\ snd (optimize (lib N) SV EV0 p) = UB UBEmpty.
Proof.
  intros N x y s m. cbn zeta. split; [|split].
  - apply start_finalized. vm_compute. reflexivity.
  - split; [reflexivity|]. split; [exact I|]. split; [|exact I]. exists (LGenericPrior 10 0 [y] s). split; [reflexivity|].
    cbn [well_used]. unfold var_at, of_size. eexists; split; [reflexivity|split; reflexivity].
  - destruct m; vm_compute; reflexivity.
Qed.

Print Assumptions C69_session_defined.
Print Assumptions C70_optimize_returns.
Print Assumptions C70_optimize_completes.
Print Assumptions C69_ldlt_sized.
Print Assumptions C69_library_session_defined.
Print Assumptions C69_library_new_variable.
Print Assumptions C70_library_returns.
Print Assumptions C70_library_completes.
Print Assumptions C69_all_constant_refuted.
