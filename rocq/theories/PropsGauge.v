(** C71, C72: graphs that float freely.  Statements use SpecGraph, SpecOpt, SpecShape, SpecSolver and SpecGauge; exact arithmetic with a
    linear solver that computes LDL^T factorisations exactly. *)
From Coq Require Import List Arith ZArith QArith Bool Reals Lra Lia Permutation.
From Verif Require Import Base Sparse Graph SpecGraph SpecOpt Geom Vars VarsLemmas FactorsLin FactorsGeo FactorLib SpecShape FactorSafe Optimizer Real RSum SpecBlocks SpecSolver SpecGauge GaugeRun
  Ldlt LdltSolver OptToy GaugeCase.
Import ListNotations.
Local Open Scope nat_scope.
Set Bullet Behavior "Strict Subproofs".

Section Floating.
Context {S : Type} (SV : solver RN S) (EV : nat -> env (N:=RN) (V:=lvar RN)).
Notation pstate := (pstate (N:=RN) (V:=lvar RN) (S:=S)).
Hypothesis HE : forall n, env_ok (EV n).
Hypothesis HF : factorising_solver SV.

(** C71 *)
Theorem C71_floating_graph_fails : forall l1 l2 h1 g1 (p p' : pstate) tr,
  finalized_history (lib RN) l1 l2 h1 (p_heap p) g1 (p_graph p) -> unfinalized (lib RN) ([], empty_graph) l1 ->
  careful ([], empty_graph) l1 -> careful (h1, g1) l2 ->
  let vs := get_all_variables (p_graph p) in let fs := get_all_factors (p_graph p) in
  Forall (factor_wf (lib RN) (p_heap p) vs) fs -> some_active (lib RN) (p_heap p) fs ->
  Forall (untouched (p_heap p) tr) fs -> something_moves (p_heap p) tr vs ->
  st_method (p_set p) = GaussNewton -> 1 <= st_max_iter (p_set p) ->
  optimize (lib RN) SV EV p = (p', Ok tt) -> p_caught p' = false ->
  ss_status (p_cur p') = FAILED /\ p_heap p' = p_heap p /\ ss_iter (p_cur p') = 0.
Proof. exact (floating_fails SV EV HE HF). Qed.

(** C72 *)
Theorem C72_floating_centre_kept : forall l1 l2 h1 g1 (p p' : pstate) tr,
  finalized_history (lib RN) l1 l2 h1 (p_heap p) g1 (p_graph p) -> unfinalized (lib RN) ([], empty_graph) l1 ->
  careful ([], empty_graph) l1 -> careful (h1, g1) l2 ->
  let vs := get_all_variables (p_graph p) in let fs := get_all_factors (p_graph p) in let st := p_set p in
  Forall (factor_wf (lib RN) (p_heap p) vs) fs -> some_active (lib RN) (p_heap p) fs ->
  Forall (untouched (p_heap p) tr) fs -> planes_stay (p_heap p) tr -> (forall a v, nth_error (p_heap p) a = Some v -> real_kind (l_kind v)) ->
  st_method st = LevenbergMarquardt -> 1 <= st_max_iter st -> (0 < st_lambda0 st)%R -> (0 < st_up st)%R -> (0 < st_max_lambda st)%R ->
  optimize (lib RN) SV EV p = (p', Ok tt) -> p_caught p' = false ->
  centre (p_heap p) tr vs (p_heap p') = centre (p_heap p) tr vs (p_heap p).
Proof. exact (floating_centre SV EV HE HF). Qed.
End Floating.

(** ** Concrete cases: a loop of three planar poses, any start and any measurements, with the natural ordering and default settings *)
Section Case.
Variables (p1 p2 p3 m1 m2 m3 : v3 RN) (s : R) (loc : bool).
Definition in_turn (H : mat RN) : list nat := seq 0 (mrows H).
Definition GS : solver RN (ldlt RN) := ldlt_solver in_turn.
Lemma GS_factorising : factorising_solver GS.
Proof. apply ldlt_factorising. intros H. apply Permutation_refl. Qed.
(** everything moves along one axis *)
Definition along (axis : nat) (a : addr) (c : nat) : R := if c =? axis then 1%R else 0%R.
Lemma g_untouched axis : Forall (untouched (gvars p1 p2 p3 m1 m2 m3) (along axis)) (map build (gfactors s loc)).
Proof.
  pose proof (g_used p1 p2 p3 m1 m2 m3 s loc) as U. rewrite Forall_forall in U. apply Forall_forall. intros f Hf. apply in_map_iff in Hf. destruct Hf as (lf & <- & Hf).
  exists lf. split; [reflexivity|]. split; [exact (U lf Hf)|]. destruct Hf as [<-|[<-|[<-|[]]]]; split; [|intros c; reflexivity| |intros c; reflexivity| |intros c; reflexivity]; intros c Hc; reflexivity.
Qed.
Notation begin m := (gstart p1 p2 p3 m1 m2 m3 s loc in_turn m).
Example C71_case : exists p', optimize (lib RN) GS EV0 (begin GaussNewton) = (p', Ok tt) /\
  ss_status (p_cur p') = FAILED /\ p_heap p' = gvars p1 p2 p3 m1 m2 m3 /\ ss_iter (p_cur p') = 0.
Proof.
  destruct (g_runs p1 p2 p3 m1 m2 m3 s loc in_turn (fun H => seq_length _ _) GaussNewton) as (p' & E & Hc). exists p'. split; [exact E|].
  refine (C71_floating_graph_fails GS EV0 EV0_ok GS_factorising _ _ _ _ (begin GaussNewton) p' (along 0) (g_history p1 p2 p3 m1 m2 m3 s loc in_turn GaussNewton)
    (g_unfinalized p1 p2 p3 m1 m2 m3 s loc) (g_careful p1 p2 p3 m1 m2 m3 s loc) I _ _ _ _ (f_equal st_method (g_set p1 p2 p3 m1 m2 m3 s loc in_turn GaussNewton)) _ E Hc).
  - exact (g_wf p1 p2 p3 m1 m2 m3 s loc).
  - exact (g_active p1 p2 p3 m1 m2 m3 s loc).
  - exact (g_untouched 0).
  - rewrite g_heap, g_variables. exists 0, 0. split; [left; reflexivity|]. split; [cbn; lia|]. cbn. lra.
  - rewrite g_set. cbn. lia.
Qed.
(** the sums of the x and of the y coordinates stay what they were *)
Example C72_case axis : axis < 2 -> exists p', optimize (lib RN) GS EV0 (begin LevenbergMarquardt) = (p', Ok tt) /\
  (element (p_heap p') 0%nat axis + element (p_heap p') 1%nat axis + element (p_heap p') 2%nat axis =
   nth axis (v3list p1) 0 + nth axis (v3list p2) 0 + nth axis (v3list p3) 0)%R.
Proof.
  intros Ax. destruct (g_runs p1 p2 p3 m1 m2 m3 s loc in_turn (fun H => seq_length _ _) LevenbergMarquardt) as (p' & E & Hc). exists p'. split; [exact E|].
  assert (C : centre (gvars p1 p2 p3 m1 m2 m3) (along axis) [0; 1; 2; 3; 4; 5] (p_heap p') = centre (gvars p1 p2 p3 m1 m2 m3) (along axis) [0; 1; 2; 3; 4; 5] (gvars p1 p2 p3 m1 m2 m3)).
  { refine (C72_floating_centre_kept GS EV0 EV0_ok GS_factorising _ _ _ _ (begin LevenbergMarquardt) p' (along axis) (g_history p1 p2 p3 m1 m2 m3 s loc in_turn LevenbergMarquardt)
      (g_unfinalized p1 p2 p3 m1 m2 m3 s loc) (g_careful p1 p2 p3 m1 m2 m3 s loc) I _ _ _ _ _ (f_equal st_method (g_set p1 p2 p3 m1 m2 m3 s loc in_turn LevenbergMarquardt)) _ _ _ _ E Hc).
    - exact (g_wf p1 p2 p3 m1 m2 m3 s loc).
    - exact (g_active p1 p2 p3 m1 m2 m3 s loc).
    - exact (g_untouched axis).
    - rewrite g_heap. intros a v n e Hv Hk. do 6 (destruct a as [|a]; [injection Hv as <-; discriminate|]). destruct a; discriminate.
    - rewrite g_heap. intros a v Hv. do 6 (destruct a as [|a]; [injection Hv as <-; cbn; try apply wrap_idem; exact I|]). destruct a; discriminate.
    - rewrite g_set. cbn. lia.
    - rewrite g_set. cbn. lra.
    - rewrite g_set. cbn. lra.
    - rewrite g_set. cbn. lra. }
  unfold centre, lsum, fold_right in C. cbn [width gvars mk_pose2 nth_error vconst vsize lib l_const l_kind ksize rsum] in C.
  unfold shift, speed, along in C. cbn [gvars mk_pose2 nth_error l_kind l_const] in C.
  destruct axis as [|[|axis]]; [| |lia]; cbn in C |- *; lra.
Qed.
End Case.
Print Assumptions C71_floating_graph_fails.
Print Assumptions C72_floating_centre_kept.
