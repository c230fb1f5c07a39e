(** Property C98: measurements that agree with the estimate do not move it.  Statements use SpecGraph, SpecOpt, SpecSteps, SpecRest and SpecAgree. *)
From Coq Require Import List Arith ZArith QArith Bool Reals Lra Lia Permutation.
From Verif Require Import Base Sparse Graph SpecGraph SpecOpt Optimizer OptLemmas OptWork OptFacts Real RSum SpecSolver SpecSteps Geom Vars VarsLemmas FactorLib SpecShape OptToy Ldlt LdltSolver LdltCase OptStepsLib OrderCase SpecRest RestRun RestVars RestCase SpecAgree Agree AgreeCase.
Set Bullet Behavior "Strict Subproofs".
Import ListNotations.
Local Open Scope nat_scope.

(** ** exact arithmetic, any class of variables and factors, a solver that computes LDL^T factorisations exactly *)
Section Agree.
Context {V : Type} (VC : vclass RN V) {S S' : Type} (SV : solver RN S) (SV' : solver RN S') (EV EV' : nat -> env (N:=RN) (V:=V)).
Hypothesis Hok : vclass_ok VC.
Hypothesis HE : forall n, env_ok (EV n).
Hypothesis HE' : forall n, env_ok (EV' n).
Hypothesis HF : factorising_solver SV.
Hypothesis HF' : factorising_solver SV'.

(** Gauss-Newton on a graph left an estimate as it was and reported SUCCESS.  Add measurements (and variables) whose residuals at this estimate are zero, in any order:
    no run of Gauss-Newton on the larger graph moves anything, and its cost is the same; SUCCESS is reported unless the Jacobian is singular or ill-conditioned *)
Theorem C98_gauss_newton_stays : forall l1 l1' l2 l2' h1 h1' g1 g1' (p p' : pstate (N:=RN) (V:=V) (S:=S)) (q q' : pstate (N:=RN) (V:=V) (S:=S')),
  finalized_history VC l1 l2 h1 (p_heap p) g1 (p_graph p) -> unfinalized VC ([], empty_graph) l1 ->
  finalized_history VC l1' l2' h1' (p_heap q) g1' (p_graph q) -> unfinalized VC ([], empty_graph) l1' ->
  let vs := get_all_variables (p_graph p) in let fs := get_all_factors (p_graph p) in let vs' := get_all_variables (p_graph q) in let fs' := get_all_factors (p_graph q) in
  Forall (factor_wf VC (p_heap p) vs) fs -> some_active VC (p_heap p) fs -> Forall buf_indep fs -> shape_contract VC (p_heap p) fs ->
  Forall (factor_wf VC (p_heap q) vs') fs' -> some_active VC (p_heap q) fs' -> Forall buf_indep fs' -> shape_contract VC (p_heap q) fs' ->
  all_responsive VC (p_heap p) vs -> st_rate (p_set p) <> 0%R -> all_rest VC (p_heap q) vs' ->
  st_method (p_set p) = GaussNewton -> st_max_iter (p_set p) = 1 -> optimize VC SV EV p = (p', Ok tt) -> ss_status (p_cur p') = SUCCESS -> p_heap p' = p_heap p ->
  p_heap q = p_heap p -> grown_agreeing (p_heap q) vs vs' fs fs' ->
  st_method (p_set q) = GaussNewton -> optimize VC SV' EV' q = (q', Ok tt) -> p_caught q' = false ->
  p_heap q' = p_heap q /\ ss_chi2 (p_cur q') = ss_chi2 (p_cur p') /\
  (ss_status (p_cur q') = SUCCESS \/ (ss_status (p_cur q') = FAILED \/ ss_status (p_cur q') = SINGULAR_HESSIAN \/ ss_status (p_cur q') = ILL_CONDITIONED) /\
     exists J, jacobian_at VC (p_heap q) vs' fs' J /\ verdict (ss_status (p_cur q')) J).
Proof. exact (agreeing_run VC SV SV' EV EV' Hok HE HE' HF HF'). Qed.

(** the same from a vanishing gradient, for both methods; Levenberg-Marquardt with variables whose rejected steps are undone exactly *)
Theorem C98_any_method_stays : forall l1 l2 h1 g1 (q : pstate (N:=RN) (V:=V) (S:=S)) vs fs (I : V -> Prop) q',
  let vs' := get_all_variables (p_graph q) in let fs' := get_all_factors (p_graph q) in let st := p_set q in
  finalized_history VC l1 l2 h1 (p_heap q) g1 (p_graph q) -> unfinalized VC ([], empty_graph) l1 ->
  Forall (factor_wf VC (p_heap q) vs') fs' -> some_active VC (p_heap q) fs' -> Forall buf_indep fs' -> shape_contract VC (p_heap q) fs' ->
  Forall (factor_wf VC (p_heap q) vs) fs -> stationary VC (p_heap q) vs fs -> all_rest VC (p_heap q) vs' -> grown_agreeing (p_heap q) vs vs' fs fs' ->
  st_method st = GaussNewton \/
    undoable VC I /\ (forall a v, nth_error (p_heap q) a = Some v -> I v) /\ (0 < st_lambda0 st)%R /\ (0 < st_up st)%R /\ (0 < st_max_lambda st)%R /\ 1 <= st_max_iter st ->
  optimize VC SV EV q = (q', Ok tt) -> p_caught q' = false -> p_heap q' = p_heap q.
Proof. exact (agreeing_stays VC SV EV Hok HE HF). Qed.

(** taking away measurements that agree with an estimate at rest does not move it either *)
Theorem C98_taken_away : forall l1 l2 h1 g1 (q : pstate (N:=RN) (V:=V) (S:=S)) vs' fs' (I : V -> Prop) q',
  let vs := get_all_variables (p_graph q) in let fs := get_all_factors (p_graph q) in let st := p_set q in
  finalized_history VC l1 l2 h1 (p_heap q) g1 (p_graph q) -> unfinalized VC ([], empty_graph) l1 ->
  Forall (factor_wf VC (p_heap q) vs) fs -> some_active VC (p_heap q) fs -> Forall buf_indep fs -> shape_contract VC (p_heap q) fs ->
  stationary VC (p_heap q) vs' fs' -> all_rest VC (p_heap q) vs -> grown_agreeing (p_heap q) vs vs' fs fs' ->
  st_method st = GaussNewton \/
    undoable VC I /\ (forall a v, nth_error (p_heap q) a = Some v -> I v) /\ (0 < st_lambda0 st)%R /\ (0 < st_up st)%R /\ (0 < st_max_lambda st)%R /\ 1 <= st_max_iter st ->
  optimize VC SV EV q = (q', Ok tt) -> p_caught q' = false -> p_heap q' = p_heap q.
Proof. exact (shrunk_stays VC SV EV Hok HE HF). Qed.
End Agree.

(** ** A variable at 4 with priors 3 and 5, and a further measurement of 4 *)
Example C98_case : grown_agreeing theap [0] [0] [tf1; tf2] [tf1; tf3; tf2] /\
  forall m, exists q', optimize (lib RN) LS EV0 (ustart m) = (q', Ok tt) /\ p_heap q' = p_heap (ustart m).
Proof.
  split; [exact u_grown|]. intros m. destruct (u_run m) as (q' & E & Hc). exists q'. split; [exact E|]. destruct (ustart_hist m) as (A & B & C & D & F).
  destruct (lib_history _ _ _ _ _ _ A C I) as (G1 & G2).
  assert (X : forall a v, nth_error (p_heap (ustart m)) a = Some v -> real_kind (l_kind v)).
  { change (p_heap (ustart m)) with theap. intros a v Hv. destruct a as [|a]; [injection Hv as <-; exact I|destruct a; discriminate]. }
  apply (C98_any_method_stays (lib RN) LS EV0 lib_ok EV0_ok LS_factorising _ _ _ _ (ustart m) [0] [tf1; tf2] (fun v => real_kind (l_kind v)) q' A B D F G1 G2); [|exact t_stationary|exact t_rest|exact u_grown| |exact E|exact Hc].
  - destruct t_wf as (W1 & W2). constructor; [exact W1|constructor; [exact W2|constructor]].
  - destruct m; [left; reflexivity|right]. split; [exact lib_real|]. split; [exact X|]. cbn. split; [lra|]. split; [lra|]. split; [lra|lia].
Qed.
(** ... after a run of one iteration *)
Example C98_run_case : exists p' q', optimize (lib RN) LS EV0 tonce = (p', Ok tt) /\ optimize (lib RN) LS EV0 (ustart GaussNewton) = (q', Ok tt) /\
  p_heap q' = p_heap (ustart GaussNewton) /\ ss_chi2 (p_cur q') = ss_chi2 (p_cur p').
Proof.
  destruct tonce_run as (p' & E & Hs & Hh). destruct (u_run GaussNewton) as (q' & E' & Hc'). exists p', q'. split; [exact E|]. split; [exact E'|].
  destruct tonce_hist as (A & B & C & D & F). destruct (ustart_hist GaussNewton) as (A' & B' & C' & D' & F').
  destruct (lib_history _ _ _ _ _ _ A C I) as (G1 & G2). destruct (lib_history _ _ _ _ _ _ A' C' I) as (G1' & G2').
  assert (Hr : st_rate (p_set tonce) <> 0%R) by (cbn; lra).
  destruct (C98_gauss_newton_stays (lib RN) LS LS EV0 EV0 lib_ok EV0_ok EV0_ok LS_factorising LS_factorising _ _ _ _ _ _ _ _ tonce p' (ustart GaussNewton) q' A B A' B' D F G1 G2 D' F' G1' G2' t_responsive Hr t_rest eq_refl eq_refl E Hs Hh eq_refl u_grown eq_refl E' Hc') as (X & Y & _).
  split; [exact X|exact Y].
Qed.
Print Assumptions C98_gauss_newton_stays.
Print Assumptions C98_any_method_stays.
Print Assumptions C98_taken_away.
