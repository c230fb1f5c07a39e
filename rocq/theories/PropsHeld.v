(** Property C99: an optimum stays one when variables are held constant there.  Statements use SpecGraph, SpecOpt, SpecSteps, SpecRest, SpecPinned and SpecHeld. *)
From Coq Require Import List Arith ZArith QArith Bool Reals Lra Lia Permutation.
From Verif Require Import Base Sparse Graph SpecGraph SpecOpt Optimizer OptLemmas OptWork OptFacts Real RSum SpecSolver SpecSteps Geom Vars VarsLemmas FactorLib SpecShape FactorSafe OptToy Ldlt LdltSolver LdltCase OptStepsLib OrderCase SpecRest SpecPinned SpecHeld Held RestCase HeldCase.
Set Bullet Behavior "Strict Subproofs".
Import ListNotations.
Local Open Scope nat_scope.

(** ** exact arithmetic, the library's variables and all of its factor classes, a solver that computes LDL^T factorisations exactly *)
Section Held.
Context {S S' : Type} (SV : solver RN S) (SV' : solver RN S') (EV EV' : nat -> env (N:=RN) (V:=lvar RN)).
Hypothesis HE : forall n, env_ok (EV n).
Hypothesis HE' : forall n, env_ok (EV' n).
Hypothesis HF : factorising_solver SV.
Hypothesis HF' : factorising_solver SV'.

(** one iteration of Gauss-Newton on [p] left everything as it was; [q] has the same variables with the same values and the same factors, with more of the variables constant.  Gauss-Newton leaves [q] as it is, and the cost is the same *)
Theorem C99_run_stays : forall l1 l1' l2 l2' h1 h1' g1 g1' (p p' : pstate (N:=RN) (V:=lvar RN) (S:=S)) (q q' : pstate (N:=RN) (V:=lvar RN) (S:=S')),
  finalized_history (lib RN) l1 l2 h1 (p_heap p) g1 (p_graph p) -> unfinalized (lib RN) ([], empty_graph) l1 -> careful ([], empty_graph) l1 -> careful (h1, g1) l2 ->
  finalized_history (lib RN) l1' l2' h1' (p_heap q) g1' (p_graph q) -> unfinalized (lib RN) ([], empty_graph) l1' -> careful ([], empty_graph) l1' -> careful (h1', g1') l2' ->
  let vs := get_all_variables (p_graph p) in let fs := get_all_factors (p_graph p) in let vs' := get_all_variables (p_graph q) in let fs' := get_all_factors (p_graph q) in
  Forall (factor_wf (lib RN) (p_heap p) vs) fs -> some_active (lib RN) (p_heap p) fs -> Forall (factor_wf (lib RN) (p_heap q) vs') fs' -> some_active (lib RN) (p_heap q) fs' ->
  held_still (p_heap p) (p_heap q) -> same_graph vs vs' fs fs' -> Forall (fun f => exists lf, f = build lf) fs ->
  all_responsive (lib RN) (p_heap p) vs -> st_rate (p_set p) <> 0%R -> all_rest (lib RN) (p_heap q) vs' ->
  st_method (p_set p) = GaussNewton -> st_max_iter (p_set p) = 1 -> optimize (lib RN) SV EV p = (p', Ok tt) -> ss_status (p_cur p') = SUCCESS -> p_heap p' = p_heap p ->
  st_method (p_set q) = GaussNewton -> optimize (lib RN) SV' EV' q = (q', Ok tt) -> p_caught q' = false ->
  p_heap q' = p_heap q /\ ss_chi2 (p_cur q') = ss_chi2 (p_cur p').
Proof. exact (held_run SV SV' EV EV' HE HE' HF HF'). Qed.

(** the same from a vanishing gradient, for both methods *)
Theorem C99_any_method_stays : forall l1 l2 h1 g1 (q : pstate (N:=RN) (V:=lvar RN) (S:=S)) h vs fs q',
  let vs' := get_all_variables (p_graph q) in let fs' := get_all_factors (p_graph q) in let st := p_set q in
  finalized_history (lib RN) l1 l2 h1 (p_heap q) g1 (p_graph q) -> unfinalized (lib RN) ([], empty_graph) l1 -> careful ([], empty_graph) l1 -> careful (h1, g1) l2 ->
  Forall (factor_wf (lib RN) (p_heap q) vs') fs' -> some_active (lib RN) (p_heap q) fs' ->
  held_still h (p_heap q) -> same_graph vs vs' fs fs' -> Forall (fun f => exists lf, f = build lf) fs ->
  stationary (lib RN) h vs fs -> all_rest (lib RN) (p_heap q) vs' ->
  st_method st = GaussNewton \/
    (forall a v, nth_error (p_heap q) a = Some v -> real_kind (l_kind v)) /\ (0 < st_lambda0 st)%R /\ (0 < st_up st)%R /\ (0 < st_max_lambda st)%R /\ 1 <= st_max_iter st ->
  optimize (lib RN) SV EV q = (q', Ok tt) -> p_caught q' = false ->
  p_heap q' = p_heap q /\
  (st_method st = GaussNewton -> ss_chi2 (p_cur q') = ss_chi2 (p_init q') /\
     (ss_status (p_cur q') = SUCCESS \/ (ss_status (p_cur q') = FAILED \/ ss_status (p_cur q') = SINGULAR_HESSIAN \/ ss_status (p_cur q') = ILL_CONDITIONED) /\
        exists J, jacobian_at (lib RN) (p_heap q) vs' fs' J /\ verdict (ss_status (p_cur q')) J)).
Proof. exact (held_stays SV EV HE HF). Qed.
End Held.

(** ** x at 4 with priors 3 and 5, y at 6 and y - x measured as 2: x is held constant *)
Example C99_run_case : exists p' q', optimize (lib RN) LS EV0 (kstart false GaussNewton) = (p', Ok tt) /\ optimize (lib RN) LS EV0 (kstart true GaussNewton) = (q', Ok tt) /\
  p_heap q' = p_heap (kstart true GaussNewton) /\ ss_chi2 (p_cur q') = ss_chi2 (p_cur p').
Proof.
  destruct (k_run false GaussNewton) as (p' & E & Hc). destruct (k_run true GaussNewton) as (q' & E' & Hc'). exists p', q'. split; [exact E|]. split; [exact E'|].
  destruct (k_success p' E Hc) as (Hs & Hh).
  destruct (kstart_hist false GaussNewton) as (A & B & C & D & F). destruct (kstart_hist true GaussNewton) as (A' & B' & C' & D' & F').
  destruct (k_lists false GaussNewton) as (Ev & Ef & Eh). destruct (k_lists true GaussNewton) as (Ev' & Ef' & Eh').
  apply (C99_run_stays LS LS EV0 EV0 EV0_ok EV0_ok LS_factorising LS_factorising _ _ _ _ _ _ _ _ (kstart false GaussNewton) p' (kstart true GaussNewton) q' A B C I A' B' C' I D F D' F'); [| | | | | |reflexivity|reflexivity|exact E|exact Hs|exact Hh|reflexivity|exact E'|exact Hc'].
  - rewrite Eh, Eh'. exact k_held.
  - rewrite Ev, Ev', Ef, Ef'. exact k_same.
  - rewrite Ef. exact k_lib.
  - rewrite Ev, Eh. exact k_responsive.
  - cbn. lra.
  - rewrite Ev', Eh'. exact (k_rest true).
Qed.
Example C99_case : forall m, exists q', optimize (lib RN) LS EV0 (kstart true m) = (q', Ok tt) /\ p_heap q' = p_heap (kstart true m).
Proof.
  intros m. destruct (k_run true m) as (q' & E & Hc). exists q'. split; [exact E|]. destruct (kstart_hist true m) as (A & B & C & D & F). destruct (k_lists true m) as (Ev & Ef & Eh).
  apply (C99_any_method_stays LS EV0 EV0_ok LS_factorising _ _ _ _ (kstart true m) (kheap false) [0; 1; 2] [tf1; tf2; kf] q' A B C I D F); [| |exact k_lib|exact k_stationary| | |exact E|exact Hc].
  - rewrite Eh. exact k_held.
  - rewrite Ev, Ef. exact k_same.
  - rewrite Ev, Eh. exact (k_rest true).
  - destruct m; [left; reflexivity|right]. rewrite Eh. split; [intros [|[|[|a]]] v Hv; [| | |destruct a; discriminate Hv]; injection Hv as <-; exact I|]. cbn. split; [lra|]. split; [lra|]. split; [lra|lia].
Qed.
Print Assumptions C99_run_stays.
Print Assumptions C99_any_method_stays.
