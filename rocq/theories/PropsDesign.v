(** Property C102: where Jacobians do not depend on the values, covariances do not depend on what was measured (exact arithmetic).  Statements use SpecGraph, SpecOpt, SpecMarginal, SpecGrown and SpecDesign. *)
From Coq Require Import List Arith ZArith QArith Bool Reals Lra Lia Permutation.
From Verif Require Import Base Sparse Graph SpecGraph SpecOpt Geom Vars VarsLemmas FactorLib SpecShape Optimizer OptWork OptMore Real RSum SpecSolver SpecSteps OptStepsLib SpecCov SpecBlocks SpecMarginal SpecFree SpecGrown SpecDesign Design.
From Verif Require Import OptToy Ldlt LdltSolver OptReal LdltCase OrderCase PinnedCase BlendCase.
Import ListNotations.
Local Open Scope nat_scope.
Set Bullet Behavior "Strict Subproofs".

(** [q] has the variables of [p], maybe with other values, and the same measurements with other outcomes, added in any order.  The covariances reported are the same, and are missing for the same variables *)
Theorem C102_design_decides : forall {S S' : Type} (SV : solver RN S) (SV' : solver RN S') (EV EV' : nat -> env (N:=RN) (V:=lvar RN)), (forall n, env_ok (EV n)) -> (forall n, env_ok (EV' n)) -> factorising_solver SV -> factorising_solver SV' ->
  forall l1 l1' l2 l2' h1 h1' g1 g1' (p p' : pstate (N:=RN) (V:=lvar RN) (S:=S)) (q q' : pstate (N:=RN) (V:=lvar RN) (S:=S')) (lfs lfs' : list (lib_factor RN)),
  finalized_history (lib RN) l1 l2 h1 (p_heap p) g1 (p_graph p) -> unfinalized (lib RN) ([], empty_graph) l1 -> careful ([], empty_graph) l1 -> careful (h1, g1) l2 ->
  finalized_history (lib RN) l1' l2' h1' (p_heap q) g1' (p_graph q) -> unfinalized (lib RN) ([], empty_graph) l1' -> careful ([], empty_graph) l1' -> careful (h1', g1') l2' ->
  let vs := get_all_variables (p_graph p) in let fs := get_all_factors (p_graph p) in let vs' := get_all_variables (p_graph q) in let fs' := get_all_factors (p_graph q) in
  still_there (lib RN) (p_heap p) (p_heap q) -> (forall a, In a vs <-> In a vs') -> fs = map build lfs -> Permutation fs' (map build lfs') -> Forall2 same_design lfs lfs' ->
  Forall (factor_wf (lib RN) (p_heap p) vs) fs -> some_active (lib RN) (p_heap p) fs -> Forall (factor_wf (lib RN) (p_heap q) vs') fs' -> some_active (lib RN) (p_heap q) fs' ->
  st_method (p_set p) = GaussNewton \/ (forall a v, nth_error (p_heap p) a = Some v -> real_kind (l_kind v)) ->
  st_method (p_set q) = GaussNewton \/ (forall a v, nth_error (p_heap q) a = Some v -> real_kind (l_kind v)) ->
  1 <= st_max_iter (p_set p) -> 1 <= st_max_iter (p_set q) -> p_hvalid p = false -> p_hvalid q = false ->
  optimize (lib RN) SV EV p = (p', Ok tt) -> optimize (lib RN) SV' EV' q = (q', Ok tt) -> p_caught p' = false -> p_caught q' = false ->
  exists p1 q1, prepare SV p' = (p1, Ok tt) /\ prepare SV' q' = (q1, Ok tt) /\
    forall b, In b vs -> 0 < width (lib RN) (p_heap p) b -> same_answer (snd (estimate_covariance (lib RN) SV (Some b) p1)) (snd (estimate_covariance (lib RN) SV' (Some b) q1)).
Proof. exact @design_covariances. Qed.

(** x measured as 3 and y - x as 2 (y then has variance 2), and the same with z and m instead, from any start values: y has variance 2 *)
Example C102_case : forall z x y m : R, exists p' q' p1 q1 P Q, optimize (lib RN) RS EV0 ostart = (p', Ok tt) /\ optimize (lib RN) LS EV0 (wstart z x y m) = (q', Ok tt) /\
  prepare RS p' = (p1, Ok tt) /\ prepare LS q' = (q1, Ok tt) /\
  snd (estimate_covariance (lib RN) RS (Some 1) p1) = Ok (Some P) /\ snd (estimate_covariance (lib RN) LS (Some 1) q1) = Ok (Some Q) /\
  mat_at P 0 0 = 2%R /\ mat_at Q 0 0 = 2%R.
Proof.
  intros z x y m. destruct ostart_run as (p' & E & Hc & _). destruct (o_square p' E Hc) as (p1 & P & Hp & HP & HP0 & HPc & HP1). destruct (w_run z x y m) as (q' & E2 & Hc2 & _).
  destruct ostart_hist as (A & B & C & D & F). destruct (wstart_hist z x y m) as (A2 & B2 & C2 & D2 & F2). destruct (w_lists z x y m) as (Ev & Ef & Eh).
  assert (Th : still_there (lib RN) (p_heap ostart) (p_heap (wstart z x y m))).
  { rewrite Eh. change (still_there (lib RN) oheap (wheap x y m)). intros a v Hv. destruct a as [|[|[|a]]]; [| | |destruct a; discriminate]; injection Hv as <-; eexists; (split; [reflexivity|]); cbn; auto. }
  destruct (C102_design_decides RS LS EV0 EV0 EV0_ok EV0_ok RS_factorising LS_factorising _ _ _ _ _ _ _ _ ostart p' (wstart z x y m) q'
    [LGenericPrior (N:=RN) 10 0 [3%R] 1%R; LGenericBetween (N:=RN) 11 0 1 2 1 1%R] (wl z) A B C I A2 B2 C2 I Th) as (p2 & q1 & Hp2 & Hq1 & G);
    [rewrite Ev; intros a; reflexivity|reflexivity|rewrite Ef; apply Permutation_refl|constructor; [split; reflexivity|constructor; [reflexivity|constructor]]|exact D|exact F|exact D2|exact F2
    |left; reflexivity|left; reflexivity|exact (le_n 1)|cbn; lia|reflexivity|reflexivity|exact E|exact E2|exact Hc|exact Hc2|].
  rewrite Hp in Hp2. injection Hp2 as <-. change (get_all_variables (p_graph ostart)) with [0; 1; 2] in G.
  destruct (G 1 (or_intror (or_introl eq_refl)) (Nat.lt_0_succ 0)) as [(N & _)|(P' & Q & HP' & HQ & R1 & R2 & U)]; [discriminate (eq_trans (eq_sym HP) N)|].
  pose proof (eq_trans (eq_sym HP) HP') as X. injection X as <-. exists p', q', p1, q1, P, Q. do 7 (split; [assumption|]). rewrite <- U; [exact HP1|lia|lia].
Qed.
Print Assumptions C102_design_decides.
