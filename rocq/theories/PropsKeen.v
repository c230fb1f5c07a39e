(** Property C103: smaller standard deviations never make an estimate less certain (exact arithmetic, Jacobians that do not depend on the values).  Statements use SpecGraph, SpecOpt, SpecMarginal, SpecGrown and SpecKeen. *)
From Coq Require Import List Arith ZArith QArith Bool Reals Lra Lia Permutation.
From Verif Require Import Base Sparse Graph SpecGraph SpecOpt Geom Vars VarsLemmas FactorLib SpecShape Optimizer OptWork OptMore Real RSum SpecSolver SpecSteps OptStepsLib SpecCov SpecBlocks SpecMarginal SpecFree SpecGrown Info Grown SpecKeen Keen.
From Verif Require Import OptToy Ldlt LdltSolver OptReal LdltCase OrderCase PinnedCase KeenCase.
Import ListNotations.
Local Open Scope nat_scope.
Set Bullet Behavior "Strict Subproofs".

(** [q] has the variables of [p], maybe with other values, and the same measurements with standard deviations that are not larger, maybe other outcomes, added in any order.  A variable that has a covariance in [p] has one in [q], and it is no larger *)
Theorem C103_better_instruments : forall {S S' : Type} (SV : solver RN S) (SV' : solver RN S') (EV EV' : nat -> env (N:=RN) (V:=lvar RN)), (forall n, env_ok (EV n)) -> (forall n, env_ok (EV' n)) -> factorising_solver SV -> factorising_solver SV' ->
  forall l1 l1' l2 l2' h1 h1' g1 g1' (p p' : pstate (N:=RN) (V:=lvar RN) (S:=S)) (q q' : pstate (N:=RN) (V:=lvar RN) (S:=S')) (lfs lfs' : list (lib_factor RN)),
  finalized_history (lib RN) l1 l2 h1 (p_heap p) g1 (p_graph p) -> unfinalized (lib RN) ([], empty_graph) l1 -> careful ([], empty_graph) l1 -> careful (h1, g1) l2 ->
  finalized_history (lib RN) l1' l2' h1' (p_heap q) g1' (p_graph q) -> unfinalized (lib RN) ([], empty_graph) l1' -> careful ([], empty_graph) l1' -> careful (h1', g1') l2' ->
  let vs := get_all_variables (p_graph p) in let fs := get_all_factors (p_graph p) in let vs' := get_all_variables (p_graph q) in let fs' := get_all_factors (p_graph q) in
  still_there (lib RN) (p_heap p) (p_heap q) -> (forall a, In a vs <-> In a vs') -> fs = map build lfs -> Permutation fs' (map build lfs') -> Forall2 (better_design no_worse) lfs lfs' ->
  Forall (factor_wf (lib RN) (p_heap p) vs) fs -> some_active (lib RN) (p_heap p) fs -> Forall (factor_wf (lib RN) (p_heap q) vs') fs' -> some_active (lib RN) (p_heap q) fs' ->
  st_method (p_set p) = GaussNewton \/ (forall a v, nth_error (p_heap p) a = Some v -> real_kind (l_kind v)) ->
  st_method (p_set q) = GaussNewton \/ (forall a v, nth_error (p_heap q) a = Some v -> real_kind (l_kind v)) ->
  1 <= st_max_iter (p_set p) -> 1 <= st_max_iter (p_set q) -> p_hvalid p = false -> p_hvalid q = false ->
  optimize (lib RN) SV EV p = (p', Ok tt) -> optimize (lib RN) SV' EV' q = (q', Ok tt) -> p_caught p' = false -> p_caught q' = false ->
  exists p1 q1, prepare SV p' = (p1, Ok tt) /\ prepare SV' q' = (q1, Ok tt) /\
    forall b, In b vs -> 0 < width (lib RN) (p_heap p) b -> no_larger (snd (estimate_covariance (lib RN) SV (Some b) p1)) (snd (estimate_covariance (lib RN) SV' (Some b) q1)).
Proof. exact @better_covariances. Qed.

(** the same with standard deviations at most m times as large: where both graphs have a covariance, every standard deviation reported for the second is at most m times that of the first *)
Theorem C103_at_most_times : forall {S S' : Type} (SV : solver RN S) (SV' : solver RN S') (EV EV' : nat -> env (N:=RN) (V:=lvar RN)), (forall n, env_ok (EV n)) -> (forall n, env_ok (EV' n)) -> factorising_solver SV -> factorising_solver SV' ->
  forall (m : R) l1 l1' l2 l2' h1 h1' g1 g1' (p p' : pstate (N:=RN) (V:=lvar RN) (S:=S)) (q q' : pstate (N:=RN) (V:=lvar RN) (S:=S')) (lfs lfs' : list (lib_factor RN)),
  finalized_history (lib RN) l1 l2 h1 (p_heap p) g1 (p_graph p) -> unfinalized (lib RN) ([], empty_graph) l1 -> careful ([], empty_graph) l1 -> careful (h1, g1) l2 ->
  finalized_history (lib RN) l1' l2' h1' (p_heap q) g1' (p_graph q) -> unfinalized (lib RN) ([], empty_graph) l1' -> careful ([], empty_graph) l1' -> careful (h1', g1') l2' ->
  let vs := get_all_variables (p_graph p) in let fs := get_all_factors (p_graph p) in let vs' := get_all_variables (p_graph q) in let fs' := get_all_factors (p_graph q) in
  still_there (lib RN) (p_heap p) (p_heap q) -> (forall a, In a vs <-> In a vs') -> fs = map build lfs -> Permutation fs' (map build lfs') -> (0 < m)%R -> Forall2 (better_design (at_most m)) lfs lfs' ->
  Forall (factor_wf (lib RN) (p_heap p) vs) fs -> some_active (lib RN) (p_heap p) fs -> Forall (factor_wf (lib RN) (p_heap q) vs') fs' -> some_active (lib RN) (p_heap q) fs' ->
  st_method (p_set p) = GaussNewton \/ (forall a v, nth_error (p_heap p) a = Some v -> real_kind (l_kind v)) ->
  st_method (p_set q) = GaussNewton \/ (forall a v, nth_error (p_heap q) a = Some v -> real_kind (l_kind v)) ->
  1 <= st_max_iter (p_set p) -> 1 <= st_max_iter (p_set q) -> p_hvalid p = false -> p_hvalid q = false ->
  optimize (lib RN) SV EV p = (p', Ok tt) -> optimize (lib RN) SV' EV' q = (q', Ok tt) -> p_caught p' = false -> p_caught q' = false ->
  exists p1 q1, prepare SV p' = (p1, Ok tt) /\ prepare SV' q' = (q1, Ok tt) /\
    forall b P Q, In b vs -> 0 < width (lib RN) (p_heap p) b -> snd (estimate_covariance (lib RN) SV (Some b) p1) = Ok (Some P) -> snd (estimate_covariance (lib RN) SV' (Some b) q1) = Ok (Some Q) ->
      mrows Q = mrows P /\ mcols Q = mcols P /\ forall z : list R, (quad_form Q z <= m * m * quad_form P z)%R.
Proof. exact @times_covariances. Qed.

(** x measured as 3 and y - x as 2, each with standard deviation 1 (y then has variance 2), and the same with any outcomes and standard deviations s, t of at most 1: the variance of y is at most 2 *)
Example C103_case : forall z m s t : R, (0 < s <= 1)%R -> (0 < t <= 1)%R -> exists p' q' p1 q1 P Q, optimize (lib RN) RS EV0 ostart = (p', Ok tt) /\ optimize (lib RN) LS EV0 (kstart z m s t) = (q', Ok tt) /\
  prepare RS p' = (p1, Ok tt) /\ prepare LS q' = (q1, Ok tt) /\
  snd (estimate_covariance (lib RN) RS (Some 1) p1) = Ok (Some P) /\ snd (estimate_covariance (lib RN) LS (Some 1) q1) = Ok (Some Q) /\
  mat_at P 0 0 = 2%R /\ (mat_at Q 0 0 <= 2)%R.
Proof.
  intros z m s t Hs Ht. destruct ostart_run as (p' & E & Hc & _). destruct (o_square p' E Hc) as (p1 & P & Hp & HP & HP0 & HPc & HP1). destruct (k_run z m s t) as (q' & E2 & Hc2).
  destruct ostart_hist as (A & B & C & D & F). destruct (kstart_hist z m s t) as (A2 & B2 & C2 & D2 & F2). destruct (k_lists z m s t) as (Ev & Ef & Eh).
  assert (Th : still_there (lib RN) (p_heap ostart) (p_heap (kstart z m s t))).
  { rewrite Eh. change (still_there (lib RN) oheap (kheap m)). intros a v Hv. destruct a as [|[|[|a]]]; [| | |destruct a; discriminate]; injection Hv as <-; eexists; (split; [reflexivity|]); cbn; auto. }
  destruct (C103_better_instruments RS LS EV0 EV0 EV0_ok EV0_ok RS_factorising LS_factorising _ _ _ _ _ _ _ _ ostart p' (kstart z m s t) q'
    [LGenericPrior (N:=RN) 10 0 [3%R] 1%R; LGenericBetween (N:=RN) 11 0 1 2 1 1%R] (kl z s t) A B C I A2 B2 C2 I Th) as (p2 & q1 & Hp2 & Hq1 & G);
    [rewrite Ev; change (get_all_variables (p_graph ostart)) with [0; 1; 2]; intros a; cbn; tauto|reflexivity|rewrite Ef; apply perm_swap
    |constructor; [split; [reflexivity|split; [reflexivity|exact Hs]]|constructor; [split; [reflexivity|exact Ht]|constructor]]|exact D|exact F|exact D2|exact F2
    |left; reflexivity|left; reflexivity|exact (le_n 1)|exact (le_n 1)|reflexivity|reflexivity|exact E|exact E2|exact Hc|exact Hc2|].
  rewrite Hp in Hp2. injection Hp2 as <-. change (get_all_variables (p_graph ostart)) with [0; 1; 2] in G.
  destruct (G 1 (or_intror (or_introl eq_refl)) (Nat.lt_0_succ 0) P HP) as (Q & HQ & R1 & R2 & U).
  exists p', q', p1, q1, P, Q. do 7 (split; [assumption|]). specialize (U [1%R]). rewrite (quad_rows Q 1 [1%R]), (quad_rows P 1 [1%R]) in U by congruence. cbn in U. change (car RN) with R in *. lra.
Qed.
(** both standard deviations halved or less: the variance of y is at most 1/2 *)
Example C103_half_case : forall z m s t : R, (0 < s <= 1/2)%R -> (0 < t <= 1/2)%R -> exists q' q1 Q, optimize (lib RN) LS EV0 (kstart z m s t) = (q', Ok tt) /\
  prepare LS q' = (q1, Ok tt) /\ snd (estimate_covariance (lib RN) LS (Some 1) q1) = Ok (Some Q) /\ (mat_at Q 0 0 <= 1/2)%R.
Proof.
  intros z m s t Hs Ht. destruct (C103_case z m s t) as (p' & q' & p1 & q1 & P & Q & E & E2 & Hp & Hq & HP & HQ & HP1 & _); [lra|lra|].
  destruct ostart_run as (p2 & E' & Hc & _). rewrite E in E'. injection E' as <-. destruct (o_square p' E Hc) as (p3 & P3 & Hp3 & HP3 & HP0 & _). rewrite Hp in Hp3. injection Hp3 as <-. pose proof (eq_trans (eq_sym HP) HP3) as X. injection X as <-.
  destruct (k_run z m s t) as (q2 & E2' & Hc2). rewrite E2 in E2'. injection E2' as <-.
  destruct ostart_hist as (A & B & C & D & F). destruct (kstart_hist z m s t) as (A2 & B2 & C2 & D2 & F2). destruct (k_lists z m s t) as (Ev & Ef & Eh).
  assert (Th : still_there (lib RN) (p_heap ostart) (p_heap (kstart z m s t))).
  { rewrite Eh. change (still_there (lib RN) oheap (kheap m)). intros a v Hv. destruct a as [|[|[|a]]]; [| | |destruct a; discriminate]; injection Hv as <-; eexists; (split; [reflexivity|]); cbn; auto. }
  destruct (C103_at_most_times RS LS EV0 EV0 EV0_ok EV0_ok RS_factorising LS_factorising (1/2)%R _ _ _ _ _ _ _ _ ostart p' (kstart z m s t) q'
    [LGenericPrior (N:=RN) 10 0 [3%R] 1%R; LGenericBetween (N:=RN) 11 0 1 2 1 1%R] (kl z s t) A B C I A2 B2 C2 I Th) as (p2 & q2 & Hp2 & Hq2 & G);
    [rewrite Ev; change (get_all_variables (p_graph ostart)) with [0; 1; 2]; intros a; cbn; tauto|reflexivity|rewrite Ef; apply perm_swap|lra
    |constructor; [split; [reflexivity|split; [reflexivity|unfold at_most; lra]]|constructor; [split; [reflexivity|unfold at_most; lra]|constructor]]|exact D|exact F|exact D2|exact F2
    |left; reflexivity|left; reflexivity|exact (le_n 1)|exact (le_n 1)|reflexivity|reflexivity|exact E|exact E2|exact Hc|exact Hc2|].
  rewrite Hp in Hp2. injection Hp2 as <-. rewrite Hq in Hq2. injection Hq2 as <-. change (get_all_variables (p_graph ostart)) with [0; 1; 2] in G.
  destruct (G 1 P Q (or_intror (or_introl eq_refl)) (Nat.lt_0_succ 0) HP HQ) as (R1 & _ & U).
  exists q', q1, Q. do 3 (split; [assumption|]). specialize (U [1%R]). rewrite (quad_rows Q 1 [1%R]), (quad_rows P 1 [1%R]) in U by congruence. cbn in U. change (car RN) with R in *. lra.
Qed.
Print Assumptions C103_better_instruments.
Print Assumptions C103_at_most_times.
