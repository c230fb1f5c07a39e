(** C97: holding a variable constant never makes the others less certain (exact arithmetic). *)
From Coq Require Import List Arith ZArith QArith Bool Reals Lra Lia Permutation.
From Verif Require Import Base Sparse Graph SpecGraph SpecOpt Geom Vars VarsLemmas FactorLib SpecShape Optimizer OptWork OptMore Real RSum SpecSolver SpecSteps OptStepsLib SpecCov SpecBlocks SpecMarginal SpecFree SpecGrown SpecPinned Pinned.
From Verif Require Import OptToy Ldlt LdltSolver OptReal LdltCase OrderCase PinnedCase.
Import ListNotations.
Local Open Scope nat_scope.
Set Bullet Behavior "Strict Subproofs".

(** [q] has the variables and factors of [p], which are of the classes with Jacobians that do not depend on the values; more variables are constant in [q].  Every covariance [p] reports for a variable that is still optimised is reported for [q] and is no larger there *)
Theorem C97_no_larger : forall {S S' : Type} (SV : solver RN S) (SV' : solver RN S') (EV EV' : nat -> env (N:=RN) (V:=lvar RN)), (forall n, env_ok (EV n)) -> (forall n, env_ok (EV' n)) -> factorising_solver SV -> factorising_solver SV' ->
  forall l1 l1' l2 l2' h1 h1' g1 g1' (p p' : pstate (N:=RN) (V:=lvar RN) (S:=S)) (q q' : pstate (N:=RN) (V:=lvar RN) (S:=S')),
  finalized_history (lib RN) l1 l2 h1 (p_heap p) g1 (p_graph p) -> unfinalized (lib RN) ([], empty_graph) l1 -> careful ([], empty_graph) l1 -> careful (h1, g1) l2 ->
  finalized_history (lib RN) l1' l2' h1' (p_heap q) g1' (p_graph q) -> unfinalized (lib RN) ([], empty_graph) l1' -> careful ([], empty_graph) l1' -> careful (h1', g1') l2' ->
  let vs := get_all_variables (p_graph p) in let fs := get_all_factors (p_graph p) in let vs' := get_all_variables (p_graph q) in let fs' := get_all_factors (p_graph q) in
  pinned (lib RN) (p_heap p) (p_heap q) -> same_graph vs vs' fs fs' -> Forall (fun f => exists lf, f = build lf /\ value_free lf) fs ->
  Forall (factor_wf (lib RN) (p_heap p) vs) fs -> some_active (lib RN) (p_heap p) fs -> Forall (factor_wf (lib RN) (p_heap q) vs') fs' -> some_active (lib RN) (p_heap q) fs' ->
  st_method (p_set p) = GaussNewton \/ (forall a v, nth_error (p_heap p) a = Some v -> real_kind (l_kind v)) ->
  st_method (p_set q) = GaussNewton \/ (forall a v, nth_error (p_heap q) a = Some v -> real_kind (l_kind v)) ->
  1 <= st_max_iter (p_set p) -> 1 <= st_max_iter (p_set q) -> p_hvalid p = false -> p_hvalid q = false ->
  optimize (lib RN) SV EV p = (p', Ok tt) -> optimize (lib RN) SV' EV' q = (q', Ok tt) -> p_caught p' = false -> p_caught q' = false ->
  exists p1 q1, prepare SV p' = (p1, Ok tt) /\ prepare SV' q' = (q1, Ok tt) /\
    forall b, In b vs -> 0 < width (lib RN) (p_heap q) b -> no_larger (snd (estimate_covariance (lib RN) SV (Some b) p1)) (snd (estimate_covariance (lib RN) SV' (Some b) q1)).
Proof. exact @pinned_covariances_lib. Qed.

(** any variables, and any factors of which the blocks of the optimised variables are the same in both graphs wherever the variables move *)
Theorem C97_no_larger_any : forall {V : Type} (VC : vclass RN V) {S S' : Type} (SV : solver RN S) (SV' : solver RN S') (EV EV' : nat -> env (N:=RN) (V:=V)), vclass_ok VC -> (forall n, env_ok (EV n)) -> (forall n, env_ok (EV' n)) -> factorising_solver SV -> factorising_solver SV' ->
  forall (I I' : V -> Prop) l1 l1' l2 l2' h1 h1' g1 g1' (p p' : pstate (N:=RN) (V:=V) (S:=S)) (q q' : pstate (N:=RN) (V:=V) (S:=S')),
  finalized_history VC l1 l2 h1 (p_heap p) g1 (p_graph p) -> unfinalized VC ([], empty_graph) l1 ->
  finalized_history VC l1' l2' h1' (p_heap q) g1' (p_graph q) -> unfinalized VC ([], empty_graph) l1' ->
  let vs := get_all_variables (p_graph p) in let fs := get_all_factors (p_graph p) in let vs' := get_all_variables (p_graph q) in let fs' := get_all_factors (p_graph q) in
  pinned VC (p_heap p) (p_heap q) -> same_graph vs vs' fs fs' ->
  (forall f h h' js js', In f fs -> revalued VC (p_heap p) h -> revalued VC (p_heap q) h' -> f_jac f h [] = (js, Ok tt) -> f_jac f h' [] = (js', Ok tt) ->
     forall k a, nth_error (f_vars f) k = Some (Some a) -> 0 < width VC h' a -> nth_error js' k = nth_error js k) ->
  Forall (factor_wf VC (p_heap p) vs) fs -> some_active VC (p_heap p) fs -> Forall buf_indep fs -> shape_contract VC (p_heap p) fs ->
  Forall (factor_wf VC (p_heap q) vs') fs' -> some_active VC (p_heap q) fs' -> Forall buf_indep fs' -> shape_contract VC (p_heap q) fs' ->
  st_method (p_set p) = GaussNewton \/ undoable VC I /\ (forall a v, nth_error (p_heap p) a = Some v -> I v) ->
  st_method (p_set q) = GaussNewton \/ undoable VC I' /\ (forall a v, nth_error (p_heap q) a = Some v -> I' v) ->
  1 <= st_max_iter (p_set p) -> 1 <= st_max_iter (p_set q) -> p_hvalid p = false -> p_hvalid q = false ->
  optimize VC SV EV p = (p', Ok tt) -> optimize VC SV' EV' q = (q', Ok tt) -> p_caught p' = false -> p_caught q' = false ->
  exists p1 q1, prepare SV p' = (p1, Ok tt) /\ prepare SV' q' = (q1, Ok tt) /\
    forall b, In b vs -> 0 < width VC (p_heap q) b -> no_larger (snd (estimate_covariance VC SV (Some b) p1)) (snd (estimate_covariance VC SV' (Some b) q1)).
Proof. exact @pinned_covariances. Qed.

(** x measured as 3 and y - x as 2: y has variance 2; with x held constant (and the graph filled in another order) it has a variance of at most that *)
Example C97_case : exists p' q' p1 q1 P Q, optimize (lib RN) RS EV0 ostart = (p', Ok tt) /\ optimize (lib RN) LS EV0 held = (q', Ok tt) /\
  prepare RS p' = (p1, Ok tt) /\ prepare LS q' = (q1, Ok tt) /\
  snd (estimate_covariance (lib RN) RS (Some 1) p1) = Ok (Some P) /\ snd (estimate_covariance (lib RN) LS (Some 1) q1) = Ok (Some Q) /\
  mat_at P 0 0 = 2%R /\ (mat_at Q 0 0 <= 2)%R.
Proof.
  destruct ostart_run as (p' & E & Hc & _). destruct (o_covariance p' E Hc) as (p1 & P & Hp & HP & HP0 & HP1). destruct held_run as (q' & E2 & Hc2).
  destruct ostart_hist as (A & B & C & D & F). destruct held_hist as (A2 & B2 & C2 & D2 & F2).
  assert (Th : pinned (lib RN) (p_heap ostart) (p_heap held)).
  { change (pinned (lib RN) oheap hheap). intros a v Hv. destruct a as [|[|[|a]]]; [| | |destruct a; discriminate]; injection Hv as <-; eexists; (split; [reflexivity|]); cbn; auto. }
  assert (Gr : same_graph (get_all_variables (p_graph ostart)) (get_all_variables (p_graph held)) (get_all_factors (p_graph ostart)) (get_all_factors (p_graph held))).
  { change (same_graph [0; 1; 2] [2; 1; 0] [of1; of2] [of2; of1]). split; [cbn; intuition|]. apply perm_swap. }
  destruct (C97_no_larger RS LS EV0 EV0 EV0_ok EV0_ok RS_factorising LS_factorising _ _ _ _ _ _ _ _ ostart p' held q' A B C I A2 B2 C2 I Th Gr o_free D F D2 F2
    (or_introl eq_refl) (or_introl eq_refl) (le_n 1) (le_n 1) eq_refl eq_refl E E2 Hc Hc2) as (p2 & q1 & Hp2 & Hq1 & G).
  rewrite Hp in Hp2. injection Hp2 as <-. change (get_all_variables (p_graph ostart)) with [0; 1; 2] in G.
  destruct (G 1 (or_intror (or_introl eq_refl)) (Nat.lt_0_succ 0) P HP) as (Q & HQ & HQ0 & _ & Hz).
  exists p', q', p1, q1, P, Q. do 7 (split; [assumption|]). specialize (Hz [1%R]). unfold quad_form in Hz. rewrite HQ0, HP0 in Hz. cbn in Hz. change (car RN) with R in *. lra.
Qed.
Print Assumptions C97_no_larger.
Print Assumptions C97_no_larger_any.
