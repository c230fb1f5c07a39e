(** C96: further variables and measurements never make the others less certain (exact arithmetic). *)
From Coq Require Import List Arith ZArith QArith Bool Reals Lra Lia Permutation.
From Verif Require Import Base Sparse Graph SpecGraph SpecOpt Geom Vars VarsLemmas FactorLib SpecShape Optimizer OptWork OptMore Real RSum SpecSolver SpecSteps OptStepsLib SpecCov SpecBlocks SpecMarginal SpecFree SpecGrown GrownRun.
From Verif Require Import OptToy Ldlt LdltSolver OptReal LdltCase OrderCase RestCase ResumeCase ContractCase ForgetCase GrownCase.
Import ListNotations.
Local Open Scope nat_scope.
Set Bullet Behavior "Strict Subproofs".

(** [q] has the variables and factors of [p], whose factors are of the classes with Jacobians that do not depend on the values, and any others; either a variable only [q] has is not determined and nobody gets a covariance, or every covariance [p] reports is reported for [q] and is no larger there *)
Theorem C96_no_larger : forall {S S' : Type} (SV : solver RN S) (SV' : solver RN S') (EV EV' : nat -> env (N:=RN) (V:=lvar RN)), (forall n, env_ok (EV n)) -> (forall n, env_ok (EV' n)) -> factorising_solver SV -> factorising_solver SV' ->
  forall l1 l1' l2 l2' h1 h1' g1 g1' (p p' : pstate (N:=RN) (V:=lvar RN) (S:=S)) (q q' : pstate (N:=RN) (V:=lvar RN) (S:=S')),
  finalized_history (lib RN) l1 l2 h1 (p_heap p) g1 (p_graph p) -> unfinalized (lib RN) ([], empty_graph) l1 -> careful ([], empty_graph) l1 -> careful (h1, g1) l2 ->
  finalized_history (lib RN) l1' l2' h1' (p_heap q) g1' (p_graph q) -> unfinalized (lib RN) ([], empty_graph) l1' -> careful ([], empty_graph) l1' -> careful (h1', g1') l2' ->
  let vs := get_all_variables (p_graph p) in let fs := get_all_factors (p_graph p) in let vs' := get_all_variables (p_graph q) in let fs' := get_all_factors (p_graph q) in
  still_there (lib RN) (p_heap p) (p_heap q) -> grown vs vs' fs fs' -> Forall (fun f => exists lf, f = build lf /\ value_free lf) fs ->
  Forall (factor_wf (lib RN) (p_heap p) vs) fs -> some_active (lib RN) (p_heap p) fs -> Forall (factor_wf (lib RN) (p_heap q) vs') fs' -> some_active (lib RN) (p_heap q) fs' ->
  st_method (p_set p) = GaussNewton \/ (forall a v, nth_error (p_heap p) a = Some v -> real_kind (l_kind v)) ->
  st_method (p_set q) = GaussNewton \/ (forall a v, nth_error (p_heap q) a = Some v -> real_kind (l_kind v)) ->
  1 <= st_max_iter (p_set p) -> 1 <= st_max_iter (p_set q) -> p_hvalid p = false -> p_hvalid q = false ->
  optimize (lib RN) SV EV p = (p', Ok tt) -> optimize (lib RN) SV' EV' q = (q', Ok tt) -> p_caught p' = false -> p_caught q' = false ->
  exists p1 q1, prepare SV p' = (p1, Ok tt) /\ prepare SV' q' = (q1, Ok tt) /\
    ((exists h, revalued (lib RN) (p_heap q) h /\ newcomer_adrift (lib RN) h vs vs' fs') /\ (forall a, In a vs' -> snd (estimate_covariance (lib RN) SV' (Some a) q1) = Ok None) \/
     forall b, In b vs -> 0 < width (lib RN) (p_heap p) b -> no_larger (snd (estimate_covariance (lib RN) SV (Some b) p1)) (snd (estimate_covariance (lib RN) SV' (Some b) q1))).
Proof. exact @grown_covariances_lib. Qed.

(** any variables, and any factors of which the Jacobians of the first graph do not depend on the values *)
Theorem C96_no_larger_any : forall {V : Type} (VC : vclass RN V) {S S' : Type} (SV : solver RN S) (SV' : solver RN S') (EV EV' : nat -> env (N:=RN) (V:=V)), vclass_ok VC -> (forall n, env_ok (EV n)) -> (forall n, env_ok (EV' n)) -> factorising_solver SV -> factorising_solver SV' ->
  forall (I I' : V -> Prop) l1 l1' l2 l2' h1 h1' g1 g1' (p p' : pstate (N:=RN) (V:=V) (S:=S)) (q q' : pstate (N:=RN) (V:=V) (S:=S')),
  finalized_history VC l1 l2 h1 (p_heap p) g1 (p_graph p) -> unfinalized VC ([], empty_graph) l1 ->
  finalized_history VC l1' l2' h1' (p_heap q) g1' (p_graph q) -> unfinalized VC ([], empty_graph) l1' ->
  let vs := get_all_variables (p_graph p) in let fs := get_all_factors (p_graph p) in let vs' := get_all_variables (p_graph q) in let fs' := get_all_factors (p_graph q) in
  still_there VC (p_heap p) (p_heap q) -> grown vs vs' fs fs' ->
  (forall f h, In f fs -> still_there VC (p_heap p) h -> f_jac f h [] = f_jac f (p_heap p) []) ->
  Forall (factor_wf VC (p_heap p) vs) fs -> some_active VC (p_heap p) fs -> Forall buf_indep fs -> shape_contract VC (p_heap p) fs ->
  Forall (factor_wf VC (p_heap q) vs') fs' -> some_active VC (p_heap q) fs' -> Forall buf_indep fs' -> shape_contract VC (p_heap q) fs' ->
  st_method (p_set p) = GaussNewton \/ undoable VC I /\ (forall a v, nth_error (p_heap p) a = Some v -> I v) ->
  st_method (p_set q) = GaussNewton \/ undoable VC I' /\ (forall a v, nth_error (p_heap q) a = Some v -> I' v) ->
  1 <= st_max_iter (p_set p) -> 1 <= st_max_iter (p_set q) -> p_hvalid p = false -> p_hvalid q = false ->
  optimize VC SV EV p = (p', Ok tt) -> optimize VC SV' EV' q = (q', Ok tt) -> p_caught p' = false -> p_caught q' = false ->
  exists p1 q1, prepare SV p' = (p1, Ok tt) /\ prepare SV' q' = (q1, Ok tt) /\
    ((exists h, revalued VC (p_heap q) h /\ newcomer_adrift VC h vs vs' fs') /\ (forall a, In a vs' -> snd (estimate_covariance VC SV' (Some a) q1) = Ok None) \/
     forall b, In b vs -> 0 < width VC (p_heap p) b -> no_larger (snd (estimate_covariance VC SV (Some b) p1)) (snd (estimate_covariance VC SV' (Some b) q1))).
Proof. exact @grown_covariances. Qed.

(** a variable measured as 3 has variance 1; when it is also measured as 5, it has a variance of at most that *)
Example C96_case : exists p' q' p1 q1 P Q, optimize (lib RN) LS EV0 fewer = (p', Ok tt) /\ optimize (lib RN) LS EV0 (seven (lset GaussNewton 1)) = (q', Ok tt) /\
  prepare LS p' = (p1, Ok tt) /\ prepare LS q' = (q1, Ok tt) /\
  snd (estimate_covariance (lib RN) LS (Some 0) p1) = Ok (Some P) /\ snd (estimate_covariance (lib RN) LS (Some 0) q1) = Ok (Some Q) /\
  mat_at P 0 0 = 1%R /\ (mat_at Q 0 0 <= 1)%R.
Proof.
  destruct fewer_run as (p' & E & Hc). destruct (fewer_covariance p' E Hc) as (p1 & P & Hp & HP & HP0 & HP1).
  destruct (once aops 7 (seven (lset GaussNewton 1)) (seven_hist _) eq_refl eq_refl eq_refl eq_refl eq_refl eq_refl eq_refl) as (q' & E2 & Hc2 & _).
  destruct fewer_hist as (A & B & C & D & F). destruct (seven_hist (lset GaussNewton 1)) as (A2 & B2 & C2 & D2 & F2).
  assert (Th : still_there (lib RN) (p_heap fewer) (p_heap (seven (lset GaussNewton 1)))) by (change (still_there (lib RN) (at_ 7) (at_ 7)); intros a v Hv; exists v; auto).
  assert (Gr : grown (get_all_variables (p_graph fewer)) (get_all_variables (p_graph (seven (lset GaussNewton 1)))) (get_all_factors (p_graph fewer)) (get_all_factors (p_graph (seven (lset GaussNewton 1))))).
  { change (grown [0] [0] [tf1] [tf1; tf2]). split; [intros a Ha; exact Ha|]. exists [tf2]. apply Permutation_refl. }
  destruct (C96_no_larger LS LS EV0 EV0 EV0_ok EV0_ok LS_factorising LS_factorising _ _ _ _ _ _ _ _ fewer p' (seven (lset GaussNewton 1)) q' A B C I A2 B2 C2 I Th Gr f_free D F D2 F2
    (or_introl eq_refl) (or_introl eq_refl) (le_n 1) (le_n 1) eq_refl eq_refl E E2 Hc Hc2) as (p2 & q1 & Hp2 & Hq1 & G).
  rewrite Hp in Hp2. injection Hp2 as <-. change (get_all_variables (p_graph fewer)) with [0] in G. change (get_all_variables (p_graph (seven (lset GaussNewton 1)))) with [0] in G.
  destruct G as [((h & _ & d & a & c & _ & Ha & Na & _) & _)|G]; [contradiction|].
  destruct (G 0 (or_introl eq_refl) (Nat.lt_0_succ 0) P HP) as (Q & HQ & HQ0 & _ & Hz).
  exists p', q', p1, q1, P, Q. do 7 (split; [assumption|]). specialize (Hz [1%R]). unfold quad_form in Hz. rewrite HQ0, HP0 in Hz. cbn in Hz. change (car RN) with R in *. lra.
Qed.
Print Assumptions C96_no_larger.
Print Assumptions C96_no_larger_any.
