(** C89: the reported step norm is the length of the last increment, and what a Levenberg-Marquardt iteration does (exact arithmetic). *)
From Coq Require Import List Arith ZArith QArith Bool Reals Lra Lia.
From Verif Require Import Base Sparse Graph SpecGraph SpecOpt Geom Vars VarsLemmas FactorsLin FactorLib SpecShape Optimizer OptLemmas Real RSum SpecSolver SpecSteps OptStepsLib OptWork SpecLength OptLength.
From Verif Require Import OptToy Ldlt LdltSolver OptReal LdltCase Gram OrderCase PartCase RestCase PropsSteps PropsRest.
Import ListNotations.
Local Open Scope nat_scope.
Set Bullet Behavior "Strict Subproofs".

Section Length.
Context {V : Type} (VC : vclass RN V) {S : Type} (SV : solver RN S) (EV : nat -> env (N:=RN) (V:=V)).
Notation pstate := (pstate (N:=RN) (V:=V) (S:=S)).
Hypothesis Hok : vclass_ok VC.
Hypothesis HE : forall n, env_ok (EV n).

Theorem C89_gauss_newton_step_norm : forall l1 l2 h1 g1 (p p' : pstate),
  exact_solver SV -> finalized_history VC l1 l2 h1 (p_heap p) g1 (p_graph p) -> unfinalized VC ([], empty_graph) l1 ->
  let vs := get_all_variables (p_graph p) in let fs := get_all_factors (p_graph p) in let rate := st_rate (p_set p) in
  Forall (factor_wf VC (p_heap p) vs) fs -> some_active VC (p_heap p) fs -> Forall buf_indep fs -> shape_contract VC (p_heap p) fs ->
  st_method (p_set p) = GaussNewton -> optimize VC SV EV p = (p', Ok tt) -> p_caught p' = false ->
  match ss_iter (p_cur p') with
  | 0 => p_heap p' = p_heap p /\ ss_delta (p_cur p') = (-1)%R
  | Datatypes.S k => exists h, moves (newton_step VC vs fs rate 0) k (p_heap p) h /\ step_of_length VC vs fs rate 0 (ss_delta (p_cur p')) h (p_heap p')
  end.
Proof. exact (gn_length VC SV EV Hok HE). Qed.

Theorem C89_levenberg_marquardt_iterations : forall (I : V -> Prop) l1 l2 h1 g1 (p p' : pstate),
  undoable VC I -> (forall a v, nth_error (p_heap p) a = Some v -> I v) ->
  factorising_solver SV -> finalized_history VC l1 l2 h1 (p_heap p) g1 (p_graph p) -> unfinalized VC ([], empty_graph) l1 ->
  let vs := get_all_variables (p_graph p) in let fs := get_all_factors (p_graph p) in let st := p_set p in
  Forall (factor_wf VC (p_heap p) vs) fs -> some_active VC (p_heap p) fs -> Forall buf_indep fs -> shape_contract VC (p_heap p) fs ->
  st_method st = LevenbergMarquardt -> 1 <= st_max_iter st -> optimize VC SV EV p = (p', Ok tt) -> p_caught p' = false ->
  let iter := iteration VC vs fs (st_rate st) (st_up st) (st_down st) (st_max_lambda st) in
  exists k a, ss_iter (p_cur p') = Datatypes.S k /\ moves (fun a b => exists n, iter n a b) k (p_heap p, st_lambda0 st) a /\
    iter (ss_delta (p_cur p')) a (p_heap p', ss_lambda (p_cur p')).
Proof. exact (lm_length VC SV EV Hok HE). Qed.
End Length.

(** the variable at 7 with priors 3 and 5 moves to 4: a step of length 3 *)
Example C89_case : exists p', optimize (lib RN) (solver1 RN) EV0 (rstart GaussNewton) = (p', Ok tt) /\ p_caught p' = false /\
  p_heap p' = [LVar 1 false (KGeneric [4%R])] /\ ss_iter (p_cur p') = 1 /\ ss_delta (p_cur p') = 3%R.
Proof.
  destruct gn_real as (p' & E & Hc & Hst & _ & _ & _ & _ & Hh). exists p'. split; [exact E|]. split; [exact Hc|]. split; [exact Hh|].
  assert (Hi : ss_iter (p_cur p') = 1) by (apply (one_iteration (solver1 RN) EV0 EV0_ok _ p' E Hc); [|reflexivity]; intros [X|[X|X]]; destruct Hst as [Y|Y]; rewrite X in Y; discriminate).
  split; [exact Hi|]. destruct (small_graph GaussNewton) as (A & B & C & D & F). destruct (lib_history _ _ _ _ _ _ A F I) as (G1 & G2).
  pose proof (C89_gauss_newton_step_norm (lib RN) (solver1 RN) EV0 lib_ok EV0_ok _ _ _ _ _ p' solver1_exact A B C D G1 G2 eq_refl E Hc) as X. rewrite Hi in X. destruct X as (h & M & r & J & x & d & _ & (jss & _ & (_ & Jc & _)) & (Lx & _) & Ed & (_ & Ux) & El).
  inversion M; subst h. clear M. rewrite El. change (p_heap (rstart GaussNewton)) with [LVar (N:=RN) 1 false (KGeneric [7%R])] in *. change (get_all_variables (p_graph (rstart GaussNewton))) with [0] in *.
  assert (Ld : length d = 1) by (rewrite Ed, map_length, Lx, Jc; reflexivity). destruct d as [|y [|? ?]]; try discriminate Ld. clear Ed El.
  destruct Ux as (U & _). destruct (U 0 0 _ eq_refl eq_refl eq_refl) as (v' & Ev & Hv). rewrite Hh in Hv. cbn [nth_error] in Hv. injection Hv as Hv. subst v'.
  assert (Hy : (7 + y)%R = 4%R).
  { cbn in Ev. congruence. }
  unfold length_of. cbn. replace (0 + y * y)%R with (3 * 3)%R; [apply sqrt_square; lra|]. replace y with (-3)%R by lra. ring.
Qed.

(** the cost does not grow over iterations *)
Lemma iterations_descend : forall {V} (VC : vclass RN V) vs fs rate up down top k a b ra, moves (fun a b => exists n, iteration VC vs fs rate up down top n a b) k a b ->
  stacked (fst a) fs ra -> exists rb, stacked (fst b) fs rb /\ (cost_of rb <= cost_of ra)%R.
Proof.
  intros V VC vs fs rate up down top k a b ra M Sa. induction M as [a|k a b c M IH (n & It)]; [exists ra; split; [exact Sa|lra]|].
  destruct (IH Sa) as (rb & Sb & Lb). destruct It as [k0 h l l1 h' r r' _ _ _ Sr Sr' Lt|h l l1 _ _|k0 h l l1 _ _ _ _ _]; cbn [fst] in *.
  - exists r'. split; [exact Sr'|]. rewrite (stacked_fun _ _ _ _ Sb Sr) in Lb. lra.
  - exists rb. split; [exact Sb|lra].
  - exists rb. split; [exact Sb|lra].
Qed.
(** started at the optimum no attempt is kept, and the length is 0 *)
Example C89_levenberg_marquardt_case : exists p', optimize (lib RN) LS EV0 (tstart LevenbergMarquardt) = (p', Ok tt) /\ p_heap p' = p_heap (tstart LevenbergMarquardt) /\ ss_delta (p_cur p') = 0%R.
Proof.
  destruct C86_levenberg_marquardt_refuted as (p' & E & Hh & _). exists p'. split; [exact E|]. split; [exact Hh|].
  destruct (t_run LevenbergMarquardt) as (q & Eq & Hc). assert (q = p') by congruence. subst q.
  destruct (tstart_hist LevenbergMarquardt) as (A & B & C & D & F). destruct (lib_history _ _ _ _ _ _ A C I) as (G1 & G2).
  assert (X : forall a v, nth_error (p_heap (tstart LevenbergMarquardt)) a = Some v -> real_kind (l_kind v)).
  { change (p_heap (tstart LevenbergMarquardt)) with theap. intros a v Hv. destruct a as [|a]; [injection Hv as <-; exact I|destruct a; discriminate]. }
  destruct (C89_levenberg_marquardt_iterations (lib RN) LS EV0 lib_ok EV0_ok (fun v => real_kind (l_kind v)) _ _ _ _ (tstart LevenbergMarquardt) p' lib_real X LS_factorising A B D F G1 G2) as (k & a & _ & M & It);
    [reflexivity|cbn; lia|exact E|exact Hc|]. clear -M It Hh.
  inversion It as [k0 h l l1 h' r r' _ _ St Sr Sr' Lt Ea Eb|h l l1 _ Z Ea Eb|k0 h l l1 _ _ _ _ Z Ea Eb]; [exfalso|exact Z|exact Z]. subst a.
  rewrite Hh in Sr'. destruct (iterations_descend _ _ _ _ _ _ _ _ _ _ r' M Sr') as (rb & Sb & Lb). cbn [fst] in Sb. rewrite (stacked_fun _ _ _ _ Sb Sr) in Lb. lra.
Qed.

Print Assumptions C89_gauss_newton_step_norm.
Print Assumptions C89_levenberg_marquardt_iterations.
