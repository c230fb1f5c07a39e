(** C80: the units in which a problem is written down, and a common factor of all standard deviations, do not matter to Gauss-Newton (exact arithmetic). *)
From Coq Require Import List Arith ZArith QArith Bool Reals Lra Lia.
From Verif Require Import Base Sparse Graph SpecGraph SpecOpt Geom Vars VarsLemmas FactorsLin FactorLib SpecShape Optimizer Real SpecSolver SpecSteps OptStepsLib SpecTwin SpecUnits UnitsRun.
From Verif Require Import OptToy Ldlt LdltSolver OptReal LdltCase OptDefined Gram OrderCase UnitsCase.
Import ListNotations.
Local Open Scope nat_scope.
Set Bullet Behavior "Strict Subproofs".

Theorem C80_other_units : forall (u : addr -> nat -> R) (k : R), (forall a i, (0 < u a i)%R) -> (0 < k)%R ->
  forall {S S' : Type} (SV : solver RN S) (SV' : solver RN S') (EV EV' : nat -> env (N:=RN) (V:=lvar RN)),
  (forall n, env_ok (EV n)) -> (forall n, env_ok (EV' n)) -> exact_solver SV -> factorising_solver SV' ->
  forall l1 l1' l2 l2' h1 h1' g1 g1' (p p' : pstate (N:=RN) (V:=lvar RN) (S:=S)) (q q' : pstate (N:=RN) (V:=lvar RN) (S:=S')),
  finalized_history (lib RN) l1 l2 h1 (p_heap p) g1 (p_graph p) -> unfinalized (lib RN) ([], empty_graph) l1 -> careful ([], empty_graph) l1 -> careful (h1, g1) l2 ->
  finalized_history (lib RN) l1' l2' h1' (p_heap q) g1' (p_graph q) -> unfinalized (lib RN) ([], empty_graph) l1' -> careful ([], empty_graph) l1' -> careful (h1', g1') l2' ->
  let vs := get_all_variables (p_graph p) in let fs := get_all_factors (p_graph p) in let fs' := get_all_factors (p_graph q) in
  heaps (rescaled_var u) (p_heap p) (p_heap q) -> get_all_variables (p_graph q) = vs -> Forall2 (same_measurement u k) fs fs' ->
  Forall (factor_wf (lib RN) (p_heap p) vs) fs -> some_active (lib RN) (p_heap p) fs ->
  st_method (p_set p) = GaussNewton -> st_method (p_set q) = GaussNewton -> st_rate (p_set p) = st_rate (p_set q) ->
  optimize (lib RN) SV EV p = (p', Ok tt) -> optimize (lib RN) SV' EV' q = (q', Ok tt) -> p_caught p' = false -> p_caught q' = false ->
  ss_iter (p_cur p') = ss_iter (p_cur q') ->
  heaps (rescaled_var u) (p_heap p') (p_heap q') /\
  forall r r', stacked (p_heap p') fs r -> stacked (p_heap q') fs' r' -> sqnorm (N:=RN) r = (k * k * sqnorm (N:=RN) r')%R.
Proof. exact @other_units. Qed.

(** x = 7 and y = 1, x measured as 3 and y - x as 2 with standard deviation 1; in units of one fifth and with twice the standard deviations these are 35, 5, 15, 10 and 10 *)
Example C80_case : exists p' q', optimize (lib RN) RS EV0 ostart = (p', Ok tt) /\ optimize (lib RN) LS EV0 ustart = (q', Ok tt) /\
  ss_iter (p_cur p') = 1 /\ ss_iter (p_cur q') = 1 /\ heaps (rescaled_var (fun _ _ => 5%R)) (p_heap p') (p_heap q').
Proof.
  destruct o_one as (p' & E & Hc & Hi). destruct ustart_run as (q' & E' & Hc' & Hi').
  exists p', q'. split; [exact E|]. split; [exact E'|]. split; [exact Hi|]. split; [exact Hi'|].
  destruct ostart_hist as (A & B & C & D & F). destruct ustart_hist as (A' & B' & C' & _).
  refine (proj1 (C80_other_units u5 2 _ _ RS LS EV0 EV0 EV0_ok EV0_ok (factorising_exact RS RS_factorising) LS_factorising _ _ _ _ _ _ _ _ ostart p' ustart q' A B C I A' B' C' I _ _ _ D F _ _ _ E E' Hc Hc' (eq_trans Hi (eq_sym Hi')))).
  - intros a i. unfold u5. lra.
  - lra.
  - exact u_heaps.
  - reflexivity.
  - exact u_measured.
  - reflexivity.
  - reflexivity.
  - transitivity (st_rate (lset GaussNewton 1)); reflexivity.
Qed.
(** a camera pose, a landmark and a plane in metres and in centimetres *)
Example C80_geometry : let u := (fun a i => if (a =? 2)%nat then (if (i =? 3)%nat then 100 else 1) else (if (i <? 3)%nat then 100 else 1))%R in
  heaps (rescaled_var u)
    [LVar (N:=RN) 1 false (KPose [1; 2; 3; 0; 0; 0]%R m3id); LVar 2 false (KLandmark [4; 5; 6]%R); LVar 3 false (KPlane (V3 0 0 1)%R (-1)%R)]
    [LVar (N:=RN) 1 false (KPose [100; 200; 300; 0; 0; 0]%R m3id); LVar 2 false (KLandmark [400; 500; 600]%R); LVar 3 false (KPlane (V3 0 0 1)%R (-100)%R)] /\
  Forall2 (same_measurement u 1)
    [build (LPositionPrior 10 0 (V3 (N:=RN) 1 1 1)%R 2%R); build (LBearing 11 0 1 (V3 (N:=RN) 1 0 0)%R (1 / 10)%R); build (LPlane 12 1 2 3%R None)]
    [build (LPositionPrior 10 0 (V3 (N:=RN) 100 100 100)%R 200%R); build (LBearing 11 0 1 (V3 (N:=RN) 1 0 0)%R (1 / 10)%R); build (LPlane 12 1 2 300%R None)].
Proof.
  cbn zeta. split.
  - intros a. destruct a as [|[|[|a]]]; cbn [nth_error]; [| | |destruct a; exact I]; (split; [reflexivity|]); (split; [reflexivity|]); cbn [l_kind].
    + split; [reflexivity|]. split; [split; [reflexivity|]|intros i Hi; cbn; destruct (i <=? 2)%nat eqn:Q; [apply Nat.leb_le in Q; lia|reflexivity]].
      intros i Hi. destruct i as [|[|[|[|[|[|i]]]]]]; cbn in Hi |- *; try lia; lra.
    + split; [reflexivity|]. intros i Hi. destruct i as [|[|[|i]]]; cbn in Hi |- *; try lia; lra.
    + split; [reflexivity|]. split; [cbn; lra|]. intros i Hi. destruct i as [|[|[|i]]]; try lia; reflexivity.
  - repeat apply Forall2_cons; [..|apply Forall2_nil]; (eexists _, _; split; [reflexivity|]; split; [reflexivity|]); exists 100%R.
    + split; [reflexivity|]. split; [intros i Hi; destruct i as [|[|[|i]]]; try lia; reflexivity|]. split; [repeat split; cbn; lra|cbn; lra].
    + split; [reflexivity|]. split; [intros i Hi; destruct i as [|[|[|i]]]; try lia; reflexivity|]. split; [intros i Hi; destruct i as [|[|[|i]]]; try lia; reflexivity|cbn; lra].
    + split; [reflexivity|]. split; [intros i Hi; destruct i as [|[|[|i]]]; try lia; reflexivity|]. split; [reflexivity|]. split; [cbn; lra|]. intros Q. exfalso. apply Q. reflexivity.
Qed.

(** C80 fails for Levenberg-Marquardt: x = 7 measured as 3 and as 5 moves to 5 if all standard deviations are 1, and to 6 if they are 2 *)
Theorem C80_levenberg_marquardt_refuted : exists p' q',
  Forall2 (same_measurement (fun _ _ => 1%R) 2) (get_all_factors (p_graph (lstart LevenbergMarquardt))) (get_all_factors (p_graph mstart)) /\
  p_heap (lstart LevenbergMarquardt) = p_heap mstart /\ p_set (lstart LevenbergMarquardt) = p_set mstart /\
  optimize (lib RN) LS EV0 (lstart LevenbergMarquardt) = (p', Ok tt) /\ optimize (lib RN) LS EV0 mstart = (q', Ok tt) /\
  p_caught p' = false /\ p_caught q' = false /\ ss_iter (p_cur p') = ss_iter (p_cur q') /\ p_heap p' <> p_heap q'.
Proof. exact lm_depends. Qed.

Print Assumptions C80_other_units.
Print Assumptions C80_levenberg_marquardt_refuted.
