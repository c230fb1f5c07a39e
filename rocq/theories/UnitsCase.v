(** The problem of OrderCase in units of one fifth and with twice the standard deviations, and Levenberg-Marquardt steps with standard deviations 1 and 2. *)
From Coq Require Import List Arith ZArith QArith Bool Reals Lra Lia Qreals Permutation.
From Verif Require Import Base Sparse Graph SpecGraph SpecOpt Geom Vars VarsLemmas FactorsLin FactorsLinFacts Optimizer OptLemmas Real SpecSolver OptToy Ldlt LdltSolver OptReal LdltCase FactorLib SpecShape FactorSafe SpecSteps RSum OptStepsLib SpecDefined OptDefined OptVerdict Gram OptWork OrderCase PartCase SpecTwin SpecUnits.
Import ListNotations.
Set Bullet Behavior "Strict Subproofs".

Definition uf1 : factor (N:=RN) (V:=lvar RN) := generic_prior (lib RN) 10 0%nat [15%R] 10%R.
Definition uf2 : factor (N:=RN) (V:=lvar RN) := generic_between (lib RN) 11 0%nat 1%nat 2%nat 1%nat 10%R.
Definition unew : list (op (N:=RN) (V:=lvar RN)) :=
  [ ONew (LVar 1 false (KGeneric [35%R])); ONew (LVar 2 false (KGeneric [5%R])); ONew (LVar 3 true (KGeneric [10%R])) ].
Definition uops : list (op (N:=RN) (V:=lvar RN)) :=
  unew ++ [ OAddVar (Some 0%nat); OAddVar (Some 1%nat); OAddVar (Some 2%nat); OAddFactor (Some uf1); OAddFactor (Some uf2) ].
Definition ustart : lstate := start (lib RN) LS env0 empty_ldlt (lset GaussNewton 1) uops.
Notation uheap := [LVar (N:=RN) 1 false (KGeneric [35%R]); LVar 2 false (KGeneric [5%R]); LVar 3 true (KGeneric [10%R])].
Definition u5 : addr -> nat -> R := fun _ _ => 5%R.
Lemma u_used : (exists lf, uf1 = build lf /\ well_used uheap lf) /\ (exists lf, uf2 = build lf /\ well_used uheap lf).
Proof.
  split; [exists (LGenericPrior 10 0%nat [15%R] 10%R)|exists (LGenericBetween 11 0%nat 1%nat 2%nat 1%nat 10%R)]; (split; [reflexivity|]); cbn [well_used]; unfold var_at, of_size;
    repeat split; (eexists; split; [reflexivity|split; reflexivity]).
Qed.
Lemma u_wf vs : (forall a, In a vs <-> In a [0; 1; 2]%nat) -> factor_wf (lib RN) uheap vs uf1 /\ factor_wf (lib RN) uheap vs uf2.
Proof.
  intros M. assert (K : forall b, In b vs -> b = 0%nat \/ b = 1%nat \/ b = 2%nat) by (intros b Hb; apply M in Hb; cbn in Hb; intuition).
  split; (split; [cbn; lia|]); (split; [|cbn; repeat constructor; cbn; intuition discriminate]);
    [intros q [<-|[]]|intros q [<-|[<-|[<-|[]]]]]; (eexists _, _; split; [reflexivity|]; split; [reflexivity|]);
    (split; [intros _; split; [apply M; cbn; tauto|cbn; lia]|]); intros b Hb; destruct (K b Hb) as [ -> | [ -> | -> ]]; cbn; intros; congruence.
Qed.
Lemma ustart_hist : ohist LS uops ustart.
Proof.
  unfold ohist. cbn zeta. split; [unfold on_ops, ustart; apply start_finalized; rc; reflexivity|]. change (get_all_variables (p_graph ustart)) with [0; 1; 2]%nat. change (get_all_factors (p_graph ustart)) with [uf1; uf2]. change (p_heap ustart) with uheap.
  split; [repeat (split; [discriminate|]); exact I|]. destruct u_used as (U1 & U2). destruct (u_wf [0; 1; 2]%nat) as (W1 & W2); [tauto|].
  split; [|split; [auto|exists uf1, 0%nat, (LVar (N:=RN) 1 false (KGeneric [35%R])); cbn; auto]].
  do 6 (split; [first [exact I|reflexivity]|]). split; [exact U1|]. split; [exact U2|exact I].
Qed.
Definition uw : R := ndiv (n:=RN) nunit 10%R.
Lemma uw1 : uw = (1 / 10)%R. Proof. unfold uw, nunit. cbn. rewrite q1. lra. Qed.
Definition ujac : mat RN := Mat (N:=RN) 2 2 (fun i j => match i, j with O, O => uw | O, _ => @nzero RN | _, O => (- uw)%R | _, _ => uw end).
Lemma ujacobian : jacobian_at (lib RN) uheap [0; 1; 2]%nat [uf1; uf2] ujac.
Proof.
  exists [[diagm (N:=RN) 1 uw]; [diagm (N:=RN) 1 (nneg uw); diagm 1 uw; mempty]]. split; [constructor; [reflexivity|constructor; [reflexivity|constructor]]|].
  split; [reflexivity|]. split; [reflexivity|]. intros k f js m a r c Hk Hj Hm Hr Hc.
  destruct k as [|[|k]]; [| |destruct k; discriminate]; injection Hk as <-; injection Hj as <-; cbn in Hr; assert (r = 0%nat) by lia; subst r;
    (destruct m as [|[|[|m]]]; [| | |destruct m; discriminate]; injection Hm as <-; cbn in Hc; try lia; assert (c = 0%nat) by lia; subst c; reflexivity).
Qed.
Lemma u_posed : ~ ill_posed 0 ujac.
Proof.
  intros (x & i & L & Hi & X1 & X2). cbn in Hi, L. destruct x as [|a [|b [|? ?]]]; try discriminate L. rewrite damped_zero in X2. unfold image_sq, column_sq in X2. cbn in X2. rewrite ?uw1, ?q0 in X2.
  pose proof (pow2_ge_0 a) as A. pose proof (pow2_ge_0 (b - a)) as B. pose proof (pow2_ge_0 (a - 1/2)) as C.
  assert (K : (1 / 2 <= a * a + (b - a) * (b - a))%R) by (destruct i as [|[|i]]; [| |lia]; cbn in X1; subst; nra).
  destruct X2 as [X2|(c & Hc & X2)]; [nra|]. destruct c as [|[|c]]; [| |lia]; cbn in X2; rewrite ?uw1, ?q0 in X2; nra.
Qed.
Lemma ustart_run : exists p', optimize (lib RN) LS EV0 ustart = (p', Ok tt) /\ p_caught p' = false /\ ss_iter (p_cur p') = 1%nat.
Proof.
  destruct (o_run LS uops ustart ujac LS_factorising natural_sized ustart_hist eq_refl eq_refl eq_refl) as (p' & A & B & C); [|exact ujacobian|exact u_posed|].
  - apply Forall_cons; [exists (LGenericPrior 10 0%nat [15%R] 10%R)|apply Forall_cons; [exists (LGenericBetween 11 0%nat 1%nat 2%nat 1%nat 10%R)|apply Forall_nil]]; (split; [reflexivity|]);
    (split; [|exact (fun H => H)]); cbn [well_used]; unfold var_at, of_size; repeat split; (eexists; split; [reflexivity|split; reflexivity]).
  - exists p'. split; [exact A|]. split; [exact B|]. exact (one_iteration LS EV0 EV0_ok ustart p' A B C eq_refl).
Qed.
Lemma o_one : exists p', optimize (lib RN) RS EV0 ostart = (p', Ok tt) /\ p_caught p' = false /\ ss_iter (p_cur p') = 1%nat.
Proof. destruct ostart_run as (p' & A & B & C). exists p'. split; [exact A|]. split; [exact B|]. exact (one_iteration RS EV0 EV0_ok ostart p' A B C eq_refl). Qed.
Lemma one_elt (t : nat -> R) x x' : x' = (t 0%nat * x)%R -> times_vec t [x] [x'].
Proof. intros ->. split; [reflexivity|]. intros i Hi. cbn in Hi. assert (i = 0%nat) by lia. subst i. reflexivity. Qed.
Lemma u_heaps : heaps (rescaled_var u5) oheap uheap.
Proof.
  intros a. destruct a as [|[|[|a]]]; cbn; [| | |destruct a; exact I]; (split; [reflexivity|]); (split; [reflexivity|]); apply one_elt; unfold u5; lra.
Qed.
Lemma u_measured : Forall2 (same_measurement u5 2) [of1; of2] [uf1; uf2].
Proof.
  constructor; [|constructor; [|constructor]].
  - exists (LGenericPrior 10 0%nat [3%R] 1%R), (LGenericPrior 10 0%nat [15%R] 10%R). split; [reflexivity|]. split; [reflexivity|]. exists 5%R. split; [reflexivity|]. split; [reflexivity|]. split; [intros i _; reflexivity|].
    split; [apply one_elt; lra|cbn; lra].
  - exists (LGenericBetween 11 0%nat 1%nat 2%nat 1%nat 1%R), (LGenericBetween 11 0%nat 1%nat 2%nat 1%nat 10%R). split; [reflexivity|]. split; [reflexivity|]. exists 5%R. split; [reflexivity|]. do 3 (split; [intros i _; reflexivity|]). cbn. lra.
Qed.

(** ** Levenberg-Marquardt: x = 7, measured as 3 and 5, standard deviations 1 and 2 *)
Definition mops : list (op (N:=RN) (V:=lvar RN)) :=
  [ ONew (LVar 1 false (KGeneric [7%R])); OAddVar (Some 0%nat);
    OAddFactor (Some (generic_prior (lib RN) 10 0%nat [3%R] 2%R)); OAddFactor (Some (generic_prior (lib RN) 11 0%nat [5%R] 2%R)) ].
Definition mstart : lstate := start (lib RN) LS env0 empty_ldlt (lset LevenbergMarquardt 1) mops.
Definition mbegun : lstate :=
  let c := compute_residual (EV0 (p_tick mstart)) (p_heap mstart) (p_graph mstart) in begun mstart (fst c) (match snd c with Ok r => r | _ => [] end).
Lemma mresidual : let c := compute_residual (EV0 (p_tick mstart)) (p_heap mstart) (p_graph mstart) in c = (fst c, Ok (match snd c with Ok r => r | _ => [] end)).
Proof. rc. reflexivity. Qed.
Lemma lstep_heap : exists p2, lm_step (lib RN) LS EV0 (lbegun LevenbergMarquardt) = (p2, Ok tt) /\ ss_status (p_cur p2) = RUNNING /\ p_caught p2 = false /\ p_heap p2 = [LVar 1 false (KGeneric [5%R])].
Proof.
  unfold lm_step. do 6 st.
  erewrite mbind_ok; [|rewrite lm_loop_S; do 4 st; ifl; do 3 st; ifl; st; ifl; do 5 st; ifl; do 2 st; reflexivity].
  cbn [fst]. st. eexists. split; [reflexivity|]. split; [reflexivity|]. split; [reflexivity|].
  rc. repeat f_equal. rewrite ?q0, ?q1, ?qd. replace (0 + 1 * 1 + 1 * 1 + 1)%R with 3%R by lra. lra.
Qed.
Ltac inv32 := rewrite ?q0, ?q1, ?qd; repeat match goal with |- context [(?a / ?b)%R] =>
  lazymatch b with IZR _ => fail | (3 / 2)%R => fail | _ => replace b with (3 / 2)%R by lra end end.
Ltac ifm := match goal with |- context [if ?b then ?x else ?y] =>
  replace (if b then x else y) with x by (replace b with true by (symmetry; rc; match goal with |- context [Rltb ?a ?b] => rewrite (rtrue a b) by (inv32; rnum) end; reflexivity); reflexivity) end.
Lemma mstep_heap : exists p2, lm_step (lib RN) LS EV0 mbegun = (p2, Ok tt) /\ ss_status (p_cur p2) = RUNNING /\ p_caught p2 = false /\ p_heap p2 = [LVar 1 false (KGeneric [6%R])].
Proof.
  unfold lm_step. do 6 st.
  erewrite mbind_ok; [|rewrite lm_loop_S; do 4 st; ifl; do 3 st; ifl; st; ifl; do 5 st; ifm; do 2 st; reflexivity].
  cbn [fst]. st. eexists. split; [reflexivity|]. split; [reflexivity|]. split; [reflexivity|].
  rc. repeat f_equal. inv32. lra.
Qed.
Lemma one_more (p p' : lstate) : optimize (lib RN) LS EV0 p = (p', Ok tt) -> p_caught p' = false -> ss_status (p_cur p') = SUCCESS \/ ss_status (p_cur p') = DIVERGED ->
  st_max_iter (p_set p) = 1%nat -> ss_iter (p_cur p') = 1%nat.
Proof. intros A B C. apply (one_iteration LS EV0 EV0_ok p p' A B). unfold failure. destruct C as [-> | ->]; intuition discriminate. Qed.
Lemma lm_one : exists p', optimize (lib RN) LS EV0 (lstart LevenbergMarquardt) = (p', Ok tt) /\ p_caught p' = false /\ ss_iter (p_cur p') = 1%nat /\ p_heap p' = [LVar 1 false (KGeneric [5%R])].
Proof.
  destruct lstep_heap as (p2 & E2 & R1 & R2 & R3). rewrite <- one_step_lm in E2 by reflexivity.
  destruct (optimize_one (lib RN) LS EV0 (lstart LevenbergMarquardt) _ _ p2 eq_refl (lresidual LevenbergMarquardt) eq_refl E2 R1 R2) as (p' & H & Hc & Hs & Hh & _). exists p'. rewrite Hh.
  split; [exact H|]. split; [exact Hc|]. split; [exact (one_more _ _ H Hc Hs eq_refl)|exact R3].
Qed.
Lemma lm_two : exists p', optimize (lib RN) LS EV0 mstart = (p', Ok tt) /\ p_caught p' = false /\ ss_iter (p_cur p') = 1%nat /\ p_heap p' = [LVar 1 false (KGeneric [6%R])].
Proof.
  destruct mstep_heap as (p2 & E2 & R1 & R2 & R3). rewrite <- one_step_lm in E2 by reflexivity.
  destruct (optimize_one (lib RN) LS EV0 mstart _ _ p2 eq_refl mresidual eq_refl E2 R1 R2) as (p' & H & Hc & Hs & Hh & _). exists p'. rewrite Hh.
  split; [exact H|]. split; [exact Hc|]. split; [exact (one_more _ _ H Hc Hs eq_refl)|exact R3].
Qed.
Lemma lm_depends : exists p' q',
  Forall2 (same_measurement (fun _ _ => 1%R) 2) (get_all_factors (p_graph (lstart LevenbergMarquardt))) (get_all_factors (p_graph mstart)) /\
  p_heap (lstart LevenbergMarquardt) = p_heap mstart /\ p_set (lstart LevenbergMarquardt) = p_set mstart /\
  optimize (lib RN) LS EV0 (lstart LevenbergMarquardt) = (p', Ok tt) /\ optimize (lib RN) LS EV0 mstart = (q', Ok tt) /\
  p_caught p' = false /\ p_caught q' = false /\ ss_iter (p_cur p') = ss_iter (p_cur q') /\ p_heap p' <> p_heap q'.
Proof.
  destruct lm_one as (p' & A & B & C & D). destruct lm_two as (q' & A' & B' & C' & D'). exists p', q'. split.
  - change (Forall2 (same_measurement (fun _ _ => 1%R) 2) [build (LGenericPrior (N:=RN) 10 0%nat [3%R] 1%R); build (LGenericPrior (N:=RN) 11 0%nat [5%R] 1%R)] [build (LGenericPrior (N:=RN) 10 0%nat [3%R] 2%R); build (LGenericPrior (N:=RN) 11 0%nat [5%R] 2%R)]).
    constructor; [|constructor; [|constructor]]; (eexists _, _; split; [reflexivity|]; split; [reflexivity|]; exists 1%R); (split; [reflexivity|]); (split; [reflexivity|]); (split; [intros i _; reflexivity|]); (split; [apply one_elt; lra|cbn; lra]).
  - split; [exact (eq_trans (y:=[LVar (N:=RN) 1 false (KGeneric [7%R])]) eq_refl eq_refl)|]. split; [transitivity (lset LevenbergMarquardt 1); reflexivity|]. split; [exact A|]. split; [exact A'|]. split; [exact B|]. split; [exact B'|]. split; [congruence|].
    rewrite D, D'. intros Q. injection Q as Q. lra.
Qed.
