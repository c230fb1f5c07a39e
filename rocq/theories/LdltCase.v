(** Runs over the reals with the LDL^T solver and the natural ordering. *)
From Coq Require Import List Arith ZArith QArith Bool Reals Lra Lia Qreals Permutation.
From Verif Require Import Base Sparse Graph SpecGraph SpecOpt Geom Vars VarsLemmas FactorsLin FactorsLinFacts Optimizer OptLemmas Real SpecSolver OptToy Ldlt LdltSolver OptReal.
Import ListNotations.
Set Bullet Behavior "Strict Subproofs".

Definition natural (H : mat RN) : list nat := seq 0 (mrows H).
Definition LS : solver RN (ldlt RN) := ldlt_solver natural.
Lemma LS_factorising : factorising_solver LS.
Proof. apply ldlt_factorising. intros H. apply Permutation_refl. Qed.
Notation lstate := (pstate (N:=RN) (V:=lvar RN) (S:=ldlt RN)).
Definition lset (m : method) (n : nat) : settings (N:=RN) := Settings m n 0%R 0%R 1%R 4%R 2%R (1/2)%R 1%R.
Definition empty_ldlt : ldlt RN := Ldlt true [] [].
Definition lstart (m : method) : lstate := start (lib RN) LS env0 empty_ldlt (lset m 1) rops.

Definition lbegun (m : method) : lstate :=
  let c := compute_residual (EV0 (p_tick (lstart m))) (p_heap (lstart m)) (p_graph (lstart m)) in
  begun (lstart m) (fst c) (match snd c with Ok r => r | _ => [] end).
Lemma lresidual m : let c := compute_residual (EV0 (p_tick (lstart m))) (p_heap (lstart m)) (p_graph (lstart m)) in
  c = (fst c, Ok (match snd c with Ok r => r | _ => [] end)).
Proof. rc. reflexivity. Qed.

Lemma leF a b : (b < a)%R -> Rleb a b = false. Proof. apply Rleb_false. Qed.
Ltac tf := rc; repeat (match goal with |- context [Rleb ?a ?b] => first [rewrite (leF a b) by rnum] | |- context [Rltb ?a ?b] => first [rewrite (rtrue a b) by rnum | rewrite (rfalse a b) by rnum | rewrite (rtrue a b) by (inv3; rnum)] end); reflexivity.
Ltac ifl := match goal with |- context [if ?b then ?x else ?y] =>
  first [replace (if b then x else y) with y by (replace b with false by (symmetry; tf); reflexivity)
        |replace (if b then x else y) with x by (replace b with true by (symmetry; tf); reflexivity)] end.
Lemma llm_step : exists p2, lm_step (lib RN) LS EV0 (lbegun LevenbergMarquardt) = (p2, Ok tt) /\ ss_status (p_cur p2) = RUNNING /\
    p_caught p2 = false /\ p_nbad p2 = 0%nat /\ ss_lambda (p_cur p2) = (1/2)%R.
Proof.
  unfold lm_step. do 6 st.
  erewrite mbind_ok; [|rewrite lm_loop_S; do 4 st; ifl; do 3 st; ifl; st; ifl; do 5 st; ifl; do 2 st; reflexivity].
  cbn [fst]. st. eexists. split; [reflexivity|]. split; [reflexivity|]. split; [reflexivity|]. split; [reflexivity|].
  rc. repeat (match goal with |- context [Rltb ?a ?b] => first [rewrite (rtrue a b) by rnum | rewrite (rfalse a b) by rnum] end); lra.
Qed.
Lemma llm_real : exists p', optimize (lib RN) LS EV0 (lstart LevenbergMarquardt) = (p', Ok tt) /\ p_caught p' = false /\ ss_lambda (p_cur p') = (1/2)%R.
Proof.
  destruct llm_step as (p2 & E2 & R1 & R2 & R3 & R4).
  rewrite <- one_step_lm in E2 by reflexivity.
  destruct (optimize_one (lib RN) LS EV0 (lstart LevenbergMarquardt) _ _ p2 eq_refl (lresidual LevenbergMarquardt) eq_refl E2 R1 R2)
    as (p' & H & Hc & Hs & _ & _ & _ & _ & Hb & Hl & _).
  exists p'. rewrite Hl. auto.
Qed.

(** two free variables 1 and 4, a constant difference 2 measured twice, and nothing else: both rows of J are (-1, 1), adding the same number to both changes nothing *)
Definition fops : list (op (N:=RN) (V:=lvar RN)) :=
  [ ONew (LVar 1 false (KGeneric [1%R])); ONew (LVar 2 false (KGeneric [4%R])); ONew (LVar 3 true (KGeneric [2%R]));
    OAddVar (Some 0%nat); OAddVar (Some 1%nat); OAddVar (Some 2%nat); OAddFactor (Some (generic_between (lib RN) 10 0%nat 1%nat 2%nat 1%nat 1%R));
    OAddFactor (Some (generic_between (lib RN) 11 0%nat 1%nat 2%nat 1%nat 1%R)) ].
Definition fstart : lstate := start (lib RN) LS env0 empty_ldlt (lset GaussNewton 1) fops.
Definition fbegun : lstate :=
  let c := compute_residual (EV0 (p_tick fstart)) (p_heap fstart) (p_graph fstart) in
  begun fstart (fst c) (match snd c with Ok r => r | _ => [] end).
Lemma fresidual : let c := compute_residual (EV0 (p_tick fstart)) (p_heap fstart) (p_graph fstart) in
  c = (fst c, Ok (match snd c with Ok r => r | _ => [] end)).
Proof. rc. reflexivity. Qed.
Lemma leT a b : (a <= b)%R -> Rleb a b = true. Proof. apply Rleb_true. Qed.
Lemma fstep : exists p2, gn_step (lib RN) LS EV0 fbegun = (p2, Ok tt) /\ ss_status (p_cur p2) = FAILED /\ p_caught p2 = false.
Proof.
  unfold gn_step. do 5 st.
  match goal with |- context [if ?b then ?x else ?y] => replace (if b then x else y) with x end; [eexists; split; [reflexivity|]; split; reflexivity|].
  match goal with |- context [if ?b then ?x else ?y] => replace b with true; [reflexivity|] end.
  symmetry. rc. repeat match goal with |- context [Rleb ?a ?b] =>
    first [rewrite (leF a b) by rnum
          |rewrite (leT a b) by (rewrite ?q0, ?q1, ?qd; replace (0 + - (1) * - (1) + - (1) * - (1))%R with 2%R by lra; lra)] end. reflexivity.
Qed.
Lemma optimize_failed {N V S} (VC : vclass N V) (SV : solver N S) EV (p : pstate (N:=N) (V:=V) (S:=S)) g r p2 :
  p_hasgraph p = true -> compute_residual (EV (p_tick p)) (p_heap p) (p_graph p) = (g, Ok r) ->
  st_max_iter (p_set p) = 1%nat -> one_step VC SV EV (begun p g r) = (p2, Ok tt) -> ss_status (p_cur p2) = FAILED ->
  optimize VC SV EV p = (w_complete true p2, Ok tt).
Proof.
  intros Hg Hr Hi Hs Hst. unfold optimize. rewrite Hg. cbn [negb].
  change (p_tick (w_caught _ _)) with (p_tick p). change (p_heap (w_caught _ _)) with (p_heap p). change (p_graph (w_caught _ _)) with (p_graph p).
  rewrite Hr. fold (begun p g r). change (st_max_iter (p_set (begun p g r))) with (st_max_iter (p_set p)). rewrite Hi.
  cbn [opt_loop]. rewrite Hs, Hst. cbn. rewrite Hst. reflexivity.
Qed.
Lemma freal : exists p', optimize (lib RN) LS EV0 fstart = (p', Ok tt) /\ p_caught p' = false.
Proof.
  destruct fstep as (p2 & E2 & A & B). rewrite <- one_step_gn in E2 by reflexivity. exists (w_complete true p2). split; [|exact B].
  exact (optimize_failed (lib RN) LS EV0 fstart _ _ p2 eq_refl fresidual eq_refl E2 A).
Qed.

(** Gauss-Newton on the first problem *)
Lemma lgn_real : exists p', optimize (lib RN) LS EV0 (lstart GaussNewton) = (p', Ok tt) /\ p_caught p' = false /\
  p_complete p' = true /\ p_hvalid p' = false /\
  (exists M, sparse_jacobian (p_graph p') = Ok M /\ mrows (sp_dense M) = 2%nat /\ mcols (sp_dense M) = 1%nat /\ mat_at (sp_dense M) 0 0 = 1%R /\ mat_at (sp_dense M) 1 0 = 1%R) /\
  variable_placement (p_graph p') 1 = Some (VPlacement 0%nat 0%nat 1%nat) /\
  p_heap p' = [LVar 1 false (KGeneric [4%R])].
Proof.
  assert (exists p2, one_step (lib RN) LS EV0 (lbegun GaussNewton) = (p2, Ok tt) /\ ss_status (p_cur p2) = RUNNING /\
    p_caught p2 = false /\ p_hvalid p2 = false /\
  (exists M, sparse_jacobian (p_graph p2) = Ok M /\ mrows (sp_dense M) = 2%nat /\ mcols (sp_dense M) = 1%nat /\ mat_at (sp_dense M) 0 0 = 1%R /\ mat_at (sp_dense M) 1 0 = 1%R) /\
  variable_placement (p_graph p2) 1 = Some (VPlacement 0%nat 0%nat 1%nat) /\
  p_heap p2 = [LVar 1 false (KGeneric [4%R])]) as (p2 & E2 & R1 & R2 & R3 & R4 & R5 & R6).
  2: { destruct (optimize_one (lib RN) LS EV0 (lstart GaussNewton) _ _ p2 eq_refl (lresidual GaussNewton) eq_refl E2 R1 R2) as (p' & H & Hc & Hs & Hh & Hg & _ & Hv & _ & _ & Hk).
    exists p'. rewrite Hv, Hg, Hh. auto 10. }
  rewrite one_step_gn by reflexivity.
  unfold gn_step. do 5 st. ifl. st. st. st. ifl. ifl. st. ifl. st. st. st. st. eexists. split; [rc; reflexivity|].
  split; [reflexivity|]. split; [reflexivity|]. split; [reflexivity|]. split; [|split; [rc; reflexivity|rc; repeat f_equal; rewrite ?q0, ?q1, ?qd; lra]].
  eexists. split; [rc; reflexivity|]. split; [rc; reflexivity|]. split; [rc; reflexivity|]. split; rc; rnum.
Qed.
