(** The covariances of the cases in AgreeCase and HeldCase before the measurement is added and before the variable is held. *)
From Coq Require Import List Arith ZArith QArith Bool Reals Lra Lia Qreals Permutation.
From Verif Require Import Base Sparse Graph SpecGraph SpecOpt Geom Vars VarsLemmas FactorsLin FactorLib SpecShape FactorSafe Optimizer OptWork OptMore Real RSum SpecSolver SpecSteps OptToy Ldlt LdltSolver OptReal LdltCase OptStepsLib OptSteps OptVerdict OrderCase SpecCov CovRun SpecFree SpecRest RestCase AgreeCase HeldCase.
Import ListNotations.
Local Open Scope nat_scope.
Set Bullet Behavior "Strict Subproofs".

Lemma t_free : Forall (fun f : factor (N:=RN) (V:=lvar RN) => exists lf, f = build lf /\ value_free lf) [tf1; tf2].
Proof. constructor; [exists (LGenericPrior (N:=RN) 10 0 [3%R] 1%R); split; [reflexivity|exact I]|constructor; [exists (LGenericPrior (N:=RN) 11 0 [5%R] 1%R); split; [reflexivity|exact I]|constructor]]. Qed.
Lemma k_free : Forall (fun f : factor (N:=RN) (V:=lvar RN) => exists lf, f = build lf /\ value_free lf) [tf1; tf2; kf].
Proof.
  pose proof t_free as X. inversion X as [|? ? X1 Y]; subst. inversion Y as [|? ? X2 _]; subst. constructor; [exact X1|constructor; [exact X2|constructor; [|constructor]]].
  exists (LGenericBetween (N:=RN) 12 0 1 2 1 1%R); split; [reflexivity|exact I].
Qed.
(** a variable measured twice has variance 1/2 *)
Lemma t_covariance p' : optimize (lib RN) LS EV0 tonce = (p', Ok tt) -> p_caught p' = false -> p_heap p' = p_heap tonce ->
  exists p1 P, prepare LS p' = (p1, Ok tt) /\ snd (estimate_covariance (lib RN) LS (Some 0) p1) = Ok (Some P) /\ mrows P = 1 /\ mat_at P 0 0 = (1/2)%R.
Proof.
  intros E Hc Hh. destruct tonce_hist as (A & B & C & D & F).
  destruct (free_covariances LS EV0 EV0_ok LS_factorising _ _ _ _ tonce p' A B C I D F t_free (or_introl eq_refl) (le_n 1) eq_refl E Hc) as (J & p1 & HJ & Hp & Hr).
  rewrite Hh in HJ, Hr. change (get_all_variables (p_graph tonce)) with [0] in HJ, Hr. change (get_all_factors (p_graph tonce)) with [tf1; tf2] in HJ. change (p_heap tonce) with theap in HJ, Hr.
  destruct (jacobian_unique _ _ _ _ _ _ HJ tjacobian) as (U1 & U2 & U3). cbn [mrows mcols tjac] in U1, U2.
  assert (Z : mat_at J 0 0 = 1%R /\ mat_at J 1 0 = 1%R).
  { rewrite !U3 by (rewrite ?U1, ?U2; lia). cbn -[ow]. rewrite ow1. split; lra. }
  destruct Z as (Z0 & Z1).
  exists p1. destruct Hr as [((x & L & (i & Hi & Hx) & W) & _)|(_ & H & W & HG & HW & Hr)].
  - exfalso. rewrite U2 in Hi. pose proof (W 0) as Wa. rewrite U1, U2 in Wa. specialize (Wa ltac:(lia)). cbn [rsum] in Wa. rewrite Z0 in Wa. apply Hx. assert (i = 0) by lia. subst i. change (car RN) with R in *. lra.
  - assert (W1 : mat_at W 0 0 = (1/2)%R).
    { destruct HG as (g1 & g2 & g3). rewrite U2 in g1, g2. destruct HW as (w1 & w2 & w3). rewrite g1 in w1. rewrite g2 in w2. rewrite w1, w2, ?g2 in w3.
      pose proof (g3 0 0) as h00. rewrite U1, U2 in *. specialize (h00 ltac:(lia) ltac:(lia)). cbn in h00. rewrite ?q0, Z0, Z1 in h00.
      pose proof (w3 0 0 ltac:(lia) ltac:(lia)) as a0. cbn in a0. rewrite ?q0, ?q1, h00 in a0. change (car RN) with R in *. lra. }
    specialize (Hr 0 0 _ eq_refl eq_refl eq_refl ltac:(cbn; lia)). cbn in Hr.
    destruct Hr as [(P & P1 & (P0 & _ & P2) & _)|(_ & i & Hi & Hb)].
    + exists P. split; [exact Hp|]. split; [exact P1|]. split; [exact P0|]. rewrite (P2 0 0) by lia. exact W1.
    + exfalso. assert (i = 0) by lia. subst i. cbn [Nat.add] in Hb. rewrite W1 in Hb. lra.
Qed.
(** with x optimised, y has variance 3/2 *)
Lemma k_covariance p' : optimize (lib RN) LS EV0 (kstart false GaussNewton) = (p', Ok tt) -> p_caught p' = false ->
  exists p1 P, prepare LS p' = (p1, Ok tt) /\ snd (estimate_covariance (lib RN) LS (Some 1) p1) = Ok (Some P) /\ mrows P = 1 /\ mat_at P 0 0 = (3/2)%R.
Proof.
  intros E Hc. destruct (k_success p' E Hc) as (_ & Hh). destruct (kstart_hist false GaussNewton) as (A & B & C & D & F). destruct (k_lists false GaussNewton) as (Ev & Ef & Eh).
  destruct (free_covariances LS EV0 EV0_ok LS_factorising _ _ _ _ (kstart false GaussNewton) p' A B C I D F) as (J & p1 & HJ & Hp & Hr); [rewrite Ef; exact k_free|left; reflexivity|exact (le_n 1)|reflexivity|exact E|exact Hc|].
  rewrite Hh, Ev, Eh in Hr. rewrite Hh, Ev, Ef, Eh in HJ.
  destruct (jacobian_unique _ _ _ _ _ _ HJ kjacobian) as (U1 & U2 & U3). cbn [mrows mcols kjac] in U1, U2.
  assert (Z : mat_at J 0 0 = 1%R /\ mat_at J 0 1 = 0%R /\ mat_at J 1 0 = 1%R /\ mat_at J 1 1 = 0%R /\ mat_at J 2 0 = (-1)%R /\ mat_at J 2 1 = 1%R).
  { rewrite !U3 by (rewrite ?U1, ?U2; lia). cbn -[ow]. rewrite ow1, q0. repeat split; lra. }
  destruct Z as (Z00 & Z01 & Z10 & Z11 & Z20 & Z21).
  exists p1. destruct Hr as [((x & L & (i & Hi & Hx) & W) & _)|(_ & H & W & HG & HW & Hr)].
  - exfalso. rewrite U2 in Hi. pose proof (W 0) as Wa. pose proof (W 2) as Wb. rewrite U1, U2 in Wa, Wb. specialize (Wa ltac:(lia)). specialize (Wb ltac:(lia)). cbn [rsum] in Wa, Wb. rewrite Z00, Z01 in Wa. rewrite Z20, Z21 in Wb.
    apply Hx. destruct i as [|[|i]]; [| |lia]; change (car RN) with R in *; lra.
  - assert (W1 : mat_at W 1 1 = (3/2)%R).
    { destruct HG as (g1 & g2 & g3). rewrite U2 in g1, g2. destruct HW as (w1 & w2 & w3). rewrite g1 in w1. rewrite g2 in w2. rewrite w1, w2, ?g2 in w3.
      pose proof (g3 0 0) as h00. pose proof (g3 0 1) as h01. pose proof (g3 1 0) as h10. pose proof (g3 1 1) as h11. rewrite U1, U2 in *.
      specialize (h00 ltac:(lia) ltac:(lia)). specialize (h01 ltac:(lia) ltac:(lia)). specialize (h10 ltac:(lia) ltac:(lia)). specialize (h11 ltac:(lia) ltac:(lia)). cbn in h00, h01, h10, h11.
      rewrite ?q0 in h00, h01, h10, h11.
      pose proof (w3 1 0 ltac:(lia) ltac:(lia)) as a0. pose proof (w3 1 1 ltac:(lia) ltac:(lia)) as a1. cbn in a0, a1. rewrite ?q0, ?q1, h00, h10 in a0. rewrite ?q0, ?q1, h01, h11 in a1. change (car RN) with R in *. rewrite Z00, Z10, Z11, Z01, Z20, Z21 in a0. rewrite Z00, Z10, Z11, Z01, Z20, Z21 in a1. lra. }
    specialize (Hr 1 1 _ eq_refl eq_refl eq_refl ltac:(cbn; lia)). cbn in Hr.
    destruct Hr as [(P & P1 & (P0 & _ & P2) & _)|(_ & i & Hi & Hb)].
    + exists P. split; [exact Hp|]. split; [exact P1|]. split; [exact P0|]. rewrite (P2 0 0) by lia. exact W1.
    + exfalso. assert (i = 0) by lia. subst i. cbn [Nat.add] in Hb. rewrite W1 in Hb. lra.
Qed.
