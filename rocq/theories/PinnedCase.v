(** y - x measured as 2 and x as 3, with x optimised and with x held constant. *)
From Coq Require Import List Arith ZArith QArith Bool Reals Lra Lia Qreals Permutation.
From Verif Require Import Base Sparse Graph SpecGraph SpecOpt Geom Vars VarsLemmas FactorsLin FactorLib SpecShape FactorSafe Optimizer OptWork OptMore Real RSum SpecSolver SpecSteps SpecDefined OptDefined OptToy Ldlt LdltSolver OptReal LdltCase OptStepsLib OptSteps OptVerdict OrderCase SpecCov CovRun SpecFree SpecPinned.
Import ListNotations.
Local Open Scope nat_scope.
Set Bullet Behavior "Strict Subproofs".

Definition hops : list (op (N:=RN) (V:=lvar RN)) :=
  [ ONew (LVar 1 true (KGeneric [7%R])); ONew (LVar 2 false (KGeneric [1%R])); ONew (LVar 3 true (KGeneric [2%R])) ] ++
  [ OAddVar (Some 2); OAddVar (Some 1); OAddVar (Some 0); OAddFactor (Some of2); OAddFactor (Some of1) ].
Definition held : lstate := start (lib RN) LS env0 empty_ldlt (lset GaussNewton 1) hops.
Notation hheap := [LVar (N:=RN) 1 true (KGeneric [7%R]); LVar 2 false (KGeneric [1%R]); LVar 3 true (KGeneric [2%R])].
Lemma h_never : Forall (fun f => exists lf, f = build lf /\ well_used hheap lf /\ ~ may_refuse lf) [of2; of1].
Proof.
  apply Forall_cons; [exists (LGenericBetween 11 0 1 2 1 1%R)|apply Forall_cons; [exists (LGenericPrior 10 0 [3%R] 1%R)|apply Forall_nil]]; (split; [reflexivity|]);
    (split; [|exact (fun H => H)]); cbn [well_used]; unfold var_at, of_size; repeat split; (eexists; split; [reflexivity|split; reflexivity]).
Qed.
Lemma h_wf : Forall (factor_wf (lib RN) hheap [2; 1; 0]) [of2; of1].
Proof.
  assert (K : forall b, In b [2; 1; 0] -> b = 0 \/ b = 1 \/ b = 2) by (cbn; intuition).
  constructor; [|constructor; [|constructor]]; (split; [cbn; lia|]); (split; [|cbn; repeat constructor; cbn; intuition discriminate]);
    [intros q [<-|[<-|[<-|[]]]]|intros q [<-|[]]]; (eexists _, _; split; [reflexivity|]; split; [reflexivity|]);
    (split; [intros _; split; [cbn; tauto|cbn; lia]|]); intros b Hb; destruct (K b Hb) as [ -> | [ -> | -> ]]; cbn; intros; congruence.
Qed.
Lemma held_hist : ohist LS hops held.
Proof.
  unfold ohist. cbn zeta. split; [unfold on_ops, held; apply start_finalized; rc; reflexivity|]. change (get_all_variables (p_graph held)) with [2; 1; 0]. change (get_all_factors (p_graph held)) with [of2; of1]. change (p_heap held) with hheap.
  split; [repeat (split; [discriminate|]); exact I|]. pose proof h_never as X. inversion X as [|? ? (lf & U1 & U2 & _) X2]; subst. inversion X2 as [|? ? (lg & U3 & U4 & _) _]; subst.
  split; [|split; [exact h_wf|exists of2, 1, (LVar (N:=RN) 2 false (KGeneric [1%R])); cbn; auto]].
  do 6 (split; [first [exact I|reflexivity]|]). split; [exists lf; split; [exact U1|exact U2]|]. split; [exists lg; split; [exact U3|exact U4]|exact I].
Qed.
Lemma held_run : exists p', optimize (lib RN) LS EV0 held = (p', Ok tt) /\ p_caught p' = false.
Proof.
  destruct held_hist as (A & B & C & D & E). exact (lib_optimize_answers LS EV0 EV0_ok _ _ _ _ held natural_sized A C I eq_refl B D E h_never eq_refl).
Qed.
Lemma o_free : Forall (fun f : factor (N:=RN) (V:=lvar RN) => exists lf, f = build lf /\ value_free lf) [of1; of2].
Proof. constructor; [exists (LGenericPrior (N:=RN) 10 0 [3%R] 1%R); split; [reflexivity|exact I]|constructor; [exists (LGenericBetween (N:=RN) 11 0 1 2 1 1%R); split; [reflexivity|exact I]|constructor]]. Qed.
(** with x optimised, y has variance 2 *)
Lemma o_square p' : optimize (lib RN) RS EV0 ostart = (p', Ok tt) -> p_caught p' = false ->
  exists p1 P, prepare RS p' = (p1, Ok tt) /\ snd (estimate_covariance (lib RN) RS (Some 1) p1) = Ok (Some P) /\ mrows P = 1 /\ mcols P = 1 /\ mat_at P 0 0 = 2%R.
Proof.
  intros E Hc. destruct ostart_hist as (A & B & C & D & F). destruct (lib_history _ _ _ _ _ _ A C I) as (G1 & G2).
  destruct (last_covariances (lib RN) RS EV0 lib_ok EV0_ok RS_factorising (fun _ => True) _ _ _ _ ostart p' A B D F G1 G2 (or_introl eq_refl) (le_n 1) eq_refl E Hc) as (_ & _ & _ & _ & _ & _ & _ & _ & _ & _ & _ & _ & _ & _ & Rv).
  destruct (free_covariances RS EV0 EV0_ok RS_factorising _ _ _ _ ostart p' A B C I D F o_free (or_introl eq_refl) (le_n 1) eq_refl E Hc) as (J & p1 & HJ & Hp & Hr).
  change (get_all_variables (p_graph ostart)) with [0; 1; 2] in HJ, Hr. change (get_all_factors (p_graph ostart)) with [of1; of2] in HJ. change (p_heap ostart) with oheap in Rv.
  assert (HJ' : jacobian_at (lib RN) (p_heap p') [0; 1; 2] [of1; of2] ojac).
  { apply (jacobian_moved (lib RN) lib_ok oheap (p_heap p') _ _ _ Rv); [repeat constructor| |exact ojacobian].
    pose proof (revalued_hpres (lib RN) lib_ok _ _ Rv) as Hh. intros f Hf. pose proof o_free as Of. rewrite Forall_forall in Of. destruct (Of f Hf) as (lf & -> & Vf). apply free_jacobian; [exact Vf|exact Hh|].
    intros a Ha. destruct (o_wf [0; 1; 2]) as (W1 & W2); [tauto|]. assert (W : factor_wf (lib RN) oheap [0; 1; 2] (build lf)) by (destruct Hf as [<-|[<-|[]]]; assumption).
    destruct W as (_ & W & _). destruct (W _ Ha) as (b & v & X & Y & _). injection X as <-. apply nth_error_Some. congruence. }
  destruct (jacobian_unique _ _ _ _ _ _ HJ HJ') as (U1 & U2 & U3). cbn [mrows mcols ojac] in U1, U2.
  assert (Z : mat_at J 0 0 = 1%R /\ mat_at J 0 1 = 0%R /\ mat_at J 1 0 = (-1)%R /\ mat_at J 1 1 = 1%R).
  { rewrite !U3 by (rewrite ?U1, ?U2; lia). cbn -[ow]. rewrite ow1, q0. repeat split; lra. }
  destruct Z as (Z00 & Z01 & Z10 & Z11).
  exists p1. destruct Hr as [((x & L & (i & Hi & Hx) & W) & _)|(_ & H & W & HG & HW & Hr)].
  - exfalso. rewrite U2 in Hi. pose proof (W 0) as Wa. pose proof (W 1) as Wb. rewrite U1, U2 in Wa, Wb. specialize (Wa ltac:(lia)). specialize (Wb ltac:(lia)). cbn [rsum] in Wa, Wb. rewrite Z00, Z01 in Wa. rewrite Z10, Z11 in Wb.
    apply Hx. destruct i as [|[|i]]; [| |lia]; change (car RN) with R in *; lra.
  - assert (W1 : mat_at W 1 1 = 2%R).
    { destruct HG as (g1 & g2 & g3). rewrite U2 in g1, g2. destruct HW as (w1 & w2 & w3). rewrite g1 in w1. rewrite g2 in w2. rewrite w1, w2, ?g2 in w3.
      pose proof (g3 0 0) as h00. pose proof (g3 0 1) as h01. pose proof (g3 1 0) as h10. pose proof (g3 1 1) as h11. rewrite U1, U2 in *.
      specialize (h00 ltac:(lia) ltac:(lia)). specialize (h01 ltac:(lia) ltac:(lia)). specialize (h10 ltac:(lia) ltac:(lia)). specialize (h11 ltac:(lia) ltac:(lia)). cbn in h00, h01, h10, h11.
      rewrite ?q0 in h00, h01, h10, h11.
      pose proof (w3 1 0 ltac:(lia) ltac:(lia)) as a0. pose proof (w3 1 1 ltac:(lia) ltac:(lia)) as a1. cbn in a0, a1. rewrite ?q0, ?q1, h00, h10 in a0. rewrite ?q0, ?q1, h01, h11 in a1. change (car RN) with R in *. rewrite Z00, Z10, Z11, Z01 in a0. rewrite Z00, Z10, Z11, Z01 in a1. lra. }
    assert (X : exists v, nth_error (p_heap p') 1 = Some v /\ l_const v = false /\ ksize (l_kind v) = 1).
    { destruct (revalued_hpres (lib RN) lib_ok _ _ Rv 1 _ eq_refl) as (v & Ev & _ & Sz & Cv). exists v. split; [exact Ev|]. split; [exact (Cv eq_refl)|exact Sz]. }
    destruct X as (v & Ev & Cv & Sv). specialize (Hr 1 1 v eq_refl Ev Cv). cbn [vsize lib] in Hr. rewrite Sv in Hr. specialize (Hr ltac:(lia)).
    assert (Cs : col_start (lib RN) (p_heap p') [0; 1; 2] 1 = 1).
    { assert (Wu : width (lib RN) (p_heap p') 0 = 1) by (rewrite (revalued_width (lib RN) lib_ok _ _ 0 Rv); [reflexivity|cbn; lia]). cbn. rewrite Wu. reflexivity. }
    rewrite Cs in Hr.
    destruct Hr as [(P & P1 & (P0 & Pc & P2) & _)|(_ & i & Hi & Hb)].
    + exists P. split; [exact Hp|]. split; [exact P1|]. split; [exact P0|]. split; [exact Pc|]. rewrite (P2 0 0) by lia. exact W1.
    + exfalso. assert (i = 0) by lia. subst i. cbn [Nat.add] in Hb. rewrite W1 in Hb. lra.
Qed.
Lemma o_covariance p' : optimize (lib RN) RS EV0 ostart = (p', Ok tt) -> p_caught p' = false ->
  exists p1 P, prepare RS p' = (p1, Ok tt) /\ snd (estimate_covariance (lib RN) RS (Some 1) p1) = Ok (Some P) /\ mrows P = 1 /\ mat_at P 0 0 = 2%R.
Proof. intros E Hc. destruct (o_square p' E Hc) as (p1 & P & A & B & C & _ & D). exists p1, P. auto. Qed.
