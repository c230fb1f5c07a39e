(** Two planar poses, the first with a prior, the second measured against the first; the same turned by a quarter and displaced by (10, 20). *)
From Coq Require Import List Arith ZArith QArith Bool Reals Lra Lia Qreals Permutation.
From Verif Require Import Base Sparse Graph SpecGraph SpecOpt Geom Vars VarsLemmas FactorsLin FactorsLinFacts FactorsGeo Optimizer OptLemmas Real SpecSolver OptToy Ldlt LdltSolver OptReal LdltCase FactorLib SpecShape FactorSafe SpecSteps RSum OptStepsLib SpecDefined OptDefined OptVerdict Gram OptWork OrderCase PartCase SpecTwin Trig SpecFrame.
Import ListNotations.
Set Bullet Behavior "Strict Subproofs".

Section Case.
Context (a0 a1 a2 b0 b1 b2 m0 m1 m2 : R) (x : v3 RN).
Definition ff1 : factor (N:=RN) (V:=lvar RN) := build (LPose2Prior (N:=RN) 10 0%nat x 1%R 1%R).
Definition ff2 : factor (N:=RN) (V:=lvar RN) := build (LPose2Between (N:=RN) 11 0%nat 1%nat 2%nat 1%R 1%R false).
Definition fops : list (op (N:=RN) (V:=lvar RN)) :=
  [ ONew (LVar 1 false (KPose2 [a0; a1; a2])); ONew (LVar 2 false (KPose2 [b0; b1; b2])); ONew (LVar 3 true (KGeneric [m0; m1; m2]));
    OAddVar (Some 0%nat); OAddVar (Some 1%nat); OAddVar (Some 2%nat); OAddFactor (Some ff1); OAddFactor (Some ff2) ].
Definition fheap : @heap (lvar RN) := [LVar (N:=RN) 1 false (KPose2 [a0; a1; a2]); LVar 2 false (KPose2 [b0; b1; b2]); LVar 3 true (KGeneric [m0; m1; m2])].
Lemma f_used : (exists lf, ff1 = build lf /\ well_used fheap lf /\ ~ may_refuse lf) /\ (exists lf, ff2 = build lf /\ well_used fheap lf /\ ~ may_refuse lf).
Proof.
  split; [exists (LPose2Prior (N:=RN) 10 0%nat x 1%R 1%R)|exists (LPose2Between (N:=RN) 11 0%nat 1%nat 2%nat 1%R 1%R false)]; (split; [reflexivity|]); (split; [|exact (fun H => H)]); cbn [well_used]; unfold var_at, of_size;
    repeat split; (eexists; split; [reflexivity|try (split; reflexivity); try reflexivity; try (cbn; auto)]).
Qed.
Lemma f_wf : factor_wf (lib RN) fheap [0; 1; 2]%nat ff1 /\ factor_wf (lib RN) fheap [0; 1; 2]%nat ff2.
Proof.
  assert (K : forall b, In b [0; 1; 2]%nat -> b = 0%nat \/ b = 1%nat \/ b = 2%nat) by (intros b Hb; cbn in Hb; intuition).
  split; (split; [cbn; lia|]); (split; [|cbn; repeat constructor; cbn; intuition discriminate]);
    [intros q [<-|[]]|intros q [<-|[<-|[<-|[]]]]]; (eexists _, _; split; [reflexivity|]; split; [reflexivity|]);
    (split; [intros _; split; [cbn; tauto|cbn; lia]|]); intros b Hb; destruct (K b Hb) as [ -> | [ -> | -> ]]; cbn; intros; congruence.
Qed.
Definition fstart (SV : solver RN (ldlt RN)) : lstate := start (lib RN) SV env0 empty_ldlt (lset GaussNewton 1) fops.
Lemma fstart_hist SV : ohist SV fops (fstart SV).
Proof.
  unfold ohist. cbn zeta. split; [unfold on_ops, fstart; apply start_finalized; rc; reflexivity|]. change (get_all_variables (p_graph (fstart SV))) with [0; 1; 2]%nat. change (get_all_factors (p_graph (fstart SV))) with [ff1; ff2]. change (p_heap (fstart SV)) with fheap.
  split; [repeat (split; [discriminate|]); exact I|]. destruct f_used as ((lf & U1 & U2 & _) & (lg & U3 & U4 & _)). destruct f_wf as (W1 & W2).
  split; [|split; [auto|exists ff1, 0%nat, (LVar (N:=RN) 1 false (KPose2 [a0; a1; a2])); cbn; auto]].
  do 6 (split; [first [exact I|reflexivity]|]). split; [exists lf; split; [exact U1|exact U2]|]. split; [exists lg; split; [exact U3|exact U4]|exact I].
Qed.
(** (I 0; -I I) *)
Definition fjac : mat RN := Mat (N:=RN) 6 6 (fun i j => if (i =? j)%nat then ow else if (i =? j + 3)%nat then (- ow)%R else @nzero RN).
Lemma fjacobian : jacobian_at (lib RN) fheap [0; 1; 2]%nat [ff1; ff2] fjac.
Proof.
  exists [[diag2 (N:=RN) ow ow]; [diag2 (N:=RN) (nneg ow) (nneg ow); diag2 ow ow; mempty]]. split; [constructor; [reflexivity|constructor; [reflexivity|constructor]]|].
  split; [reflexivity|]. split; [reflexivity|]. intros k f js m a r c Hk Hj Hm Hr Hc.
  destruct k as [|[|k]]; [| |destruct k; discriminate]; injection Hk as <-; injection Hj as <-; cbn in Hr;
    (destruct m as [|[|[|m]]]; [| | |destruct m; discriminate]; injection Hm as <-; cbn in Hc; try lia; destruct r as [|[|[|r]]]; try lia; destruct c as [|[|[|c]]]; try lia; reflexivity).
Qed.
Lemma pair_sq (a b : R) : (a = 1 \/ b = 1 -> 1 / 2 <= a * a + (b - a) * (b - a))%R.
Proof. pose proof (Rle_0_sqr (a - 1/2)) as C. pose proof (Rle_0_sqr (b - 1)) as D. unfold Rsqr in *. intros [-> | ->]; lra. Qed.
Lemma f_posed : ~ ill_posed 0 fjac.
Proof.
  intros (y & i & L & Hi & X1 & X2). cbn in Hi, L. destruct y as [|u0 [|u1 [|u2 [|v0 [|v1 [|v2 [|? ?]]]]]]]; try discriminate L. rewrite damped_zero in X2.
  assert (I2 : image_sq fjac [u0; u1; u2; v0; v1; v2] = ((u0 * u0 + (v0 - u0) * (v0 - u0)) + (u1 * u1 + (v1 - u1) * (v1 - u1)) + (u2 * u2 + (v2 - u2) * (v2 - u2)))%R).
  { unfold image_sq. cbn. rewrite ?ow1, ?q0, ?q1. field. }
  assert (K : (1 / 2 <= image_sq fjac [u0; u1; u2; v0; v1; v2])%R).
  { rewrite I2. pose proof (Rle_0_sqr u0). pose proof (Rle_0_sqr u1). pose proof (Rle_0_sqr u2). pose proof (Rle_0_sqr (v0 - u0)). pose proof (Rle_0_sqr (v1 - u1)). pose proof (Rle_0_sqr (v2 - u2)). unfold Rsqr in *.
    destruct i as [|[|[|[|[|[|i]]]]]]; [| | | | | |lia]; cbn in X1; [pose proof (pair_sq u0 v0 (or_introl X1))|pose proof (pair_sq u1 v1 (or_introl X1))|pose proof (pair_sq u2 v2 (or_introl X1))|pose proof (pair_sq u0 v0 (or_intror X1))|pose proof (pair_sq u1 v1 (or_intror X1))|pose proof (pair_sq u2 v2 (or_intror X1))]; lra. }
  destruct X2 as [X2|(c & Hc & X2)]; [lra|]. assert (column_sq fjac c <= 2)%R by (unfold column_sq; destruct c as [|[|[|[|[|[|c]]]]]]; [| | | | | |cbn in Hc; lia]; cbn; rewrite ?ow1, ?q0, ?q1; lra). lra.
Qed.
Lemma fstart_run SV : factorising_solver SV -> sized_solver SV -> exists p', optimize (lib RN) SV EV0 (fstart SV) = (p', Ok tt) /\ p_caught p' = false /\ ~ failure (ss_status (p_cur p')).
Proof.
  intros HF HZ. apply (o_run SV fops (fstart SV) fjac HF HZ (fstart_hist SV) eq_refl eq_refl eq_refl); [|exact fjacobian|exact f_posed].
  change (get_all_factors (p_graph (fstart SV))) with [ff1; ff2]. change (p_heap (fstart SV)) with fheap. destruct f_used as (U1 & U2). apply Forall_cons; [exact U1|apply Forall_cons; [exact U2|apply Forall_nil]].
Qed.
End Case.
Definition fro : addr -> role := fun a => if (a =? 2)%nat then Difference else Place.
Definition before := fstart 7 1 0 1 1 0 1 1 (1/2) (V3 (N:=RN) 3 2 1)%R.
Definition after := fstart 9 27 (PI/2) 9 21 (PI/2) (-1) 1 (1/2) (V3 (N:=RN) 8 23 (1 + PI/2))%R.
Ltac same2 := apply f_equal2; [lra|apply f_equal2; [lra|reflexivity]].
Lemma f_heaps : heaps (reframed_var (PI/2) 10 20 fro) (fheap 7 1 0 1 1 0 1 1 (1/2)) (fheap 9 27 (PI/2) 9 21 (PI/2) (-1) 1 (1/2)).
Proof.
  intros a. destruct a as [|[|[|a]]]; cbn [fheap nth_error]; [| | |destruct a; exact I]; (split; [reflexivity|]); (split; [reflexivity|]); cbn [fro Nat.eqb l_kind].
  1,2: do 6 eexists; split; [reflexivity|]; split; [reflexivity|]; split; [do 3 eexists; split; [reflexivity|]; rewrite cos_PI2, sin_PI2; same2|split; rewrite Rplus_0_l; reflexivity].
  do 3 eexists; split; [reflexivity|]; rewrite cos_PI2, sin_PI2; same2.
Qed.
Lemma f_measured : Forall2 (same_in_frame (PI/2) 10 20 fro) [ff1 (V3 (N:=RN) 3 2 1)%R; ff2] [ff1 (V3 (N:=RN) 8 23 (1 + PI/2))%R; ff2].
Proof.
  constructor; [|constructor; [|constructor]]; (eexists _, _; split; [reflexivity|]; split; [reflexivity|]; right).
  - split; [reflexivity|]. split; [reflexivity|]. split; [|split; reflexivity]. do 3 eexists. split; [reflexivity|]. rewrite cos_PI2, sin_PI2. cbn [vx vy]. same2.
  - split; [reflexivity|]. repeat split.
Qed.
Lemma local_difference : let ro := fun a => if (a =? 2)%nat then Still else Place in let f := build (LPose2Between (N:=RN) 10 0%nat 1%nat 2%nat 1%R 1%R true) in
  let h := [LVar (N:=RN) 1 false (KPose2 [0; 0; 0]%R); LVar 2 false (KPose2 [1; 0; 0]%R); LVar 3 true (KGeneric [1; 0; 0]%R)] in
  let h' := [LVar (N:=RN) 1 false (KPose2 [0; 0; PI/2]%R); LVar 2 false (KPose2 [0; 1; PI/2]%R); LVar 3 true (KGeneric [1; 0; 0]%R)] in
  exists r r', heaps (reframed_var (PI/2) 0 0 ro) h h' /\ f_res_ref f h = Ok r /\ f_res_ref f h' = Ok r' /\ sqnorm (N:=RN) r = 0%R /\ sqnorm (N:=RN) r' <> 0%R.
Proof.
  cbn zeta. eexists _, _. split.
  { intros a. destruct a as [|[|[|a]]]; cbn [nth_error]; [| | |destruct a; exact I]; (split; [reflexivity|]); (split; [reflexivity|]); cbn [Nat.eqb l_kind]; [| |reflexivity].
    all: do 6 eexists; split; [reflexivity|]; split; [reflexivity|]; split; [do 3 eexists; split; [reflexivity|]; rewrite cos_PI2, sin_PI2; same2|split; rewrite Rplus_0_l; reflexivity]. }
  split; [reflexivity|]. split; [reflexivity|].
  assert (W : forall a : R, cos a = 1%R -> sin a = 0%R -> Ratan2 (sin a) (cos a) = 0%R).
  { intros a C S0. transitivity (Ratan2 (sin 0) (cos 0)); [rewrite C, S0, cos_0, sin_0; reflexivity|]. apply wrap_id. pose proof PI_RGT_0. lra. }
  split.
  - unfold wrap_angle. cbn. rewrite (W (0 - 0 - 0)%R); [|replace (0 - 0 - 0)%R with 0%R by ring; first [apply cos_0|apply sin_0]..]. rewrite ?cos_0, ?sin_0, ?q0, ?q1. field.
  - unfold wrap_angle. cbn. rewrite (W (PI / 2 - PI / 2 - 0)%R); [|replace (PI / 2 - PI / 2 - 0)%R with 0%R by ring; first [apply cos_0|apply sin_0]..]. rewrite ?cos_PI2, ?sin_PI2, ?q0, ?q1. lra.
Qed.
