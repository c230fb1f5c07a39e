(** Bounds of the damping parameter over the moves of the Levenberg-Marquardt method. *)
From Coq Require Import List Arith ZArith Bool Reals Lra Lia.
From Verif Require Import Base Sparse Graph SpecGraph SpecOpt Real RSum Optimizer SpecSolver SpecSteps Gram Pivots.
Import ListNotations.
Local Open Scope R_scope.
Set Bullet Behavior "Strict Subproofs".

Section Damping.
Context {V : Type} (VC : vclass RN V) (vs : list addr) (fs : list (factor (N:=RN) (V:=V))) (rate up down top : R).
Notation step := (lm_move VC vs fs rate up down top).

Lemma damping_bounds k h0 l0 h l (b B m : R) : moves step k (h0, l0) (h, l) ->
  1 <= up -> 0 <= down <= 1 -> 1 / 100000000000000 <= b ->
  (forall j h' l' J c, (j <= k)%nat -> moves step j (h0, l0) (h', l') -> jacobian_at VC h' vs fs J -> (c < mcols J)%nat -> column_sq J c <= 999999999999 * b) ->
  l0 <= B -> top <= B -> b * up <= B -> 1 / 1000000000000 <= B ->
  0 <= m -> m <= l0 -> m <= top -> m <= 1 / 1000000000000 -> m <= l <= B.
Proof.
  intros M Hu Hd Hb HJ Hl Ht Hub Hf Hm Hml Hmt Hmf. remember (h0, l0) as s0 eqn:E0. remember (h, l) as s eqn:E. revert h l E.
  induction M as [s|k s x y M IH X]; intros h l E; subst.
  - injection E as <- <-. split; auto.
  - destruct x as [h1 l1].
    assert (L1 : m <= l1 <= B).
    { apply (IH eq_refl) with (h := h1); auto. intros j h' l' J c Hj. apply HJ. lia. }
    inversion X as [? ? J Hj Ho|? ? ? r r' A1 A2 A3 A4|? ? ? r r' A1 A2 A3 A4]; subst.
    + split; [nra|]. assert (NB : ~ b <= l1).
      { intros Hb2. destruct Ho as [Ho|Ho]; [lra|]. revert Ho. apply damping_helps; [lra|].
        intros c Hc. specialize (HJ k _ _ J c (Nat.le_succ_diag_r k) M Hj Hc). lra. }
      assert (l1 * up <= b * up) by nra. lra.
    + split; [eapply Rle_trans; [exact Hmf|apply Rmax_r]|]. apply Rmax_lub; [|exact Hf]. nra.
    + split; [apply Rmin_glb; [nra|exact Hmt]|]. eapply Rle_trans; [apply Rmin_r|exact Ht].
Qed.
End Damping.
