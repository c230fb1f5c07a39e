(** Sessions on related objects, summed up; and a measurement that does notice a displacement. *)
From Coq Require Import List Arith ZArith QArith Bool Reals Lra Lia.
From Verif Require Import Base Sparse Graph Geom Vars Real FactorsGeo FactorLib Optimizer SpecTwin SpecMoved TwinGraph TwinRun TwinSession MovedRun.
Import ListNotations.
Set Bullet Behavior "Strict Subproofs".

Section Main.
Context {N : num} {V : Type} (VC : vclass N V) {S : Type} (SV : solver N S).
Context (RV : addr -> V -> V -> Prop) (XR : addr -> list N -> list N -> Prop) (EV EV' : nat -> env (N:=N) (V:=V)).
Hypothesis T : twinned VC RV XR.
Hypothesis HE : forall n, same_env RV (EV n) (EV' n).
Theorem reports_decide (s : S) st l l' : sessions RV XR 0 l l' ->
  let p := orun VC SV EV (ostart s st) l in let p' := orun VC SV EV' (ostart s st) l' in
  heaps RV (p_heap p) (p_heap p') /\
  p_init p = p_init p' /\ p_cur p = p_cur p' /\ p_complete p = p_complete p' /\ p_hvalid p = p_hvalid p' /\ p_caught p = p_caught p' /\
  snd (optimize VC SV EV p) = snd (optimize VC SV EV' p') /\
  (forall q, snd (estimate_covariance VC SV q p) = snd (estimate_covariance VC SV q p')) /\
  forall E E' o o', same_env RV E E' -> op_pair RV XR (length (p_heap p)) o o' ->
    same_answer o (snd (step VC E (p_heap p, p_graph p) o)) (snd (step VC E' (p_heap p', p_graph p') o')).
Proof.
  intros H p p'. pose proof (sessions_pair VC SV RV XR T EV EV' HE s st l l' H) as X. fold p p' in X.
  pose proof X as [Sh Sg S1 S2 S3 S4 S5 S6 S7 S8 S9 S10 S11 S12 S13 S14].
  split; [exact Sh|]. repeat (split; [assumption|]).
  split; [apply alike_same; apply (optimize_rel VC SV RV XR T EV EV' HE p p' X)|].
  split; [intros q; apply alike_same; apply (estimate_rel VC SV RV XR T q p p' X)|].
  intros E E' o o' HEE P. apply (step_pair VC RV XR T E E' _ _ _ _ o o' HEE Sh Sg). exact P.
Qed.
End Main.

Local Open Scope R_scope.
(** a point on the plane z = 1, at (0, 0, 1) and at (u, 0, 1) *)
Definition on_plane (u : R) : list (lvar RN) := [ mk_landmark 1 (V3 u 0 1 : v3 RN); LVar 2 false (KPlane (V3 0 0 1 : v3 RN) (-1 : R)) ].
Lemma plane_notices (s u : R) : s <> 0 -> u <> 0 ->
  let f := build (LPlane (N:=RN) 3 0%nat 1%nat s None) in
  f_res f (on_plane 0) = f_res f (on_plane u) /\ fst (f_jac f (on_plane 0) []) <> fst (f_jac f (on_plane u) []).
Proof.
  intros Hs Hu f. split.
  - cbn. f_equal. f_equal. unfold plane_distance, v3dot. cbn. ring.
  - intros E. apply (f_equal (fun J => mat_at (nth 1 J (mzero 0 0)) 0 0)) in E. revert E. cbn. intros E.
    apply Hu. apply (Rmult_eq_reg_l (/ s)); [|apply Rinv_neq_0_compat; exact Hs]. unfold Rdiv in E. lra.
Qed.
