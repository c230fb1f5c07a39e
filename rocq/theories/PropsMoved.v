(** C73, C74: one problem written down in two ways.  Statements use SpecTwin and SpecMoved. *)
From Coq Require Import List Arith ZArith QArith Bool Reals Lra Lia Permutation.
From Verif Require Import Base Sparse Graph Geom Vars FactorsLin FactorsGeo FactorLib Optimizer Real SpecTwin SpecMoved Ldlt LdltSolver OptToy MovedVars MovedRun MovedCase TwinMain.
Import ListNotations.
Local Open Scope nat_scope.
Set Bullet Behavior "Strict Subproofs".

(** C73 *)
Theorem C73_displaced_session : forall (tr org : addr -> nat -> R) {S : Type} (SV : solver RN S) (EV EV' : nat -> env (N:=RN) (V:=lvar RN)),
  (forall n, moved_env tr org (EV n) (EV' n)) -> forall (s : S) st l l', moved_session tr org 0 l l' ->
  let p := orun (lib RN) SV EV (ostart s st) l in let p' := orun (lib RN) SV EV' (ostart s st) l' in
  moved_heap tr org (p_heap p) (p_heap p') /\
  p_init p = p_init p' /\ p_cur p = p_cur p' /\ p_complete p = p_complete p' /\ p_hvalid p = p_hvalid p' /\ p_caught p = p_caught p' /\
  snd (optimize (lib RN) SV EV p) = snd (optimize (lib RN) SV EV' p') /\
  (forall q, snd (estimate_covariance (lib RN) SV q p) = snd (estimate_covariance (lib RN) SV q p')) /\
  forall E E' o o', moved_env tr org E E' -> moved_op tr org (length (p_heap p)) (OOp o) (OOp o') ->
    same_answer o (snd (step (lib RN) E (p_heap p, p_graph p) o)) (snd (step (lib RN) E' (p_heap p', p_graph p') o')).
Proof. exact @displaced. Qed.

(** C73, measurements of points on planes: the condition that the point stays is needed, since the Jacobian changes *)
Theorem C73_plane_refuted : forall s u : R, s <> 0%R -> u <> 0%R ->
  let f := build (LPlane (N:=RN) 3 0 1 s None) in
  f_res f (on_plane 0%R) = f_res f (on_plane u) /\ fst (f_jac f (on_plane 0%R) []) <> fst (f_jac f (on_plane u) []).
Proof. exact plane_notices. Qed.

(** C74 *)
Theorem C74_reports_decide : forall {N : num} {V : Type} (VC : vclass N V) {S : Type} (SV : solver N S)
  (RV : addr -> V -> V -> Prop) (XR : addr -> list N -> list N -> Prop) (EV EV' : nat -> env (N:=N) (V:=V)),
  twinned VC RV XR -> (forall n, same_env RV (EV n) (EV' n)) -> forall (s : S) st l l', sessions RV XR 0 l l' ->
  let p := orun VC SV EV (ostart s st) l in let p' := orun VC SV EV' (ostart s st) l' in
  heaps RV (p_heap p) (p_heap p') /\
  p_init p = p_init p' /\ p_cur p = p_cur p' /\ p_complete p = p_complete p' /\ p_hvalid p = p_hvalid p' /\ p_caught p = p_caught p' /\
  snd (optimize VC SV EV p) = snd (optimize VC SV EV' p') /\
  (forall q, snd (estimate_covariance VC SV q p) = snd (estimate_covariance VC SV q p')) /\
  forall E E' o o', same_env RV E E' -> op_pair RV XR (length (p_heap p)) o o' ->
    same_answer o (snd (step VC E (p_heap p, p_graph p) o)) (snd (step VC E' (p_heap p', p_graph p') o')).
Proof. exact @reports_decide. Qed.

(** ** Concrete cases *)
Definition in_turn (H : mat RN) : list nat := seq 0 (mrows H).
Definition MS : solver RN (ldlt RN) := ldlt_solver in_turn.
Definition ldlt_new : ldlt RN := Ldlt true [] [].
Lemma same_env0 RV n : same_env (N:=RN) (V:=lvar RN) RV (EV0 n) (EV0 n).
Proof. split; [intros l l' H; exact H|reflexivity]. Qed.
Section Case.
Variables (sa sb m k c r l o b ob : v3 RN) (x1 x2 v dt sg rg : R).      (* the problem *)
Variables (ux uy t0 t1 t2 x' v' : R).                                   (* displacements, and the change of a velocity *)
Notation problem md := (case_session sa sb m k c r l o b x1 x2 v dt sg rg ob md 0%R 0%R 0%R 0%R 0%R 0%R 0%R 0%R).
Notation elsewhere md := (case_session sa sb m k c r l o b x1 x2 v dt sg rg ob md ux uy t0 t1 t2 x' (x' + dt * v')%R v').
Notation after ll := (orun (lib RN) MS EV0 (ostart (ldlt_new) (defaults LevenbergMarquardt 20)) ll).
(** planar poses, a camera with a point and an inverse range point, a moving body: after two runs of optimize() the statistics agree and,
    for instance, the landmark has moved by (t0, t1, t2) *)
Example C73_case md :
  p_cur (after (problem md)) = p_cur (after (elsewhere md)) /\ length (p_heap (after (problem md))) = 10 /\
  forall x, nth_error (p_heap (after (problem md))) 5 = Some (LVar 6 false (KLandmark x)) -> exists y,
    nth_error (p_heap (after (elsewhere md))) 5 = Some (LVar 6 false (KLandmark y)) /\
    length y = length x /\ forall i, i < length x -> nth i y 0%R = (nth i x 0 + nth i [t0; t1; t2] 0)%R.
Proof.
  destruct (C73_displaced_session (shifts ux uy t0 t1 t2 x' v' dt) (origins t0 t1 t2) MS EV0 EV0 (same_env0 _) ldlt_new (defaults LevenbergMarquardt 20) (problem md) (elsewhere md)
    (case_moved sa sb m k ux uy c r l o b t0 t1 t2 x1 x2 v x' v' dt sg rg ob md)) as (H & _ & Hc & _).
  split; [exact Hc|]. split.
  { assert (L : forall ll p, length (p_heap (orun (lib RN) MS EV0 p ll)) = fold_left (fun n q => makes q + n) ll (length (p_heap p))).
    { induction ll as [|q t IH]; intros p; [reflexivity|]. cbn [orun fold_left]. etransitivity; [apply IH|]. rewrite TwinSession.ostep_length. reflexivity. }
    rewrite L. reflexivity. }
  intros x Hx. destruct H as (_ & H). destruct (H 5 _ Hx) as ([i' c' k'] & E & A & B & Q). cbn in A, B. subst i' c'. cbn in Q. destruct k'; try contradiction.
  eexists. split; [exact E|]. destruct Q as (Q1 & Q2). split; [exact Q1|]. intros i Hi. rewrite Q2 by exact Hi. f_equal. destruct i as [|[|[|i]]]; cbn; try reflexivity. destruct i; reflexivity.
Qed.
(** the session is a real one: its calls up to finalize_structure() build a finalized graph with 23 residuals *)
Definition building md := firstn 31 (problem md).
Example C73_case_built md : ly_final (g_lay (p_graph (after (building md)))) = true /\ ly_nres (g_lay (p_graph (after (building md)))) = 23.
Proof. split; reflexivity. Qed.
(** a user's own class that divides by sigma instead of multiplying with 1 / sigma *)
Definition own_prior (id : Z) (a : addr) (x s : R) : factor (N:=RN) (V:=lvar RN) :=
  Factor id [Some a] 1
    (fun h => let* w := hget h a in match vval (lib RN) w with [y] => Ok [((y - x) / s)%R] | _ => UB UBSize end)
    (fun h => let* w := hget h a in match vval (lib RN) w with [y] => Ok [((y - x) / s)%R] | _ => UB UBSize end)
    (fun h _ => match hget h a with Ok w => (if vconst (lib RN) w then [mempty; mempty] else [diagm (N:=RN) 1 (1 / s)%R], Ok tt) | Throw e => ([], Throw e) | UB u => ([], UB u) end).
Definition prior_session (f : factor (N:=RN) (V:=lvar RN)) : list (oop (N:=RN) (V:=lvar RN)) :=
  [ OOp (ONew (LVar 1 false (KGeneric [x1]))); OOp (OAddVar (Some 0)); OOp (OAddFactor (Some f)); OOp OFinalize; OSetup true (defaults GaussNewton 20); OOptimize ].
Lemma eq_twinned : twinned (lib RN) (fun _ => eq) (fun _ => eq).
Proof.
  assert (R : forall (x : outcome (lvar RN)), alike eq x x) by (intros [?|?|?]; reflexivity).
  constructor; intros; subst; auto.
Qed.
Lemma own_alike id a x s : reads_alike (fun _ => eq) (generic_prior (lib RN) id a [x] s) (own_prior id a x s).
Proof.
  split; [reflexivity|]. split; [reflexivity|]. split; [reflexivity|]. intros h h' H. specialize (H a).
  assert (G : hget h a = hget h' a) by (unfold hget; destruct (nth_error h a), (nth_error h' a); subst; try contradiction; reflexivity). clear H.
  assert (L : nunit (N:=RN) = 1%R) by (cbn; unfold Q2R; cbn; lra).
  assert (R : (gprior_res (lib RN) a [x] (ndiv nunit s) h) = f_res (own_prior id a x s) h').
  { unfold gprior_res. cbn [own_prior f_res]. rewrite G. destruct (hget h' a) as [w|e|u]; cbn [obind]; try reflexivity. unfold vec_minus.
    destruct (vval (lib RN) w) as [|y [|z t]]; try reflexivity. cbn [length Nat.eqb obind vsub vscale map combine fst snd]. rewrite L. cbn. do 2 f_equal. unfold Rdiv. ring. }
  split; [exact R|]. split; [exact R|]. intros J0. cbn [own_prior generic_prior f_jac]. unfold gprior_jac, all_blocks. rewrite G. rewrite L.
  destruct (hget h' a) as [w|e|u]; cbn [obind]; reflexivity || (destruct (vconst (lib RN) w); reflexivity).
Qed.
Example C74_case x s :
  let p := after (prior_session (generic_prior (lib RN) 2 0 [x] s)) in let p' := after (prior_session (own_prior 2 0 x s)) in
  p_cur p = p_cur p' /\ heaps (fun _ => eq) (p_heap p) (p_heap p').
Proof.
  intros p p'. destruct (C74_reports_decide (lib RN) MS (fun _ => eq) (fun _ => eq) EV0 EV0 eq_twinned (same_env0 _) ldlt_new (defaults LevenbergMarquardt 20)
    (prior_session (generic_prior (lib RN) 2 0 [x] s)) (prior_session (own_prior 2 0 x s))) as (H & _ & Hc & _).
  - cbn. repeat (split; [try reflexivity; try apply own_alike|]); exact I.
  - split; [exact Hc|exact H].
Qed.
End Case.
Print Assumptions C73_displaced_session.
Print Assumptions C73_plane_refuted.
Print Assumptions C74_reports_decide.
