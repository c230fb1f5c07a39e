(** C76: graphs whose variables can be turned, scaled or translated without any measurement noticing.  Statements use SpecGraph, SpecOpt,
    SpecShape, SpecSolver and SpecSimilar; exact arithmetic with a linear solver that computes LDL^T factorisations exactly. *)
From Coq Require Import List Arith ZArith QArith Bool Reals Lra Lia Permutation.
From Verif Require Import Base Sparse Graph SpecGraph SpecOpt Geom Vars VarsLemmas VarsRun FactorsLin FactorsGeo FactorLib SpecGeom SpecFactor SpecShape FactorSafe Optimizer Real RSum GeomR SpecBlocks SpecSolver SpecSimilar SimilarRun
  Ldlt LdltSolver OptToy SimilarCase PropsGauge.
Import ListNotations.
Local Open Scope nat_scope.
Set Bullet Behavior "Strict Subproofs".

Section Similar.
Context {S : Type} (SV : solver RN S) (EV : nat -> env (N:=RN) (V:=lvar RN)).
Notation pstate := (pstate (N:=RN) (V:=lvar RN) (S:=S)).
Hypothesis HE : forall n, env_ok (EV n).
Hypothesis HF : factorising_solver SV.

(** C76 *)
Theorem C76_unseen_motion_fails : forall l1 l2 h1 g1 (p p' : pstate) u,
  finalized_history (lib RN) l1 l2 h1 (p_heap p) g1 (p_graph p) -> unfinalized (lib RN) ([], empty_graph) l1 ->
  careful ([], empty_graph) l1 -> careful (h1, g1) l2 ->
  let vs := get_all_variables (p_graph p) in let fs := get_all_factors (p_graph p) in
  Forall (factor_wf (lib RN) (p_heap p) vs) fs -> some_active (lib RN) (p_heap p) fs ->
  Forall (overlooked (p_heap p) u) fs -> in_motion (p_heap p) u vs ->
  st_method (p_set p) = GaussNewton -> 1 <= st_max_iter (p_set p) ->
  optimize (lib RN) SV EV p = (p', Ok tt) -> p_caught p' = false ->
  ss_status (p_cur p') = FAILED /\ p_heap p' = p_heap p /\ ss_iter (p_cur p') = 0.
Proof. exact (similar_fails SV EV HE HF). Qed.
End Similar.

(** ** Concrete case: two cameras and two landmarks anywhere, any measurements.  One camera is constant: the map can grow.  Or one landmark
    is constant: the map can grow and turn about it. *)
Section Case.
Variables (cam : bool) (a b l m ra rb o1 o2 o3 o4 : v3 RN) (s tol : R) (w : v3 RN).
(** the fixed point, the motion that keeps it *)
Definition centre_pt : v3 RN := if cam then a else l.
Definition zmotion : similarity :=
  let w' := if cam then v3zero else w in Similarity w' 1 (v3neg (v3add (v3cross w' centre_pt) centre_pt)).
Definition zu (q : addr) (i : nat) : R :=
  match q with
  | 0 => if i <? 3 then swept zmotion a i else (- sum3 (fun k => ent (dcm_of_rot ra) (i - 3) k * coord (turn zmotion) k))%R
  | 1 => if i <? 3 then swept zmotion b i else (- sum3 (fun k => ent (dcm_of_rot rb) (i - 3) k * coord (turn zmotion) k))%R
  | 2 => swept zmotion l i
  | _ => swept zmotion m i
  end.
Notation vars := (zvars cam a b l m ra rb).
Lemma z_pose0 : pose_follows vars zu zmotion 0.
Proof.
  exists a, (dcm_of_rot ra). split; [exists 1%Z, cam, ra; reflexivity|]. split; [apply dcm_rotation|]. unfold turns_along, rate, zu. cbn [nth_error zvars l_const].
  split; intros i Hi; (destruct i as [|[|[|i]]]; [| | |lia]); cbn [Nat.ltb Nat.leb Nat.sub Nat.add]; unfold swept, crossing, zmotion, centre_pt; destruct cam; try reflexivity; cbn [turn grow go]; generalize (dcm_of_rot ra); intros C; dm C; dv a; gx; ring.
Qed.
Lemma z_pose1 : pose_follows vars zu zmotion 1.
Proof.
  exists b, (dcm_of_rot rb). split; [exists 2%Z, false, rb; reflexivity|]. split; [apply dcm_rotation|]. unfold turns_along, rate, zu. cbn [nth_error zvars l_const mk_pose].
  split; intros i Hi; (destruct i as [|[|[|i]]]; [| | |lia]); reflexivity.
Qed.
Lemma z_point2 : point_follows vars zu zmotion 2.
Proof.
  exists l. split; [exists 3%Z, (negb cam); right; split; reflexivity|]. unfold rate, zu. cbn [nth_error zvars l_const].
  intros i Hi; (destruct i as [|[|[|i]]]; [| | |lia]); unfold swept, crossing, zmotion, centre_pt; destruct cam; cbn [negb]; try reflexivity; cbn [turn grow go]; dv l; dv w; gx; ring.
Qed.
Lemma z_point3 : point_follows vars zu zmotion 3.
Proof.
  exists m. split; [exists 4%Z, false; right; split; reflexivity|]. unfold rate, zu. cbn [nth_error zvars l_const mk_landmark]. intros i Hi; (destruct i as [|[|[|i]]]; [| | |lia]); reflexivity.
Qed.
Lemma z_overlooked : Forall (overlooked vars zu) (map build (zfactors o1 o2 o3 o4 s tol)).
Proof.
  pose proof (z_used cam a b l m ra rb o1 o2 o3 o4 s tol) as U. rewrite Forall_forall in U. apply Forall_forall. intros f Hf. apply in_map_iff in Hf. destruct Hf as (lf & <- & Hf).
  exists lf. split; [reflexivity|]. split; [exact (U lf Hf)|]. pose proof z_pose0. pose proof z_pose1. pose proof z_point2. pose proof z_point3.
  destruct Hf as [<-|[<-|[<-|[<-|[<-|[<-|[<-|[<-|[]]]]]]]]]; exists zmotion; auto.
Qed.
Lemma z_motion : m <> centre_pt -> in_motion vars zu [0; 1; 2; 3].
Proof.
  intros Ne. assert (K : exists c, c < 3 /\ swept zmotion m c <> 0%R).
  { destruct (Req_dec (swept zmotion m 0) 0) as [Z0|Z0]; [|exists 0; split; [lia|exact Z0]]. destruct (Req_dec (swept zmotion m 1) 0) as [Z1|Z1]; [|exists 1; split; [lia|exact Z1]].
    destruct (Req_dec (swept zmotion m 2) 0) as [Z2|Z2]; [|exists 2; split; [lia|exact Z2]]. exfalso. apply Ne. revert Z0 Z1 Z2. unfold swept, crossing, zmotion. cbv zeta. cbn [turn grow go].
    generalize centre_pt. generalize (if cam then v3zero else w). intros v c. destruct v as [v0 v1 v2]. destruct c as [c0 c1 c2]. destruct m as [m0 m1 m2]. gx. intros Z0 Z1 Z2.
    assert (Q : (Rsqr (m0 - c0) + Rsqr (m1 - c1) + Rsqr (m2 - c2) = 0)%R).
    { match type of Z0 with ?x = _ => match type of Z1 with ?y = _ => match type of Z2 with ?z = _ => transitivity ((m0 - c0) * x + (m1 - c1) * y + (m2 - c2) * z)%R end end end; [unfold Rsqr; ring|rewrite Z0, Z1, Z2; ring]. }
    pose proof (Rle_0_sqr (m0 - c0)). pose proof (Rle_0_sqr (m1 - c1)). pose proof (Rle_0_sqr (m2 - c2)).
    f_equal; apply Rminus_diag_uniq, Rsqr_eq_0; lra. }
  destruct K as (c & Hc & Hs). exists 3, c. split; [cbn; auto|]. split; [exact Hc|]. exact Hs.
Qed.
Notation begin := (zstart cam a b l m ra rb o1 o2 o3 o4 s tol in_turn GaussNewton).
Example C76_case : m <> centre_pt -> exists p', optimize (lib RN) GS EV0 begin = (p', Ok tt) /\
  ss_status (p_cur p') = FAILED /\ p_heap p' = vars /\ ss_iter (p_cur p') = 0.
Proof.
  intros Ne. destruct (z_runs cam a b l m ra rb o1 o2 o3 o4 s tol in_turn (fun H => seq_length _ _) GaussNewton) as (p' & E & Hc). exists p'. split; [exact E|].
  assert (Q : ss_status (p_cur p') = FAILED /\ p_heap p' = p_heap begin /\ ss_iter (p_cur p') = 0); [|rewrite z_heap in Q; exact Q].
  refine (C76_unseen_motion_fails GS EV0 EV0_ok GS_factorising _ _ _ _ begin p' zu (z_history cam a b l m ra rb o1 o2 o3 o4 s tol in_turn GaussNewton)
    (z_unfinalized cam a b l m ra rb o1 o2 o3 o4 s tol) (z_careful cam a b l m ra rb o1 o2 o3 o4 s tol) I _ _ _ _ (f_equal st_method (z_set cam a b l m ra rb o1 o2 o3 o4 s tol in_turn GaussNewton)) _ E Hc).
  - rewrite z_heap, z_factors, z_variables. exact (z_wf cam a b l m ra rb o1 o2 o3 o4 s tol).
  - rewrite z_heap, z_factors. exact (z_active cam a b l m ra rb o1 o2 o3 o4 s tol).
  - rewrite z_heap, z_factors. exact z_overlooked.
  - rewrite z_heap, z_variables. exact (z_motion Ne).
  - rewrite z_set. cbn. lia.
Qed.
End Case.
Print Assumptions C76_unseen_motion_fails.
