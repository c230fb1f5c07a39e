(** Concrete optimiser runs: cases that meet the hypotheses of the theorems in PropsOptimizer, and witnesses of the
    refutations. *)
From Coq Require Import List Arith ZArith QArith Bool Permutation.
From Flocq Require Import Core.
From Flocq.IEEE754 Require Import BinarySingleNaN.
From Verif Require Import Base Sparse Graph SpecGraph SpecOpt Geom Vars VarsLemmas FactorsLin Optimizer OptLemmas Float OptToy OptInst.
Import ListNotations.

(** x starts at 7, priors 3 (sigma 1/2) and 5, measured difference 4 to the constant 10: optimum 23/6 *)
Definition case_ops : list bop := problem (bz 7) (bz 3) (bz 5) (bz 10) (bz 4) (bq (1#2)).
Definition case_start (m : method) : bstate (B0 * bool) :=
  start (lib B0) (solver1 B0) env0 (nzero, true) (defaults m 10) case_ops.
Definition case_l : list (env (N:=B0) (V:=lvar B0) * bop) := map (fun o => (env0, o)) case_ops.
Definition case_s0 := run (lib B0) ([], empty_graph) case_l.
Definition case_end (m : method) := optimize (lib B0) (solver1 B0) EV0 (case_start m).
Lemma case_finalized m : finalized_history (lib B0) case_l [] (fst case_s0) (p_heap (case_start m))
    (fst (finalize_structure (lib B0) (fst case_s0) (snd case_s0))) (p_graph (case_start m)).
Proof. apply start_finalized. vm_compute. reflexivity. Qed.
Definition generic_b {N} (k : kind N) : bool := match k with KGeneric _ => true | _ => false end.
Lemma generic_heap {N} (h : list (lvar N)) : forallb (fun v => generic_b (l_kind v)) h = true ->
  forall a v, nth_error h a = Some v -> exact_kind (l_kind v).
Proof.
  intros H a v E. apply nth_error_In in E. rewrite forallb_forall in H. specialize (H v E).
  destruct (l_kind v); simpl in *; try discriminate; exact I.
Qed.
Lemma case_exact m a v : nth_error (p_heap (case_start m)) a = Some v -> exact_kind (l_kind v).
Proof. apply generic_heap; destruct m; vm_compute; reflexivity. Qed.
(** what the runs return: x = 23/6 rounded, chi2 below its initial value, constants as before *)
Definition x_of {S} (p : bstate S) (a : nat) : list SpecFloat.spec_float :=
  match nth_error (p_heap p) a with Some v => map sf (kval (l_kind v)) | None => [] end.
Lemma case_facts m : snd (case_end m) = Ok tt /\ p_caught (fst (case_end m)) = false /\
  ss_status (p_cur (fst (case_end m))) = SUCCESS /\ p_hasgraph (case_start m) = true /\ st_method (p_set (case_start m)) = m /\
  ss_iter (p_cur (fst (case_end m))) = 2%nat /\ p_nfact (fst (case_end m)) = 2%nat.
Proof. destruct m; vm_compute; auto 10. Qed.
Lemma case_pair m : optimize (lib B0) (solver1 B0) EV0 (case_start m) = (fst (case_end m), Ok tt).
Proof. destruct (case_facts m) as (E & _). revert E. unfold case_end. destruct (optimize _ _ _ _) as [p o]. cbn. intros ->. reflexivity. Qed.
Lemma Ok_inj {A} (a b : A) : Ok a = Ok b -> a = b.
Proof. congruence. Qed.
Lemma end_pair {A B} (x : A * outcome B) b : snd x = Ok b -> x = (fst x, Ok b).
Proof. destruct x. simpl. congruence. Qed.

(** ** C22: a solver that succeeds once and then fails *)
Definition solver_once : solver B0 (B0 * nat) :=
  Solver B0 (B0 * nat) (fun s H => (mat_at H 0 0, Datatypes.S (snd s))) (fun s => (snd s <=? 1)%nat) (fun s => [fst s])
    (fun s b => (s, [ndiv (nth 0 b nzero) (fst s)])) (fun s B => (s, B)).
Definition once_start : bstate (B0 * nat) := start (lib B0) solver_once env0 (nzero, 0%nat) (defaults GaussNewton 10) case_ops.
Definition once_end := optimize (lib B0) solver_once EV0 once_start.
Lemma once_finalized : finalized_history (lib B0) case_l [] (fst case_s0) (p_heap once_start)
    (fst (finalize_structure (lib B0) (fst case_s0) (snd case_s0))) (p_graph once_start).
Proof. apply start_finalized. vm_compute. reflexivity. Qed.
Lemma once_facts : snd once_end = Ok tt /\ p_caught (fst once_end) = false /\ ss_status (p_cur (fst once_end)) = FAILED /\
  ss_iter (p_cur (fst once_end)) = 1%nat.
Proof. vm_compute. auto. Qed.
Lemma once_pair : optimize (lib B0) solver_once EV0 once_start = (fst once_end, Ok tt).
Proof. destruct once_facts as (E & _). revert E. unfold once_end. destruct (optimize _ _ _ _) as [p o]. cbn. intros ->. reflexivity. Qed.

(** ** C20: all steps have the wrong sign, so all attempts are rejected *)
Definition neg_start : bstate (B0 * bool) := start (lib B0) (solver_neg B0) env0 (nzero, true) (defaults LevenbergMarquardt 10) case_ops.
Lemma neg_finalized : finalized_history (lib B0) case_l [] (fst case_s0) (p_heap neg_start)
    (fst (finalize_structure (lib B0) (fst case_s0) (snd case_s0))) (p_graph neg_start).
Proof. apply start_finalized. vm_compute. reflexivity. Qed.
Lemma neg_exact a v : nth_error (p_heap neg_start) a = Some v -> exact_kind (l_kind v).
Proof. apply generic_heap; vm_compute; reflexivity. Qed.
Definition neg_end := lm_step (lib B0) (solver_neg B0) EV0 neg_start.
Lemma neg_facts : snd neg_end = Ok tt /\ ss_status (p_cur (fst neg_end)) = FAILED /\ p_nfact (fst neg_end) = 5%nat /\ p_nbad (fst neg_end) = 0%nat.
Proof. vm_compute. auto. Qed.
Lemma neg_pair : lm_step (lib B0) (solver_neg B0) EV0 neg_start = (fst neg_end, Ok tt).
Proof. destruct neg_facts as (E & _). revert E. unfold neg_end. destruct (lm_step _ _ _ _) as [p o]. cbn. intros ->. reflexivity. Qed.

(** ** C13: a constant rotation by 90 degrees, one rejected step.  The three libm functions used return what any libm does
    at the points called: sin(pi/2), cos(pi/2), acos(0). *)
Definition b_half_pi : b64 := b_of_Q (7074237752028440 # 4503599627370496).
Definition b_cos_half_pi : b64 := @binary_normalize 53 1024 P53 PE mode_NE 4967757600021511 (-106) false.
Definition Lq : libm := Libm (fun _ => b_of_Z 1) (fun _ => b_cos_half_pi) (fun x => x) (fun _ => b_half_pi) (fun x _ => x).
Definition Bq : num := BN Lq.
Definition quarter : m3 Bq := M3 nzero (nlit (-1)) nzero nunit nzero nzero nzero nzero nunit.
Definition f10 : factor (N:=Bq) (V:=lvar Bq) := generic_prior (lib Bq) 10 0%nat [nlit 3] nunit.
Definition rot_ops : list (op (N:=Bq) (V:=lvar Bq)) :=
  [ ONew (LVar 1 false (KGeneric [nlit 3])); ONew (mk_rotation 2 quarter); OSetConst 1%nat true;
    OAddVar (Some 0%nat); OAddVar (Some 1%nat); OAddFactor (Some f10) ].
Definition rot_start : pstate (N:=Bq) (V:=lvar Bq) (S:=Bq * bool) :=
  start (lib Bq) (solver1 Bq) env0 (nzero, true) (defaults LevenbergMarquardt 10) rot_ops.
Definition rot_end := optimize (lib Bq) (solver1 Bq) EV0 rot_start.
(** entries of the matrix at address 1 *)
Definition dcm_at (h : list (lvar Bq)) : option (list SpecFloat.spec_float) :=
  match nth_error h 1 with
  | Some (LVar _ true (KRot _ R)) => Some (map (fun x : Bq => @B2SF 53 1024 x)
      [m00 R; m01 R; m02 R; m10 R; m11 R; m12 R; m20 R; m21 R; m22 R])
  | _ => None
  end.
Lemma rot_facts : snd rot_end = Ok tt /\
  (match dcm_at (p_heap rot_start) with Some l => nth 0 l SpecFloat.S754_nan | None => SpecFloat.S754_nan end) = SpecFloat.S754_zero false /\
  (match dcm_at (p_heap (fst rot_end)) with Some l => nth 0 l SpecFloat.S754_nan | None => SpecFloat.S754_nan end)
    = SpecFloat.S754_finite false 4503599627370496 (-105).
Proof. vm_compute. auto. Qed.
Lemma rot_not_kept : ~ const_kept (lib Bq) (p_heap rot_start) (p_heap (fst rot_end)).
Proof.
  destruct rot_facts as (_ & A & B). intros K. specialize (K 1%nat). unfold dcm_at in A, B.
  destruct (nth_error (p_heap rot_start) 1) as [v|] eqn:E; [|discriminate A].
  destruct v as [i c k]. destruct c; [|discriminate A]. specialize (K _ eq_refl eq_refl). rewrite K in B.
  destruct k; try discriminate A. rewrite A in B. discriminate B.
Qed.

(** the same with a factor whose residual is the first matrix entry of the rotation: 0 before the run, not 0 after it *)
Definition entry_res (h : list (lvar Bq)) : outcome (list Bq) :=
  let* v := hget h 1%nat in match l_kind v with KRot _ R => Ok [m00 R] | _ => UB UBSize end.
Definition entry_factor : factor (N:=Bq) (V:=lvar Bq) := Factor 11 [Some 1%nat] 1 entry_res entry_res (fun h _ => ([mempty], Ok tt)).
Definition ent_ops : list (op (N:=Bq) (V:=lvar Bq)) := rot_ops ++ [OAddFactor (Some entry_factor)].
Notation ent_start := (start (lib Bq) (solver1 Bq) env0 (nzero, true) (defaults LevenbergMarquardt 10) ent_ops).
Definition ent_end := optimize (lib Bq) (solver1 Bq) EV0 ent_start.
Definition qf (x : Bq) : SpecFloat.spec_float := @B2SF 53 1024 x.
Definition qres (h : list (lvar Bq)) : outcome (list Bq) :=
  let* a := f_res_ref f10 h in let* b := f_res_ref entry_factor h in Ok (a ++ b).
Lemma ent_facts : snd ent_end = Ok tt /\ p_caught (fst ent_end) = false /\
  qf (ss_chi2 (p_cur (fst ent_end))) = SpecFloat.S754_zero false /\
  omap (fun r => nltb (n:=Bq) (ss_chi2 (p_init (fst ent_end))) (sqnorm r)) (qres (p_heap (fst ent_end))) = Ok true /\
  omap (fun r => nltb (n:=Bq) (ss_chi2 (p_cur (fst ent_end))) (sqnorm r)) (qres (p_heap (fst ent_end))) = Ok true.
Proof. vm_compute. auto 10. Qed.
Lemma ent_stacked r : stacked (p_heap (fst ent_end)) (get_all_factors (p_graph ent_start)) r -> qres (p_heap (fst ent_end)) = Ok r.
Proof.
  assert (F : get_all_factors (p_graph ent_start) = [f10; entry_factor]) by reflexivity.
  rewrite F. generalize (p_heap (fst ent_end)) as h. intros h (rs & H & ->). inversion H as [|f x fs xs [A _] H' E1' E2']; subst. inversion H' as [|f y fs' ys [B _] H'']; subst. inversion H''; subst.
  unfold qres. rewrite A. cbn [obind]. rewrite B. cbn [obind concat]. rewrite app_nil_r. reflexivity.
Qed.

Lemma ent_stacked_ex : exists r, stacked (p_heap (fst ent_end)) (get_all_factors (p_graph ent_start)) r.
Proof.
  assert (F : get_all_factors (p_graph ent_start) = [f10; entry_factor]) by reflexivity. rewrite F.
  assert (A : match f_res_ref f10 (p_heap (fst ent_end)) with Ok x => length x = 1%nat | _ => False end) by (vm_compute; reflexivity).
  assert (B : match f_res_ref entry_factor (p_heap (fst ent_end)) with Ok x => length x = 1%nat | _ => False end) by (vm_compute; reflexivity).
  revert A B. generalize (p_heap (fst ent_end)) as h. intros h A B.
  destruct (f_res_ref f10 h) as [x|e|u] eqn:Ex; try contradiction.
  destruct (f_res_ref entry_factor h) as [y|e|u] eqn:Ey; try contradiction.
  exists (concat [x; y]). exists [x; y]. split; [|reflexivity]. constructor; [split; [exact Ex|exact A]|]. constructor; [split; [exact Ey|exact B]|constructor].
Qed.

(** ** C23: the factorisation always fails; lambda 1 is raised five times by 10 although max_lambda is 10 *)
Definition lam_set : settings (N:=B0) := Settings LevenbergMarquardt 1 (bz 0) (bz 0) (bz 1) (bz 10) (bz 10) (bq (1#2)) nunit.
Definition lam_start : bstate unit := start (lib B0) (solver_bad B0) env0 tt lam_set case_ops.
Definition lam_end := optimize (lib B0) (solver_bad B0) EV0 lam_start.
Lemma lam_facts : snd lam_end = Ok tt /\ p_caught (fst lam_end) = false /\ sf (ss_lambda (p_cur (fst lam_end))) = sf (bz 100000) /\
  nltb (n:=B0) (nmax (N:=B0) (st_lambda0 lam_set) (st_max_lambda lam_set)) (ss_lambda (p_cur (fst lam_end))) = true.
Proof. vm_compute. auto. Qed.

(** ** C25: two entries, H is the identity, the solver returns off-diagonal entries 2^1023 (finite) for the inverse *)
Definition b_big : B0 := @binary_normalize 53 1024 P53 PE mode_NE 1 1023 false.
Definition solver_big : solver B0 unit :=
  Solver B0 unit (fun _ _ => tt) (fun _ => true) (fun _ => [nunit; nunit]) (fun s b => (s, b))
    (fun s B => (s, Mat (mrows B) (mcols B) (fun i j => if (i =? j)%nat then nunit else b_big))).
Definition big_ops : list bop :=
  [ ONew (LVar 1 false (KGeneric [bz 3; bz 4])); OAddVar (Some 0%nat);
    OAddFactor (Some (generic_prior (lib B0) 10 0%nat [bz 1; bz 2] nunit)) ].
Notation big_est := (estimate_covariance (lib B0) solver_big (Some 0%nat)
  (orun (lib B0) solver_big EV0 (start (lib B0) solver_big env0 tt (defaults GaussNewton 1) big_ops) [OOptimize; OPrepare])).
Lemma big_facts : exists P, snd big_est = Ok (Some P) /\ mrows P = 2%nat /\ mcols P = 2%nat /\ nfinite (n:=B0) (mat_at P 0 1) = false.
Proof.
  assert (H : match snd big_est with Ok (Some P) => mrows P = 2%nat /\ mcols P = 2%nat /\ nfinite (n:=B0) (mat_at P 0 1) = false | _ => False end)
    by (vm_compute; auto).
  destruct (snd big_est) as [[P|]|e|u]; try contradiction. exists P. split; [reflexivity|exact H].
Qed.

(** ** C26: a factor with residual x^2 and Jacobian 2x on a GenericVariable of size 1 *)
Definition sq_res (h : list (lvar B0)) : outcome (list B0) :=
  let* v := hget h 0%nat in match kval (l_kind v) with [x] => Ok [nmul x x] | _ => UB UBSize end.
Definition sq_jac (h : list (lvar B0)) : outcome (list (mat B0)) :=
  let* v := hget h 0%nat in match kval (l_kind v) with [x] => Ok [Mat 1 1 (fun _ _ => nmul (bz 2) x)] | _ => UB UBSize end.
Definition sq_factor : factor (N:=B0) (V:=lvar B0) := Factor 10 [Some 0%nat] 1 sq_res sq_res (fun h _ => all_blocks (sq_jac h)).
Definition sq_ops : list bop := [ ONew (LVar 1 false (KGeneric [bz 2])); OAddVar (Some 0%nat); OAddFactor (Some sq_factor) ].
Definition sq_start : bstate (B0 * bool) := start (lib B0) (solver1 B0) env0 (nzero, true) (defaults GaussNewton 1) sq_ops.
Definition sq_mid := orun (lib B0) (solver1 B0) EV0 sq_start [OOptimize; OPrepare].
Definition sq_est := estimate_covariance (lib B0) (solver1 B0) (Some 0%nat) sq_mid.
(** one step from 2 to 1, where J^T J = 4; the covariance returned is the inverse of 16 *)
Lemma sq_facts : snd (optimize (lib B0) (solver1 B0) EV0 sq_start) = Ok tt /\ x_of sq_mid 0%nat = [sf (bz 1)] /\
  omap (option_map (fun P => sf (mat_at P 0 0))) (snd sq_est) = Ok (Some (sf (bq (1#16)))) /\
  omap (map (fun J => sf (mat_at J 0 0))) (sq_jac (p_heap sq_mid)) = Ok [sf (bz 2)].
Proof. vm_compute. auto. Qed.
(** second optimize() call: J^T J = 1 throughout, damping 1 for the first attempt; after the second run the solver holds
    J^T J + 1 and prepare_to_estimate_covariances() does nothing *)
Definition lin_ops : list bop := [ ONew (LVar 1 false (KGeneric [bz 2])); OAddVar (Some 0%nat);
  OAddFactor (Some (generic_prior (lib B0) 10 0%nat [bz 1] nunit)) ].
Definition lin_start : bstate (B0 * bool) := start (lib B0) (solver1 B0) env0 (nzero, true)
  (Settings LevenbergMarquardt 1 (bz 0) (bz 0) (bz 1) (bz 100) (bz 10) (bq (1#2)) nunit) lin_ops.
Definition lin_est l := estimate_covariance (lib B0) (solver1 B0) (Some 0%nat) (orun (lib B0) (solver1 B0) EV0 lin_start l).
Lemma lin_facts :
  omap (option_map (fun P => sf (mat_at P 0 0))) (snd (lin_est [OOptimize; OPrepare])) = Ok (Some (sf (bz 1))) /\
  omap (option_map (fun P => sf (mat_at P 0 0))) (snd (lin_est [OOptimize; OPrepare; OOptimize; OPrepare])) = Ok (Some (sf (bq (1#2)))).
Proof. vm_compute. auto. Qed.

(** ** C55: NaN, and a step that is short but makes things worse *)
Definition nan_ops : list bop := [ ONew (LVar 1 false (KGeneric [B754_nan : B0])); OAddVar (Some 0%nat);
  OAddFactor (Some (generic_prior (lib B0) 10 0%nat [bz 1] nunit)) ].
Definition nan_start : bstate (B0 * bool) := start (lib B0) (solver1 B0) env0 (nzero, true) (defaults GaussNewton 1) nan_ops.
Definition nan_end := optimize (lib B0) (solver1 B0) EV0 nan_start.
Lemma nan_facts : snd nan_end = Ok tt /\ ss_status (p_cur (fst nan_end)) = SUCCESS /\ ss_valid (p_cur (fst nan_end)) = true /\
  sf (ss_resnorm (p_cur (fst nan_end))) = SpecFloat.S754_nan.
Proof. vm_compute. auto. Qed.
Definition worse_ops : list bop := [ ONew (LVar 1 false (KGeneric [bq (1#10000000)])); OAddVar (Some 0%nat);
  OAddFactor (Some (generic_prior (lib B0) 10 0%nat [bz 0] nunit)) ].
Definition worse_set : settings (N:=B0) :=
  Settings GaussNewton 10 (bq (1#1000000)) (bq (1#1000000)) (bq (1#1000)) (bz 100000) (bz 10) (bq (1#2)) (bz 3).
Definition worse_start : bstate (B0 * bool) := start (lib B0) (solver1 B0) env0 (nzero, true) worse_set worse_ops.
Definition worse_end := optimize (lib B0) (solver1 B0) EV0 worse_start.
Lemma worse_facts : snd worse_end = Ok tt /\ ss_status (p_cur (fst worse_end)) = SUCCESS /\ ss_valid (p_cur (fst worse_end)) = true /\
  nltb (n:=B0) (ss_resnorm (p_init (fst worse_end))) (ss_resnorm (p_cur (fst worse_end))) = true.
Proof. vm_compute. auto. Qed.

(** ** C25: a call history with a valid result *)
Definition cov_hist : list (oop (N:=B0) (V:=lvar B0)) :=
  map OOp (case_ops ++ [OFinalize]) ++ [OSetup true (defaults GaussNewton 10); OOptimize; OPrepare].
Definition cov_est := estimate_covariance (lib B0) (solver1 B0) (Some 0%nat)
  (orun (lib B0) (solver1 B0) EV0 (ostart (nzero, true) (defaults GaussNewton 10)) cov_hist).
Lemma cov_facts : match snd cov_est with Ok (Some P) => mrows P = 1%nat /\ sf (mat_at P 0 0) = sf (bq (1#6)) | _ => False end.
Proof. vm_compute. auto. Qed.
