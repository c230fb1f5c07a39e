(** Concrete optimiser runs over the reals: a GenericVariable at 7 with two priors, 3 and 5 (optimum 4, J^T J = 2). *)
From Coq Require Import List Arith ZArith QArith Bool Reals Lra Lia Qreals.
From Verif Require Import Base Sparse Graph SpecGraph SpecOpt Geom Vars VarsLemmas FactorsLin FactorsLinFacts Optimizer OptLemmas Real SpecSolver OptToy.
Import ListNotations.

Definition rops : list (op (N:=RN) (V:=lvar RN)) :=
  [ ONew (LVar 1 false (KGeneric [7%R])); OAddVar (Some 0%nat);
    OAddFactor (Some (generic_prior (lib RN) 10 0%nat [3%R] 1%R)); OAddFactor (Some (generic_prior (lib RN) 11 0%nat [5%R] 1%R)) ].
Definition rset (m : method) : settings (N:=RN) := Settings m 1 0%R 0%R 1%R 4%R 2%R (1/2)%R 1%R.
Notation rstate := (pstate (N:=RN) (V:=lvar RN) (S:=RN * bool)).
Definition rstart (m : method) : rstate := start (lib RN) (solver1 RN) env0 (0%R, true) (rset m) rops.
Definition rl : list (env (N:=RN) (V:=lvar RN) * op (N:=RN) (V:=lvar RN)) := map (fun o => (env0, o)) rops.
Definition rs0 := run (lib RN) ([], empty_graph) rl.

Ltac rc := lazy -[Rplus Rmult Rminus Rdiv Ropp Rinv Rltb Rleb Q2R sqrt IZR Rabs sin cos tan acos Ratan2].
Lemma rfinalized m : finalized_history (lib RN) rl [] (fst rs0) (p_heap (rstart m))
    (fst (finalize_structure (lib RN) (fst rs0) (snd rs0))) (p_graph (rstart m)).
Proof. apply start_finalized. rc. reflexivity. Qed.

Lemma mbind_ok {N V S A B} (m : M (N:=N) (V:=V) (S:=S) A) (f : A -> M B) p p1 a : m p = (p1, Ok a) -> mbind m f p = f a p1.
Proof. unfold mbind. intros ->. reflexivity. Qed.
Lemma pair_eq {A B} (x y : A * B) : x = y -> fst x = fst y /\ snd x = snd y. Proof. intros ->. auto. Qed.
Lemma rtrue a b : (a < b)%R -> Rltb a b = true. Proof. apply Rltb_true. Qed.
Lemma rfalse a b : (b <= a)%R -> Rltb a b = false. Proof. apply Rltb_false. Qed.
Ltac rq := unfold Q2R; simpl Qnum; simpl Qden.
Ltac rnum := unfold Q2R; simpl Qnum; simpl Qden; repeat match goal with |- context [Rabs ?x] => rewrite (Rabs_pos_eq x) by lra end; lra.
Lemma q0 : Q2R 0 = 0%R. Proof. unfold Q2R; simpl; lra. Qed.
Lemma q1 : Q2R 1 = 1%R. Proof. unfold Q2R; simpl; lra. Qed.
Lemma qd : (1 / 1)%R = 1%R. Proof. lra. Qed.
Ltac inv3 := rewrite ?q0, ?q1, ?qd; repeat match goal with |- context [(?a / ?b)%R] =>
  lazymatch b with IZR _ => fail | _ => replace b with 3%R by lra end end.
Ltac st := erewrite mbind_ok; [|rc; reflexivity].
Ltac is_true_false :=
  rc; repeat (match goal with |- context [Rltb ?a ?b] => first [rewrite (rtrue a b) by rnum | rewrite (rfalse a b) by rnum | rewrite (rtrue a b) by (inv3; rnum)] end); reflexivity.
Ltac ifs := match goal with |- context [if ?b then ?x else ?y] =>
  first [replace (if b then x else y) with y by (replace b with false by (symmetry; is_true_false); reflexivity)
        |replace (if b then x else y) with x by (replace b with true by (symmetry; is_true_false); reflexivity)] end.
Ltac dec_lt := match goal with |- context [Rltb ?a ?b] => first [rewrite (rtrue a b) by rnum | rewrite (rfalse a b) by rnum] end.


(** optimize() with one iteration whose step succeeds *)
Section One.
Context {N : num} {V : Type} (VC : vclass N V) {S : Type} (SV : solver N S) (EV : nat -> env (N:=N) (V:=V)).
Definition begun (p : pstate (N:=N) (V:=V) (S:=S)) (g : graph (N:=N) (V:=V)) (r : list N) : pstate (N:=N) (V:=V) (S:=S) :=
  let p0 := w_caught false (w_cur (Stats true RUNNING (ss_chi2 stats0) (ss_delta stats0) (ss_resnorm stats0) 0 (ss_lambda stats0)) p) in
  let s := Stats true RUNNING (sqnorm r) (ss_delta stats0) (vnorm r) 0 (ss_lambda stats0) in
  w_init s (w_cur s (w_tick (w_graph g p0))).
Lemma optimize_one p g r p2 : p_hasgraph p = true -> compute_residual (EV (p_tick p)) (p_heap p) (p_graph p) = (g, Ok r) ->
  st_max_iter (p_set p) = 1%nat -> one_step VC SV EV (begun p g r) = (p2, Ok tt) -> ss_status (p_cur p2) = RUNNING -> p_caught p2 = false ->
  exists p', optimize VC SV EV p = (p', Ok tt) /\ p_caught p' = false /\ (ss_status (p_cur p') = SUCCESS \/ ss_status (p_cur p') = DIVERGED) /\
    p_heap p' = p_heap p2 /\ p_graph p' = p_graph p2 /\ p_solver p' = p_solver p2 /\ p_hvalid p' = p_hvalid p2 /\
    p_nbad p' = p_nbad p2 /\ ss_lambda (p_cur p') = ss_lambda (p_cur p2) /\ p_complete p' = true.
Proof.
  intros Hg Hr Hi Hs Hst Hc. unfold optimize. rewrite Hg. cbn [negb].
  change (p_tick (w_caught _ _)) with (p_tick p). change (p_heap (w_caught _ _)) with (p_heap p). change (p_graph (w_caught _ _)) with (p_graph p).
  rewrite Hr. fold (begun p g r). change (st_max_iter (p_set (begun p g r))) with (st_max_iter (p_set p)). rewrite Hi.
  cbn [opt_loop]. rewrite Hs, Hst.
  repeat match goal with |- context [if ?b then _ else _] => destruct b end; cbn; rewrite ?Hst; eexists; split; try reflexivity; cbn; auto 10.
Qed.
Lemma one_step_gn (p : pstate (N:=N) (V:=V) (S:=S)) : st_method (p_set p) = GaussNewton -> one_step VC SV EV p = gn_step VC SV EV p.
Proof. unfold one_step. intros ->. reflexivity. Qed.
Lemma one_step_lm (p : pstate (N:=N) (V:=V) (S:=S)) : st_method (p_set p) = LevenbergMarquardt -> one_step VC SV EV p = lm_step VC SV EV p.
Proof. unfold one_step. intros ->. reflexivity. Qed.
Lemma lm_loop_S n J cost dx : lm_loop VC SV EV (Datatypes.S n) J cost dx =
  ltac:(let t := eval cbn [lm_loop] in (fun n' : nat => lm_loop VC SV EV (Datatypes.S n') J cost dx) in let t' := eval cbv beta in (t n) in exact t').
Proof. reflexivity. Qed.
End One.

Definition rbegun (m : method) : rstate :=
  let c := compute_residual (EV0 (p_tick (rstart m))) (p_heap (rstart m)) (p_graph (rstart m)) in
  begun (rstart m) (fst c) (match snd c with Ok r => r | _ => [] end).
Lemma rresidual m : let c := compute_residual (EV0 (p_tick (rstart m))) (p_heap (rstart m)) (p_graph (rstart m)) in
  c = (fst c, Ok (match snd c with Ok r => r | _ => [] end)).
Proof. rc. reflexivity. Qed.

Lemma gn_real : exists p', optimize (lib RN) (solver1 RN) EV0 (rstart GaussNewton) = (p', Ok tt) /\ p_caught p' = false /\
  (ss_status (p_cur p') = SUCCESS \/ ss_status (p_cur p') = DIVERGED) /\ p_complete p' = true /\ p_hvalid p' = false /\
  (exists M, sparse_jacobian (p_graph p') = Ok M /\ mrows (sp_dense M) = 2%nat /\ mcols (sp_dense M) = 1%nat /\ mat_at (sp_dense M) 0 0 = 1%R /\ mat_at (sp_dense M) 1 0 = 1%R) /\
  variable_placement (p_graph p') 1 = Some (VPlacement 0%nat 0%nat 1%nat) /\
  p_heap p' = [LVar 1 false (KGeneric [4%R])].
Proof.
  assert (exists p2, one_step (lib RN) (solver1 RN) EV0 (rbegun GaussNewton) = (p2, Ok tt) /\ ss_status (p_cur p2) = RUNNING /\
    p_caught p2 = false /\ p_hvalid p2 = false /\
  (exists M, sparse_jacobian (p_graph p2) = Ok M /\ mrows (sp_dense M) = 2%nat /\ mcols (sp_dense M) = 1%nat /\ mat_at (sp_dense M) 0 0 = 1%R /\ mat_at (sp_dense M) 1 0 = 1%R) /\
  variable_placement (p_graph p2) 1 = Some (VPlacement 0%nat 0%nat 1%nat) /\
  p_heap p2 = [LVar 1 false (KGeneric [4%R])]) as (p2 & E2 & R1 & R2 & R3 & R4 & R5 & R6).
  2: { destruct (optimize_one (lib RN) (solver1 RN) EV0 (rstart GaussNewton) _ _ p2 eq_refl (rresidual GaussNewton) eq_refl E2 R1 R2) as (p' & H & Hc & Hs & Hh & Hg & _ & Hv & _ & _ & Hk).
    exists p'. rewrite Hv, Hg, Hh. auto 10. }
  rewrite one_step_gn by reflexivity.
  unfold gn_step. do 5 st. dec_lt. cbn [negb]. do 2 st. st.
  ifs. ifs. st. ifs. st. st. st. st. eexists. split; [rc; reflexivity|].
  split; [reflexivity|]. split; [reflexivity|]. split; [reflexivity|]. split; [|split; [rc; reflexivity|rc; repeat f_equal; rnum]].
  eexists. split; [rc; reflexivity|]. split; [rc; reflexivity|]. split; [rc; reflexivity|]. split; rc; rnum.
Qed.

(** Levenberg-Marquardt from lambda = 1: H = 3, step -2 accepted *)
Lemma lm_step_real : exists p2, lm_step (lib RN) (solver1 RN) EV0 (rbegun LevenbergMarquardt) = (p2, Ok tt) /\ ss_status (p_cur p2) = RUNNING /\
    p_caught p2 = false /\ p_nbad p2 = 0%nat /\ ss_lambda (p_cur p2) = (1/2)%R.
Proof.
  unfold lm_step. do 6 st.
  erewrite mbind_ok; [|rewrite lm_loop_S; do 4 st; ifs; do 3 st; ifs; st; ifs; do 5 st; ifs; do 2 st; reflexivity].
  cbn [fst]. st. eexists. split; [reflexivity|]. split; [reflexivity|]. split; [reflexivity|]. split; [reflexivity|].
  rc. repeat (match goal with |- context [Rltb ?a ?b] => first [rewrite (rtrue a b) by rnum | rewrite (rfalse a b) by rnum] end); lra.
Qed.
Lemma lm_real : exists p', optimize (lib RN) (solver1 RN) EV0 (rstart LevenbergMarquardt) = (p', Ok tt) /\ p_caught p' = false /\
  p_nbad p' = p_nbad (rstart LevenbergMarquardt) /\ ss_lambda (p_cur p') = (1/2)%R.
Proof.
  destruct lm_step_real as (p2 & E2 & R1 & R2 & R3 & R4).
  rewrite <- one_step_lm in E2 by reflexivity.
  destruct (optimize_one (lib RN) (solver1 RN) EV0 (rstart LevenbergMarquardt) _ _ p2 eq_refl (rresidual LevenbergMarquardt) eq_refl E2 R1 R2)
    as (p' & H & Hc & Hs & _ & _ & _ & _ & Hb & Hl & _).
  exists p'. rewrite Hb, Hl. auto.
Qed.

(** the 1x1 solver is exact *)
Lemma solver1_exact : exact_solver (solver1 RN).
Proof.
  set (okf := fun H : mat RN => ((mrows H =? 1)%nat && (mcols H =? 1)%nat && (nltb nzero (mat_at H 0 0) || nltb (mat_at H 0 0) nzero))%bool).
  assert (Hk : forall H, okf H = true -> mrows H = 1%nat /\ mcols H = 1%nat /\ (mat_at H 0 0 : R) <> 0%R).
  { unfold okf. intros H K. apply andb_prop in K. destruct K as [K K3]. apply andb_prop in K. destruct K as [K1 K2].
    apply Nat.eqb_eq in K1. apply Nat.eqb_eq in K2. split; auto. split; auto. rewrite lit_zero in K3.
    change (Rltb 0 (mat_at H 0 0) || Rltb (mat_at H 0 0) 0 = true)%bool in K3. apply orb_prop in K3. rewrite !Rltb_true in K3. lra. }
  exists (fun s H => s = ((mat_at H 0 0 : R), okf H)). split; [reflexivity|]. split.
  - intros s H b s' x Hs E. simpl in E. injection E as <- <-. split; auto. rewrite Hs. cbn [sv_ok solver1 snd fst]. intros K.
    destruct (Hk H K) as (K1 & K2 & K3). split; [rewrite K2; reflexivity|]. intros i Hi. rewrite K2. assert (i = 0%nat) by lia. subst i.
    cbn [seq map vsum fold_left nth]. cbn. unfold Q2R. simpl. field_simplify; auto; lra.
  - intros s H B s' X Hs _ E. simpl in E. injection E as <- <-. split; auto. rewrite Hs. cbn [sv_ok solver1 snd fst]. intros K.
    destruct (Hk H K) as (K1 & K2 & K3). split; [rewrite K2; reflexivity|]. split; [reflexivity|]. intros i j Hi Hj. rewrite K2. assert (i = 0%nat) by lia. subst i.
    cbn. unfold Q2R. simpl. field_simplify; auto; lra.
Qed.

(** covariance for the run [gn_real]: J = [1; 1], so 1/2 *)
Definition Jcase : mat RN := Mat 2 1 (fun _ _ => 1%R).
Lemma cov_real (p : rstate) M : p_hvalid p = false -> p_complete p = true -> sparse_jacobian (p_graph p) = Ok M ->
  mrows (sp_dense M) = 2%nat -> mcols (sp_dense M) = 1%nat -> mat_at (sp_dense M) 0 0 = 1%R -> mat_at (sp_dense M) 1 0 = 1%R ->
  variable_placement (p_graph p) 1 = Some (VPlacement 0%nat 0%nat 1%nat) -> p_heap p = [LVar 1 false (KGeneric [4%R])] ->
  exists p1 P, prepare (solver1 RN) p = (p1, Ok tt) /\
    snd (estimate_covariance (lib RN) (solver1 RN) (Some 0%nat) p1) = Ok (Some P) /\ mrows P = 1%nat /\ mcols P = 1%nat /\ mat_at P 0 0 = (1/2)%R.
Proof.
  intros Hv Hk HM R1 R2 E0 E1 Hp Hh.
  assert (HJ : mat_at (jtj (sp_dense M)) 0 0 = 2%R).
  { unfold jtj, mmul, mtrans. cbn [mat_at mrows mcols]. rewrite R1. cbn [seq map]. unfold vsum. cbn [fold_left]. rewrite E0, E1. cbn. rnum. }
  assert (HR : mrows (jtj (sp_dense M)) = 1%nat /\ mcols (jtj (sp_dense M)) = 1%nat) by (unfold jtj, mmul, mtrans; simpl; auto).
  assert (Hsol : sv_compute (solver1 RN) (p_solver p) (jtj (sp_dense M)) = (2%R, true)).
  { cbn [sv_compute solver1]. destruct HR as [-> ->]. rewrite HJ. cbn [Nat.eqb andb]. f_equal. change (nltb (n:=RN)) with Rltb.
    rewrite lit_zero. rewrite (rtrue 0 2) by lra. reflexivity. }
  eexists. eexists. split; [|split].
  - unfold prepare. rewrite Hv, Hk. cbn [negb]. erewrite mbind_ok; [|rewrite HM; reflexivity].
    erewrite mbind_ok; [|reflexivity]. erewrite mbind_ok; [|unfold m_factorize; cbn [w_hess p_solver]; rewrite Hsol; reflexivity].
    cbn [negb sv_ok solver1 snd]. erewrite mbind_ok; [|reflexivity]. erewrite mbind_ok; [|reflexivity]. reflexivity.
  - unfold estimate_covariance. cbn [p_heap w_hvalid w_nfact w_solver w_hess p_graph p_complete p_hvalid p_hess p_solver].
    rewrite Hh, Hk. cbn [hget nth_error]. cbn [vconst vsize lib l_const l_kind ksize length Nat.eqb orb negb].
    destruct HR as [-> ->]. cbn [Nat.eqb orb]. cbn [vid lib l_id]. rewrite Hp. cbn [vp_index vp_dim Nat.add Nat.leb negb].
    cbn [sv_solve_mat solver1 fst snd sv_ok negb mrows mcols Nat.leb andb]. 
    unfold all_finite. cbn [mrows mcols seq forallb nfinite RN andb negb]. unfold vmax, diag_of. cbn [mrows seq map fold_left].
    match goal with |- context [if nltb ?a ?b then _ else _] => replace (nltb a b) with false end; [reflexivity|].
    symmetry. change (nltb (n:=RN)) with Rltb. apply rfalse. cbn [mat_at Nat.add Nat.eqb]. cbn. rnum.
  - split; [reflexivity|]. split; [reflexivity|]. cbn [mat_at symmetrise mrows mcols Nat.leb Nat.add Nat.eqb]. cbn. rnum.
Qed.
