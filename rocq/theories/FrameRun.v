(** Gauss-Newton and the covariances in another planar frame. *)
From Coq Require Import List Arith ZArith QArith Bool Reals Lra Lia.
From Verif Require Import Base Sparse Graph SpecGraph SpecOpt ListLemmas GraphFin Geom Vars VarsLemmas FactorLib SpecShape Real RSum SpecSolver Gram Optimizer OptWork OptMore SpecSteps OptSteps OptStepsLib SpecTwin TwinGraph SpecBlocks SpecChange Change ChangeRun
  SpecMarginal Marginal MarginalMore MarginalRun SpecFrame FrameVars FrameFactors.
Import ListNotations.
Local Open Scope nat_scope.
Set Bullet Behavior "Strict Subproofs".

Section Run.
Context (phi tx ty : R) (ro : addr -> role).
Notation RV := (reframed_var phi tx ty ro).
Notation heap := (@heap (lvar RN)).
Notation same := (same_in_frame phi tx ty ro).

Lemma framed (f f' : factor (N:=RN) (V:=lvar RN)) : same f f' -> f_rsize f' = f_rsize f /\ f_vars f' = f_vars f.
Proof. intros H. apply measurements_framed in H. destruct H as (A & B & _). auto. Qed.
Lemma idz_frame (h h' : heap) a : heaps RV h h' -> idz (lib RN) h' a = idz (lib RN) h a.
Proof. intros H. specialize (H a). unfold idz. destruct (nth_error h a), (nth_error h' a); try contradiction; auto. cbn. symmetry. apply H. Qed.
Lemma wf_frame (h h' : heap) vs f f' : heaps RV h h' -> same f f' -> factor_wf (lib RN) h vs f -> factor_wf (lib RN) h' vs f'.
Proof.
  intros H M (A & B & C). destruct (framed f f' M) as (R1 & R2). unfold factor_wf. rewrite R1, R2. split; [exact A|]. split.
  - intros p Hp. destruct (B p Hp) as (a & v & -> & Ev & D & F). pose proof (H a) as Ha. rewrite Ev in Ha. destruct (nth_error h' a) as [v'|] eqn:Ev'; [|contradiction]. exists a, v'. split; [reflexivity|]. split; [exact Ev'|]. split.
    + cbn. rewrite (reframed_size phi tx ty ro a v v' Ha). destruct Ha as (_ & <- & _). exact D.
    + intros b Hb. rewrite !(idz_frame h h' _ H). apply F. exact Hb.
  - erewrite filter_ext; [exact C|]. intros [a|]; [|reflexivity]. rewrite (wide_turned phi tx ty ro h h' a H). reflexivity.
Qed.
Lemma active_frame (h h' : heap) fs fs' : heaps RV h h' -> Forall2 same fs fs' -> some_active (lib RN) h fs -> some_active (lib RN) h' fs'.
Proof.
  intros H M (f & a & v & Hf & Ha & Ev & Hc). induction M as [|g g' fs fs' Mg M IH]; [destruct Hf|]. destruct Hf as [->|Hf].
  - pose proof (H a) as X. rewrite Ev in X. destruct (nth_error h' a) as [v'|] eqn:Ev'; [|contradiction]. exists g', a, v'. split; [left; reflexivity|]. rewrite (proj2 (framed _ _ Mg)). split; [exact Ha|]. split; [exact Ev'|]. cbn in *. destruct X as (_ & <- & _). exact Hc.
  - destruct (IH Hf) as (f' & b & w & X1 & X2). exists f', b, w. split; [right; exact X1|exact X2].
Qed.

Context {S S' : Type} (SV : solver RN S) (SV' : solver RN S') (EV EV' : nat -> env (N:=RN) (V:=lvar RN)).
Hypothesis HE : forall n, env_ok (EV n).
Hypothesis HE' : forall n, env_ok (EV' n).
Lemma all_framed vs (fs fs' : list (factor (N:=RN) (V:=lvar RN))) h h' : Forall2 same fs fs' -> heaps RV h h' -> Forall2 (changed (lib RN) (turning_of phi ro) 1 h h' vs) fs fs'.
Proof. intros M H. induction M as [|f f' fs0 fs0' Mf M IH]; constructor; auto. apply (framed_changed phi tx ty); [apply measurements_framed; exact Mf|exact H]. Qed.
Theorem other_frame l1 l1' l2 l2' h1 h1' g1 g1' (p p' : pstate (S:=S)) (q q' : pstate (S:=S')) : exact_solver SV -> factorising_solver SV' ->
  finalized_history (lib RN) l1 l2 h1 (p_heap p) g1 (p_graph p) -> unfinalized (lib RN) ([], empty_graph) l1 -> careful ([], empty_graph) l1 -> careful (h1, g1) l2 ->
  finalized_history (lib RN) l1' l2' h1' (p_heap q) g1' (p_graph q) -> unfinalized (lib RN) ([], empty_graph) l1' -> careful ([], empty_graph) l1' -> careful (h1', g1') l2' ->
  let vs := get_all_variables (p_graph p) in let fs := get_all_factors (p_graph p) in let fs' := get_all_factors (p_graph q) in
  heaps RV (p_heap p) (p_heap q) -> get_all_variables (p_graph q) = vs -> Forall2 same fs fs' ->
  Forall (factor_wf (lib RN) (p_heap p) vs) fs -> some_active (lib RN) (p_heap p) fs ->
  st_method (p_set p) = GaussNewton -> st_method (p_set q) = GaussNewton -> st_rate (p_set p) = st_rate (p_set q) ->
  optimize (lib RN) SV EV p = (p', Ok tt) -> optimize (lib RN) SV' EV' q = (q', Ok tt) -> p_caught p' = false -> p_caught q' = false ->
  ss_iter (p_cur p') = ss_iter (p_cur q') ->
  heaps RV (p_heap p') (p_heap q') /\
  forall r r', stacked (p_heap p') fs r -> stacked (p_heap q') fs' r' -> sqnorm (N:=RN) r = sqnorm (N:=RN) r'.
Proof.
  intros HX HF' A B C C2 A' B' C' C2' vs fs fs' Hh Ev M W Ac Hm Hm' Er E E' Hc Hc' Hi.
  destruct (lib_history _ _ _ _ _ _ A C C2) as (G1 & G2). destruct (lib_history _ _ _ _ _ _ A' C' C2') as (G1' & G2').
  assert (W' : Forall (factor_wf (lib RN) (p_heap q) vs) fs').
  { clear -M W Hh. induction M as [|f f' fs0 fs0' Mf M IH]; constructor; inversion W; subst; auto. eapply wf_frame; eauto. }
  destruct (other_coordinates (lib RN) SV SV' EV EV' lib_ok HE HE' HX HF' RV (turning_of phi ro) 1%R _ _ _ _ _ _ _ _ p p' q q' A B A' B' (frame_coordinates phi tx ty ro) Hh Ev (fun h h' => all_framed vs fs fs' h h' M) W W' Ac
    (active_frame _ _ _ _ Hh M Ac) G1 G1' G2 G2' Hm Hm' Er E E' Hc Hc' Hi) as (R1 & R2).
  split; [exact R1|]. intros r r' X X'. rewrite (R2 r r' X X'). symmetry. apply Rmult_1_l.
Qed.
Theorem frame_covariances l1 l1' l2 l2' h1 h1' g1 g1' (p p' : pstate (S:=S)) (q q' : pstate (S:=S')) : factorising_solver SV -> factorising_solver SV' ->
  finalized_history (lib RN) l1 l2 h1 (p_heap p) g1 (p_graph p) -> unfinalized (lib RN) ([], empty_graph) l1 -> careful ([], empty_graph) l1 -> careful (h1, g1) l2 ->
  finalized_history (lib RN) l1' l2' h1' (p_heap q) g1' (p_graph q) -> unfinalized (lib RN) ([], empty_graph) l1' -> careful ([], empty_graph) l1' -> careful (h1', g1') l2' ->
  let vs := get_all_variables (p_graph p) in let fs := get_all_factors (p_graph p) in let fs' := get_all_factors (p_graph q) in
  heaps RV (p_heap p) (p_heap q) -> get_all_variables (p_graph q) = vs -> Forall2 same fs fs' ->
  Forall (factor_wf (lib RN) (p_heap p) vs) fs -> some_active (lib RN) (p_heap p) fs ->
  st_method (p_set p) = GaussNewton -> st_method (p_set q) = GaussNewton -> st_rate (p_set p) = st_rate (p_set q) ->
  1 <= st_max_iter (p_set p) -> 1 <= st_max_iter (p_set q) -> p_hvalid p = false -> p_hvalid q = false ->
  optimize (lib RN) SV EV p = (p', Ok tt) -> optimize (lib RN) SV' EV' q = (q', Ok tt) -> ~ failure (ss_status (p_cur p')) -> ~ failure (ss_status (p_cur q')) ->
  ss_iter (p_cur p') = ss_iter (p_cur q') ->
  exists p1 q1, prepare SV p' = (p1, Ok tt) /\ prepare SV' q' = (q1, Ok tt) /\
    forall b, In b vs -> 0 < width (lib RN) (p_heap p) b -> exists P Q, let n := width (lib RN) (p_heap p) b in
      mrows P = n /\ mcols P = n /\ mrows Q = n /\ mcols Q = n /\
      (forall i j, i < n -> j < n -> mat_at Q i j = rsum n (fun c => rsum n (fun c' => turning_of phi ro b i c * mat_at P c c' * turning_of phi ro b j c')%R)) /\
      answer n P (snd (estimate_covariance (lib RN) SV (Some b) p1)) /\ answer n Q (snd (estimate_covariance (lib RN) SV' (Some b) q1)).
Proof.
  intros HF HF' A B C C2 A' B' C' C2' vs fs fs' Hh Ev M W Ac Hm Hm' Er Hn Hn' Hv Hv' E E' Nf Nf' Hi.
  destruct (lib_history _ _ _ _ _ _ A C C2) as (G1 & G2). destruct (lib_history _ _ _ _ _ _ A' C' C2') as (G1' & G2').
  assert (W' : Forall (factor_wf (lib RN) (p_heap q) (get_all_variables (p_graph q))) fs').
  { rewrite Ev. clear -M W Hh. induction M as [|f f' fs0 fs0' Mf M IH]; constructor; inversion W; subst; auto. eapply wf_frame; eauto. }
  assert (Ac' := active_frame _ _ _ _ Hh M Ac).
  destruct (run_answers (lib RN) SV EV lib_ok HE HF l1 l2 h1 g1 p p' A B W Ac G1 G2 Hm Hn Hv E Nf) as (j & r & p1 & J1 & J2 & J3 & J4 & J5 & J6 & J7 & Jn & J8 & J9).
  destruct (run_answers (lib RN) SV' EV' lib_ok HE' HF' l1' l2' h1' g1' q q' A' B' W' Ac' G1' G2' Hm' Hn' Hv' E' Nf') as (j' & r' & q1 & K1 & K2 & K3 & K4 & K5 & K6 & K7 & Kn & K8 & K9).
  fold fs' in K7, Kn, K9. rewrite Ev in Kn, K8, K9. fold vs fs in J7, Jn, J8, J9.
  destruct (other_frame l1 l1' l2 l2' h1 h1' g1 g1' (limit j p) r (limit j' q) r' (factorising_exact SV HF) HF' A B C C2 A' B' C' C2' Hh Ev M W Ac Hm Hm' Er J2 K2 J3 K3 ltac:(lia)) as (Hr & _).
  exists p1, q1. split; [exact J6|]. split; [exact K6|]. intros b Hb Wb.
  destruct J9 as [((d & Hd) & _)|(_ & J9)]; [exfalso; exact (Jn d Hd)|]. destruct K9 as [((d & Hd) & _)|(_ & K9)]; [exfalso; exact (Kn d Hd)|].
  assert (Wh : forall a, width (lib RN) (p_heap r') a = width (lib RN) (p_heap r) a) by (intros a; exact (wide_turned phi tx ty ro _ _ a Hr)).
  destruct (J9 b Hb ltac:(rewrite (J8 b Hb); exact Wb)) as (P & MP & AP). destruct (K9 b Hb ltac:(rewrite Wh, (J8 b Hb); exact Wb)) as (Q & MQ & AQ).
  rewrite (J8 b Hb) in AP. rewrite Wh, (J8 b Hb) in AQ.
  exists P, Q. cbn zeta. pose proof MP as (P1 & P2 & _). pose proof MQ as (Q1 & Q2 & _). rewrite Wh, (J8 b Hb) in Q1, Q2. rewrite (J8 b Hb) in P1, P2.
  split; [exact P1|]. split; [exact P2|]. split; [exact Q1|]. split; [exact Q2|]. split; [|split; [exact AP|exact AQ]].
  destruct (marginal_changed (lib RN) (turning_of phi ro) (fun a e c => turning_of phi ro a c e) 1%R (p_heap r) (p_heap r') vs fs fs' Rlt_0_1) with (b := b) (P := P) (P' := Q) as (_ & _ & X); auto.
  - intros a c c' _ Hc Hc'. unfold turning_of. destruct (ro a) eqn:Er'; [apply turning_inverse; auto; apply (wide_enough phi tx ty ro _ _ a c Hr); [rewrite Er'; discriminate|exact Hc]..|].
    rewrite (still_sum _ c (fun e => if (c' =? e)%nat then 1 else 0)%R Hc). rewrite Nat.eqb_sym. reflexivity.
  - exact (all_framed vs fs fs' _ _ M Hr).
  - intros i j0 Hi' Hj. rewrite (X i j0); [|rewrite P1; exact Hi'|rewrite P2; exact Hj]. rewrite P1, P2, Rinv_1. apply Rmult_1_l.
Qed.
End Run.
