(** Covariances after Gauss-Newton runs on graphs filled in another order, and on an unconnected part. *)
From Coq Require Import List Arith ZArith QArith Bool Lia Permutation Reals Lra.
From Verif Require Import Base Sparse Graph SpecGraph SpecOpt ListLemmas GraphLayout GraphFin GraphBasic GraphVec GraphDense Optimizer OptLemmas OptWork OptLM OptRun OptMore Real RSum SpecSolver Gram SpecSteps OptSteps SpecBlocks OptVerdict OptOrder OptOrderRun
  SpecPart OptPart OptCov SpecCov OptLastReal CovRun SpecMarginal Marginal MarginalMore.
Import ListNotations.
Local Open Scope nat_scope.
Set Bullet Behavior "Strict Subproofs".

Section Single.
Context {V : Type} (VC : vclass RN V) {S : Type} (SV : solver RN S) (EV : nat -> env (N:=RN) (V:=V)).
Notation pstate := (pstate (N:=RN) (V:=V) (S:=S)).
Hypothesis Hok : vclass_ok VC.
Hypothesis HE : forall n, env_ok (EV n).
Hypothesis HF : factorising_solver SV.
Lemma sound_uncaught (p p' : pstate) : optimize VC SV EV p = (p', Ok tt) -> ~ failure (ss_status (p_cur p')) -> p_caught p' = false.
Proof.
  intros E Nf. apply optimize_ok in E. destruct E as (Hg & g & r0 & p2 & Cr & L & ->). destruct (p_caught (end_run p2)) eqn:Hc; [exfalso|reflexivity].
  assert (X : p_caught p2 = true /\ (ss_status (p_cur p2) = FAILED -> ss_status (p_cur (end_run p2)) = FAILED)).
  { revert Hc. unfold end_run. destruct (ss_status (p_cur p2)) eqn:Es; cbn; intros Hc; split; auto; try congruence; discriminate. }
  destruct X as (X1 & X2). apply Nf. left. apply X2. eapply (opt_loop_caught VC SV EV HE); [|exact L|exact X1]. reflexivity.
Qed.
Lemma firm_same rate vs fs h h1 h2 : NoDup vs -> firm VC rate vs fs h h1 -> firm VC rate vs fs h h2 -> h1 = h2.
Proof.
  intros Nd (s & s1 & A) (t & s2 & B). destruct B as (r & J & x & r2 & B1 & B2 & B3 & B4 & B5 & B6 & _).
  refine (proj1 (made_same VC vs vs fs fs rate h s h1 s1 h2 _ (Permutation_refl _) (Permutation_refl _) Nd A _)).
  exists r, J, x, r2. split; [exact B1|]. split; [exact B2|]. split; [exact B3|]. split; [exact B4|]. split; [exact B5|]. split; [exact B6|]. reflexivity.
Qed.
Lemma moves_same rate vs fs k : NoDup vs -> forall h h1 h2, moves (firm VC rate vs fs) k h h1 -> moves (firm VC rate vs fs) k h h2 -> h1 = h2.
Proof.
  intros Nd. induction k; intros h h1 h2 M1 M2; inversion M1; inversion M2; subst; [reflexivity|].
  match goal with A : moves _ k h ?a, B : moves _ k h ?b |- _ => tryif unify a b then fail else pose proof (IHk _ _ _ A B) as X end. subst. eapply firm_same; eauto.
Qed.
Lemma gn_firm l1 l2 h1 g1 (p p' : pstate) :
  finalized_history VC l1 l2 h1 (p_heap p) g1 (p_graph p) -> unfinalized VC ([], empty_graph) l1 ->
  let vs := get_all_variables (p_graph p) in let fs := get_all_factors (p_graph p) in
  Forall (factor_wf VC (p_heap p) vs) fs -> some_active VC (p_heap p) fs -> Forall buf_indep fs -> shape_contract VC (p_heap p) fs ->
  st_method (p_set p) = GaussNewton -> optimize VC SV EV p = (p', Ok tt) -> p_caught p' = false ->
  moves (firm VC (st_rate (p_set p)) vs fs) (ss_iter (p_cur p')) (p_heap p) (p_heap p').
Proof.
  intros A B vs fs W Ac Bf Sh Hm E Hc. apply optimize_ok in E. destruct E as (Hg & g & r0 & p2 & Cr & L & ->).
  destruct (begun_on VC EV Hok HE _ _ _ _ p g r0 A Cr) as (On & Hl).
  assert (X : p_heap (end_run p2) = p_heap p2 /\ p_caught (end_run p2) = p_caught p2 /\ ss_iter (p_cur (end_run p2)) = ss_iter (p_cur p2)).
  { unfold end_run. destruct (ss_status (p_cur p2)); auto. }
  destruct X as (X1 & X2 & X3). rewrite X1, X3. rewrite X2 in Hc.
  destruct (gn_run_firm VC SV EV Hok HE HF l1 h1 g1 (p_heap p) vs fs B Hl W Ac Bf Sh (st_max_iter (p_set p)) (begin_run g r0 p) p2) as (k & M & K); auto.
  { split; cbn; auto. }
  cbn in M, K. rewrite K. exact M.
Qed.
Theorem run_answers l1 l2 h1 g1 (p p' : pstate) :
  finalized_history VC l1 l2 h1 (p_heap p) g1 (p_graph p) -> unfinalized VC ([], empty_graph) l1 ->
  let vs := get_all_variables (p_graph p) in let fs := get_all_factors (p_graph p) in
  Forall (factor_wf VC (p_heap p) vs) fs -> some_active VC (p_heap p) fs -> Forall buf_indep fs -> shape_contract VC (p_heap p) fs ->
  st_method (p_set p) = GaussNewton -> 1 <= st_max_iter (p_set p) -> p_hvalid p = false -> optimize VC SV EV p = (p', Ok tt) -> ~ failure (ss_status (p_cur p')) ->
  exists j q p1, ss_iter (p_cur p') = Datatypes.S j /\ optimize VC SV EV (limit j p) = (q, Ok tt) /\ p_caught q = false /\ ss_status (p_cur q) = SUCCESS /\ ss_iter (p_cur q) = j /\
    prepare SV p' = (p1, Ok tt) /\ (forall f, In f fs -> exists js, f_jac f (p_heap q) [] = (js, Ok tt)) /\ (forall d, ~ unnoticed VC (p_heap q) vs fs d) /\ (forall a, In a vs -> width VC (p_heap q) a = width VC (p_heap p) a) /\
    answers VC (p_heap q) vs fs (fun a => snd (estimate_covariance VC SV (Some a) p1)).
Proof.
  intros A B vs fs W Ac Bf Sh Hm Hn Hv E Nf. pose proof (sound_uncaught p p' E Nf) as Hc.
  destruct (last_covariances VC SV EV Hok HE HF (fun _ => True) l1 l2 h1 g1 p p' A B W Ac Bf Sh (or_introl Hm) Hn Hv E Hc) as (j & q & J & p1 & J1 & J2 & J3 & J4 & J5 & J6 & J7 & J8 & J9 & R1 & R2).
  fold vs fs in J7, J9. exists j, q, p1. split; [destruct J6 as [J6|(_ & X & _)]; [exact J6|contradiction]|].
  assert (Hl : Forall (fun a => a < length (p_heap p)) vs).
  { destruct (finalized_facts VC Hok _ _ _ _ _ _ A) as (_ & Hf & _). exact (ri_live _ _ _ (fin_reg _ _ _ Hf)). }
  assert (Wd : forall h a, revalued VC (p_heap p) h -> In a vs -> width VC h a = width VC (p_heap p) a).
  { intros h a Hr Ha. rewrite Forall_forall in Hl. apply (revalued_width VC Hok); auto. }
  split; [exact J2|]. split; [exact J3|]. split; [exact J4|]. split; [exact J5|]. split; [exact J8|].
  split; [exact (Change.jacobian_jac VC _ _ _ _ J7)|].
  assert (Nd : NoDup vs) by (destruct (finalized_facts VC Hok _ _ _ _ _ _ A) as (_ & Hf & _); exact (vars_nodup VC _ _ Hf)).
  split.
  { intros d Hd. destruct (proj1 (unnoticed_matrix VC (p_heap q) vs fs J Nd J7) (ex_intro _ d Hd)) as (x & Hx).
    assert (Ei : ss_iter (p_cur p') = Datatypes.S j) by (destruct J6 as [J6|(_ & X & _)]; [exact J6|contradiction]).
    pose proof (gn_firm l1 l2 h1 g1 p p' A B W Ac Bf Sh Hm E Hc) as M. rewrite Ei in M.
    pose proof (gn_firm l1 l2 h1 g1 (limit j p) q A B W Ac Bf Sh Hm J2 J3) as M'. rewrite J5 in M'. cbn in M'. fold vs fs in M, M'.
    inversion M as [|k0 a0 b0 c0 Y Z]; subst. pose proof (moves_same _ _ _ _ Nd _ _ _ Y M') as Q. subst b0.
    destruct Z as (s & s1 & r & J' & x' & r2 & _ & B2 & B3 & _).
    destruct (jacobian_unique _ _ _ _ _ _ J7 B2) as (U1 & U2 & U3). apply (B3 x). destruct Hx as (H1 & H2 & H3). rewrite U1, U2 in *.
    split; [exact H1|]. split; [exact H2|]. intros i Hi. etransitivity; [|exact (H3 i Hi)]. apply rsum_ext. intros c Hc'. rewrite U3 by auto. reflexivity. }
  split; [intros a Ha; apply Wd; assumption|].
  apply (reports_answers VC (p_heap q) (p_heap p') vs fs J); [|exact J7| | |exact J9].
  - destruct (finalized_facts VC Hok _ _ _ _ _ _ A) as (_ & Hf & _). exact (vars_nodup VC _ _ Hf).
  - intros a Ha. rewrite (Wd (p_heap p') a R2 Ha), (Wd (p_heap q) a R1 Ha). reflexivity.
  - intros a Ha. rewrite Forall_forall in Hl. destruct (nth_error (p_heap p) a) as [v|] eqn:Ev; [|apply nth_error_None in Ev; specialize (Hl a Ha); lia].
    destruct (revalued_hpres VC Hok _ _ R2 a v Ev) as (v' & Ev' & _). eauto.
Qed.
End Single.

Section Two.
Context {V : Type} (VC : vclass RN V) {S S' : Type} (SV : solver RN S) (SV' : solver RN S').
Context (EV EV' : nat -> env (N:=RN) (V:=V)).
Hypothesis Hok : vclass_ok VC.
Hypothesis HE : forall n, env_ok (EV n).
Hypothesis HE' : forall n, env_ok (EV' n).
Hypothesis HF : factorising_solver SV.
Hypothesis HF' : factorising_solver SV'.

Theorem order_covariances l1 l1' l2 l2' h1 h1' g1 g1' (p p' : pstate (S:=S)) (q q' : pstate (S:=S')) :
  finalized_history VC l1 l2 h1 (p_heap p) g1 (p_graph p) -> unfinalized VC ([], empty_graph) l1 ->
  finalized_history VC l1' l2' h1' (p_heap q) g1' (p_graph q) -> unfinalized VC ([], empty_graph) l1' ->
  let vs := get_all_variables (p_graph p) in let fs := get_all_factors (p_graph p) in
  Permutation vs (get_all_variables (p_graph q)) -> Permutation fs (get_all_factors (p_graph q)) -> p_heap p = p_heap q -> p_set p = p_set q ->
  Forall (factor_wf VC (p_heap p) vs) fs -> some_active VC (p_heap p) fs -> Forall buf_indep fs -> shape_contract VC (p_heap p) fs ->
  st_method (p_set p) = GaussNewton -> 1 <= st_max_iter (p_set p) -> p_hvalid p = false -> p_hvalid q = false ->
  optimize VC SV EV p = (p', Ok tt) -> optimize VC SV' EV' q = (q', Ok tt) ->
  ~ failure (ss_status (p_cur p')) -> ~ failure (ss_status (p_cur q')) ->
  exists p1 q1, prepare SV p' = (p1, Ok tt) /\ prepare SV' q' = (q1, Ok tt) /\
    forall b, In b vs -> 0 < width VC (p_heap p) b -> same_answer (snd (estimate_covariance VC SV (Some b) p1)) (snd (estimate_covariance VC SV' (Some b) q1)).
Proof.
  intros A B A' B' vs fs Pv Pf Eh Es W Ac Bf Sh Hm Hn Hv Hv' E E' Nf Nf'.
  destruct (order_free VC SV SV' EV EV' Hok HE HE' HF HF' l1 l1' l2 l2' h1 h1' g1 g1' p p' q q' A B A' B' Pv Pf Eh Es W Ac Bf Sh Hm E E' Nf Nf') as (_ & Ec & _).
  destruct (run_answers VC SV EV Hok HE HF l1 l2 h1 g1 p p' A B W Ac Bf Sh Hm Hn Hv E Nf) as (j & r & p1 & J1 & J2 & J3 & J4 & J5 & J6 & J7 & Jn & J8 & J9).
  set (vs' := get_all_variables (p_graph q)) in *. set (fs' := get_all_factors (p_graph q)) in *.
  assert (Wf' : Forall (factor_wf VC (p_heap q) vs') fs').
  { rewrite <- Eh. rewrite Forall_forall in W |- *. intros f Hf. specialize (W f (Permutation_in f (Permutation_sym Pf) Hf)). destruct W as (W1 & W2 & W3). split; [exact W1|]. split; [|exact W3].
    intros o Ho. destruct (W2 o Ho) as (a & v & X1 & X2 & X3 & X4). exists a, v. split; [exact X1|]. split; [exact X2|]. split.
    - intros X. destruct (X3 X) as (X5 & X6). split; [exact (Permutation_in a Pv X5)|exact X6].
    - intros b Hb. apply X4. exact (Permutation_in b (Permutation_sym Pv) Hb). }
  assert (Ac' : some_active VC (p_heap q) fs').
  { rewrite <- Eh. destruct Ac as (f & a & v & X & Y). exists f, a, v. split; [exact (Permutation_in f Pf X)|exact Y]. }
  assert (Bf' : Forall buf_indep fs') by (rewrite Forall_forall in *; intros f Hf; apply Bf; exact (Permutation_in f (Permutation_sym Pf) Hf)).
  assert (Sh' : shape_contract VC (p_heap q) fs').
  { rewrite <- Eh. intros h f js X Y. apply Sh; [exact X|exact (Permutation_in f (Permutation_sym Pf) Y)]. }
  destruct (run_answers VC SV' EV' Hok HE' HF' l1' l2' h1' g1' q q' A' B' Wf' Ac' Bf' Sh' ltac:(rewrite <- Es; exact Hm) ltac:(rewrite <- Es; exact Hn) Hv' E' Nf') as (j' & r' & q1 & K1 & K2 & K3 & K4 & K5 & K6 & K7 & Kn & K8 & K9).
  fold vs' fs' in K7, K8, K9. fold vs fs in J7, J8, J9. assert (j' = j) as -> by (rewrite <- Ec in K1; lia).
  destruct (order_free VC SV SV' EV EV' Hok HE HE' HF HF' l1 l1' l2 l2' h1 h1' g1 g1' (limit j p) r (limit j q) r' A B A' B' Pv Pf Eh (f_equal (st_k j) Es) W Ac Bf Sh Hm J2 K2) as (Eh' & _);
    [intros [X|[X|X]]; congruence|intros [X|[X|X]]; congruence|].
  rewrite <- Eh' in K9. exists p1, q1. split; [exact J6|]. split; [exact K6|]. intros b Hb Wb. rewrite <- (J8 b Hb) in Wb. exact (answers_perm VC _ _ _ _ _ _ _ Pv Pf J9 K9 b Hb Wb).
Qed.

Theorem part_covariances l1 l1' l2 l2' h1 h1' g1 g1' (p p' : pstate (S:=S)) (q q' : pstate (S:=S')) :
  finalized_history VC l1 l2 h1 (p_heap p) g1 (p_graph p) -> unfinalized VC ([], empty_graph) l1 ->
  finalized_history VC l1' l2' h1' (p_heap q) g1' (p_graph q) -> unfinalized VC ([], empty_graph) l1' ->
  let vs := get_all_variables (p_graph p) in let fs := get_all_factors (p_graph p) in
  let vs' := get_all_variables (p_graph q) in let fs' := get_all_factors (p_graph q) in
  p_heap p = p_heap q -> part_of_graph VC (p_heap p) vs vs' fs fs' ->
  Forall (factor_wf VC (p_heap p) vs) fs -> Forall (factor_wf VC (p_heap p) vs') fs' -> some_active VC (p_heap p) fs' ->
  Forall buf_indep fs -> shape_contract VC (p_heap p) fs -> Forall reads_only fs' ->
  st_method (p_set p) = GaussNewton -> st_method (p_set q) = GaussNewton -> st_rate (p_set p) = st_rate (p_set q) ->
  1 <= st_max_iter (p_set p) -> 1 <= st_max_iter (p_set q) -> p_hvalid p = false -> p_hvalid q = false ->
  optimize VC SV EV p = (p', Ok tt) -> optimize VC SV' EV' q = (q', Ok tt) -> ~ failure (ss_status (p_cur p')) -> ~ failure (ss_status (p_cur q')) ->
  ss_iter (p_cur p') = ss_iter (p_cur q') ->
  exists p1 q1, prepare SV p' = (p1, Ok tt) /\ prepare SV' q' = (q1, Ok tt) /\
    forall b, In b vs' -> 0 < width VC (p_heap p) b -> same_answer (snd (estimate_covariance VC SV (Some b) p1)) (snd (estimate_covariance VC SV' (Some b) q1)).
Proof.
  intros A B A' B' vs fs vs' fs' Eh Hp W W' Ac' Bf Sh Rd Hm Hm' Er Hn Hn' Hv Hv' E E' Nf Nf' Hi.
  assert (If : forall f, In f fs' -> In f fs) by (intros f Hf; destruct Hp as (_ & rest & P & _); eapply Permutation_in; [apply Permutation_sym; exact P|apply in_app_iff; auto]).
  assert (Ac : some_active VC (p_heap p) fs) by (destruct Ac' as (f & b & v & X & Y); exists f, b, v; auto).
  assert (Bf' : Forall buf_indep fs') by (rewrite Forall_forall in *; auto).
  assert (Sh' : shape_contract VC (p_heap q) fs') by (rewrite <- Eh; intros h f js X Y; apply Sh; auto).
  destruct (run_answers VC SV EV Hok HE HF l1 l2 h1 g1 p p' A B W Ac Bf Sh Hm Hn Hv E Nf) as (j & r & p1 & J1 & J2 & J3 & J4 & J5 & J6 & J7 & Jn & J8 & J9).
  assert (W1 : Forall (factor_wf VC (p_heap q) vs') fs') by (rewrite <- Eh; exact W').
  assert (Ac1 : some_active VC (p_heap q) fs') by (rewrite <- Eh; exact Ac').
  destruct (run_answers VC SV' EV' Hok HE' HF' l1' l2' h1' g1' q q' A' B' W1 Ac1 Bf' Sh' Hm' Hn' Hv' E' Nf') as (j' & r' & q1 & K1 & K2 & K3 & K4 & K5 & K6 & K7 & Kn & K8 & K9).
  fold vs' fs' in K7, K8, K9. fold vs fs in J7, J8, J9.
  destruct (part_inside VC SV SV' EV EV' Hok HE HE' (factorising_exact SV HF) HF' l1 l1' l2 l2' h1 h1' g1 g1' (limit j p) r (limit j' q) r' A B A' B' Eh Hp W W' Ac' Bf Sh Rd Hm Hm' Er J2 K2 J3 K3 ltac:(lia)) as (L1 & L2 & HI).
  destruct (finalized_facts VC Hok _ _ _ _ _ _ A) as (_ & Fp & _). destruct (finalized_facts VC Hok _ _ _ _ _ _ A') as (_ & Fq & _).
  pose proof (vars_nodup VC _ _ Fp) as Nd. pose proof (vars_nodup VC _ _ Fq) as Nd'.
  exists p1, q1. split; [exact J6|]. split; [exact K6|].
  destruct (answers_part VC (p_heap p) vs vs' fs fs' Nd Nd' Hp W' Rd (p_heap r) (p_heap r') L1 L2 HI _ _ J9 K9) as [((d & X) & _)|X].
  - exfalso. exact (Jn d X).
  - intros b Hb Wb. apply X; [exact Hb|]. rewrite (like_width VC _ _ b L1). exact Wb.
Qed.
End Two.
