(** Measurements that agree with the estimate do not change the gradient. *)
From Coq Require Import List Arith ZArith QArith Bool Lia Permutation Reals Lra.
From Verif Require Import Base Sparse Graph SpecGraph SpecOpt ListLemmas GraphLayout GraphFin GraphBasic GraphVec Optimizer OptLemmas OptWork OptMore Real RSum SpecSolver SpecSteps OptSteps OptVerdict SpecBlocks OptOrder OptOrderRun OptPart Change Info MarginalRun ContractRun OptFacts OptEnds SpecRest RestRun SpecAgree.
From Verif Require Import Geom Vars VarsLemmas FactorLib SpecShape OptStepsLib CovRun.
Import ListNotations.
Local Open Scope nat_scope.
Set Bullet Behavior "Strict Subproofs".

Section Sums.
Context {V : Type} (VC : vclass RN V).
Notation factor := (factor (N:=RN) (V:=V)).
Definition pull (h : @heap V) (fs : list factor) a c : R := lsum fs (fun f => rsum (f_rsize f) (fun i => deriv h f a i c * resid h f i))%R.
Lemma nth_rep n i : nth i (repeat 0%R n) 0%R = 0%R.
Proof. revert i. induction n; intros [|i]; cbn; auto. Qed.
Lemma first_order_none (h : @heap V) vs (f : factor) i : first_order VC h vs (fun _ _ => 0%R) f i = 0%R.
Proof. unfold first_order. apply lsum_zero. intros b _. apply rsum_zero. intros. ring. Qed.
(** the gradient, block by block *)
Lemma stationary_pull (h : @heap V) vs (fs : list factor) r J : stacked h fs r -> jacobian_at VC h vs fs J ->
  (stationary VC h vs fs <-> forall a c, In a vs -> c < width VC h a -> pull h fs a c = 0%R).
Proof.
  intros Hr HJ. set (x := repeat 0%R (mcols J)).
  assert (Px : parts (width VC h) vs x (fun _ _ => 0%R)).
  { split; [unfold x; rewrite repeat_length; exact (proj1 (proj2 (jacobian_parts VC _ _ _ _ HJ)))|]. intros k a c _ _. apply nth_rep. }
  pose proof (equations VC 0 h vs fs J r x _ HJ Hr Px) as Q.
  assert (B : block_solution VC 0 h vs fs (fun _ _ => 0%R) <-> forall a c, In a vs -> c < width VC h a -> pull h fs a c = 0%R).
  { unfold block_solution. split; intros H a c Ha Hc; specialize (H a c Ha Hc).
    - rewrite <- H. unfold pull. rewrite Rmult_0_r, Rplus_0_r. apply lsum_ext. intros f _. apply rsum_ext. intros i _. rewrite first_order_none. ring.
    - rewrite Rmult_0_r, Rplus_0_r. etransitivity; [|exact H]. unfold pull. apply lsum_ext. intros f _. apply rsum_ext. intros i _. rewrite first_order_none. ring. }
  assert (Z : forall K i, rsum (mcols K) (fun j => rsum (mrows K) (fun k => mat_at K k i * mat_at K k j) * nth j x 0)%R = 0%R).
  { intros K i. apply rsum_zero. intros j _. unfold x. rewrite nth_rep. ring. }
  rewrite <- B, <- Q. split.
  - intros (r0 & J0 & S1 & S2 & S3). pose proof (stacked_fun _ _ _ _ S1 Hr) as ->. destruct (jacobian_unique VC _ _ _ _ _ S2 HJ) as (U1 & U2 & U3).
    split; [unfold x; apply repeat_length|]. intros i Hi. rewrite Z. unfold x at 1. rewrite nth_rep.
    assert (G : rsum (mrows J) (fun k => mat_at J k i * nth k r 0)%R = 0%R).
    { rewrite <- U2 in Hi. etransitivity; [|exact (S3 i Hi)]. rewrite <- U1. apply rsum_ext. intros k Hk. rewrite (U3 k i Hk Hi). reflexivity. }
    match goal with |- ?l = (- ?w)%R => transitivity (- 0)%R; [ring|f_equal; symmetry; exact G] end.
  - intros (_ & D). exists r, J. split; [exact Hr|]. split; [exact HJ|]. intros i Hi. specialize (D i Hi). rewrite Z in D. unfold x at 1 in D. rewrite nth_rep in D.
    apply (f_equal Ropp) in D. rewrite Ropp_involutive in D. etransitivity; [symmetry; exact D|]. match goal with |- ?a = ?b => change (@eq R a b) end. ring.
Qed.
Lemma agrees_resid (h : @heap V) (f : factor) i : agrees h f -> resid h f i = 0%R.
Proof.
  intros (x & E & Z). unfold resid. rewrite E. change (car RN) with R in *. destruct (lt_dec i (length x)) as [L|L]; [apply Z; apply nth_In; exact L|apply nth_overflow; apply Nat.le_ngt; exact L].
Qed.
Lemma pull_grown (h : @heap V) vs vs' (fs fs' : list factor) a c : grown_agreeing h vs vs' fs fs' -> pull h fs' a c = pull h fs a c.
Proof.
  intros (_ & more & P & A). unfold pull. rewrite (lsum_perm _ _ _ P), lsum_app. rewrite (lsum_zero more); [ring|].
  intros f Hf. rewrite Forall_forall in A. apply rsum_zero. intros i _. rewrite (agrees_resid h f i (A f Hf)). ring.
Qed.
Lemma outside (h : @heap V) vs (fs : list factor) a c : Forall (factor_wf VC h vs) fs -> ~ In a vs -> c < width VC h a -> pull h fs a c = 0%R.
Proof.
  intros W Ha Hw. unfold pull. apply lsum_zero. intros f Hf. apply rsum_zero. intros i _. unfold deriv. destruct (listed_at a (f_vars f)) as [k|] eqn:El; [|ring]. exfalso.
  apply listed_in in El. rewrite Forall_forall in W. destruct (W f Hf) as (_ & W1 & _). destruct (W1 (Some a) El) as (a' & v & Ea & Ev & W2 & _). injection Ea as <-.
  unfold width in Hw. rewrite Ev in Hw. destruct (vconst VC v); [lia|]. apply Ha. apply W2. reflexivity.
Qed.
Theorem stationary_grown (h : @heap V) vs vs' (fs fs' : list factor) r' J' : Forall (factor_wf VC h vs) fs -> grown_agreeing h vs vs' fs fs' ->
  stacked h fs' r' -> jacobian_at VC h vs' fs' J' -> stationary VC h vs fs -> stationary VC h vs' fs'.
Proof.
  intros W G Hr HJ St. apply (proj2 (stationary_pull h vs' fs' r' J' Hr HJ)). intros a c Ha Hc. rewrite (pull_grown h vs vs' fs fs' a c G).
  destruct (in_dec Nat.eq_dec a vs) as [I|I]; [|exact (outside h vs fs a c W I Hc)].
  pose proof St as (r & J & S1 & S2 & _). exact (proj1 (stationary_pull h vs fs r J S1 S2) St a c I Hc).
Qed.
Theorem stationary_shrunk (h : @heap V) vs vs' (fs fs' : list factor) r J : grown_agreeing h vs vs' fs fs' ->
  stacked h fs r -> jacobian_at VC h vs fs J -> stationary VC h vs' fs' -> stationary VC h vs fs.
Proof.
  intros G Hr HJ St. apply (proj2 (stationary_pull h vs fs r J Hr HJ)). intros a c Ha Hc. rewrite <- (pull_grown h vs vs' fs fs' a c G).
  pose proof St as (r' & J' & S1 & S2 & _). exact (proj1 (stationary_pull h vs' fs' r' J' S1 S2) St a c (proj1 G a Ha) Hc).
Qed.
Lemma same_cost (h : @heap V) vs vs' (fs fs' : list factor) r r' : grown_agreeing h vs vs' fs fs' -> stacked h fs r -> stacked h fs' r' -> sqnorm (N:=RN) r' = sqnorm (N:=RN) r.
Proof.
  intros (_ & more & P & A) S1 S2. rewrite (parts_sq _ _ _ _ (stacked_parts _ _ _ S1)), (parts_sq _ _ _ _ (stacked_parts _ _ _ S2)).
  rewrite (lsum_perm _ _ _ P), lsum_app. rewrite (lsum_zero more); [apply Rplus_0_r|].
  intros f Hf. rewrite Forall_forall in A. apply rsum_zero. intros i _. rewrite (agrees_resid h f i (A f Hf)). ring.
Qed.
End Sums.

Section Runs.
Context {V : Type} (VC : vclass RN V) {S : Type} (SV : solver RN S) (EV : nat -> env (N:=RN) (V:=V)).
Notation pstate := (pstate (N:=RN) (V:=V) (S:=S)).
Hypothesis Hok : vclass_ok VC.
Hypothesis HE : forall n, env_ok (EV n).
Hypothesis HF : factorising_solver SV.
Section Given.
Context (l1 l2 : list (env (N:=RN) (V:=V) * op (N:=RN) (V:=V))) (h1 : @heap V) (g1 : graph (N:=RN) (V:=V)) (q : pstate).
Let vs' := get_all_variables (p_graph q).
Let fs' := get_all_factors (p_graph q).
Hypothesis HFi : finalized_history VC l1 l2 h1 (p_heap q) g1 (p_graph q).
Hypothesis Hu : unfinalized VC ([], empty_graph) l1.
Hypothesis Hwf : Forall (factor_wf VC (p_heap q) vs') fs'.
Hypothesis Hact : some_active VC (p_heap q) fs'.
Hypothesis Hbuf : Forall buf_indep fs'.
Hypothesis Hsh : shape_contract VC (p_heap q) fs'.
(** if the gradient vanishes wherever there is one, Gauss-Newton does not move *)
Lemma gn_still q' : (forall r J, stacked (p_heap q) fs' r -> jacobian_at VC (p_heap q) vs' fs' J -> stationary VC (p_heap q) vs' fs') -> all_rest VC (p_heap q) vs' ->
  st_method (p_set q) = GaussNewton -> optimize VC SV EV q = (q', Ok tt) -> p_caught q' = false ->
  p_heap q' = p_heap q /\ ss_chi2 (p_cur q') = ss_chi2 (p_init q') /\
  (ss_status (p_cur q') = SUCCESS \/ (ss_status (p_cur q') = FAILED \/ ss_status (p_cur q') = SINGULAR_HESSIAN \/ ss_status (p_cur q') = ILL_CONDITIONED) /\
     exists J, jacobian_at VC (p_heap q) vs' fs' J /\ verdict (ss_status (p_cur q')) J).
Proof.
  intros St Re Hm E Hc. pose proof (gn_firm VC SV EV Hok HE HF l1 l2 h1 g1 q q' HFi Hu Hwf Hact Hbuf Hsh Hm E Hc) as M. fold vs' fs' in M.
  destruct (ss_iter (p_cur q')) as [|k] eqn:Ek.
  - inversion M as [a Ha|]; subst a. split; [reflexivity|]. 
    destruct (stats_gn VC SV EV Hok HE l1 l2 h1 g1 q q' HFi Hm E Hc) as (r0 & r1 & A & B & C1 & _ & D1 & _). fold fs' in A, B.
    match goal with H : p_heap q = p_heap q' |- _ => rewrite <- H in B end. rewrite (stacked_fun _ _ _ _ B A) in D1. split; [congruence|].
    destruct (Classical_Prop.classic (failure (ss_status (p_cur q')))) as [Fa|Fa].
    + right. split; [exact Fa|]. destruct (gn_failure_codes VC SV EV Hok HE HF l1 l2 h1 g1 q q' HFi Hu Hwf Hact Hbuf Hsh Hm E Hc Fa) as (J & J1 & J2). exists J. split; [match goal with H : p_heap q = p_heap q' |- _ => rewrite H; exact J1 end|exact J2].
    + left. destruct (status_facts VC SV EV q q' E) as (S1 & _).
      assert (K : ss_status (p_cur q') = SUCCESS \/ ss_status (p_cur q') = DIVERGED).
      { destruct (ss_status (p_cur q')) eqn:Es; auto; try congruence; exfalso; apply Fa; unfold failure; auto. }
      destruct (run_ends VC SV EV HE q q' E Hc K) as (_ & _ & _ & [(_ & K4)|(j & z & Kj & _)]); [exact K4|rewrite Ek in Kj; discriminate].
  - destruct (moves_first _ _ _ _ M) as (b & s & s1 & r & J & x & r2 & Hr & HJ & _).
    destruct (gn_stays VC SV EV Hok HE HF l1 l2 h1 g1 q HFi Hu Hwf Hact Hbuf Hsh (St r J Hr HJ) Re q' Hm E Hc) as (A & B & [(C & _)|(C & _ & D)]); (split; [exact A|]; split; [exact B|]); [left; exact C|right; split; [exact C|exact D]].
Qed.
Lemma lm_still (I : V -> Prop) q' : let st := p_set q in (forall r J, stacked (p_heap q) fs' r -> jacobian_at VC (p_heap q) vs' fs' J -> stationary VC (p_heap q) vs' fs') -> all_rest VC (p_heap q) vs' ->
  undoable VC I -> (forall a v, nth_error (p_heap q) a = Some v -> I v) -> (0 < st_lambda0 st)%R -> (0 < st_up st)%R -> (0 < st_max_lambda st)%R ->
  st_method st = LevenbergMarquardt -> 1 <= st_max_iter st -> optimize VC SV EV q = (q', Ok tt) -> p_caught q' = false -> p_heap q' = p_heap q.
Proof.
  intros st St Re HI Hh L0 U T Hm Hn E Hc.
  destruct (lm_path VC SV EV Hok HE I l1 l2 h1 g1 q q' HI Hh HF HFi Hu Hwf Hact Hbuf Hsh Hm Hn E Hc) as (k & _ & M). fold vs' fs' in M.
  destruct k as [|k]; [inversion M; reflexivity|].
  assert (G : stationary VC (p_heap q) vs' fs').
  { destruct (stats_lm VC SV EV Hok HE I l1 l2 h1 g1 q q' HI real_order HFi Hh Hm E Hc) as (r0 & r1 & A & _). fold fs' in A.
    destruct (moves_first _ _ _ _ M) as (b & Mb). inversion Mb as [? ? J A1 _|? ? ? ? ? (r & J & x & A1 & A2 & _) _ _ _|? ? ? ? ? (r & J & x & A1 & A2 & _) _ _ _]; subst; eauto. }
  exact (proj1 (lm_stays VC SV EV Hok HE HF l1 l2 h1 g1 q HFi Hu Hwf Hact Hbuf Hsh G Re I q' HI Hh L0 U T Hm Hn E Hc)).
Qed.
End Given.
End Runs.

Section Two.
Context {V : Type} (VC : vclass RN V) {S S' : Type} (SV : solver RN S) (SV' : solver RN S') (EV EV' : nat -> env (N:=RN) (V:=V)).
Hypothesis Hok : vclass_ok VC.
Hypothesis HE : forall n, env_ok (EV n).
Hypothesis HE' : forall n, env_ok (EV' n).
Hypothesis HF : factorising_solver SV.
Hypothesis HF' : factorising_solver SV'.
Theorem agreeing_run l1 l1' l2 l2' h1 h1' g1 g1' (p p' : pstate (N:=RN) (V:=V) (S:=S)) (q q' : pstate (N:=RN) (V:=V) (S:=S')) :
  finalized_history VC l1 l2 h1 (p_heap p) g1 (p_graph p) -> unfinalized VC ([], empty_graph) l1 ->
  finalized_history VC l1' l2' h1' (p_heap q) g1' (p_graph q) -> unfinalized VC ([], empty_graph) l1' ->
  let vs := get_all_variables (p_graph p) in let fs := get_all_factors (p_graph p) in let vs' := get_all_variables (p_graph q) in let fs' := get_all_factors (p_graph q) in
  Forall (factor_wf VC (p_heap p) vs) fs -> some_active VC (p_heap p) fs -> Forall buf_indep fs -> shape_contract VC (p_heap p) fs ->
  Forall (factor_wf VC (p_heap q) vs') fs' -> some_active VC (p_heap q) fs' -> Forall buf_indep fs' -> shape_contract VC (p_heap q) fs' ->
  all_responsive VC (p_heap p) vs -> st_rate (p_set p) <> 0%R -> all_rest VC (p_heap q) vs' ->
  st_method (p_set p) = GaussNewton -> st_max_iter (p_set p) = 1 -> optimize VC SV EV p = (p', Ok tt) -> ss_status (p_cur p') = SUCCESS -> p_heap p' = p_heap p ->
  p_heap q = p_heap p -> grown_agreeing (p_heap q) vs vs' fs fs' ->
  st_method (p_set q) = GaussNewton -> optimize VC SV' EV' q = (q', Ok tt) -> p_caught q' = false ->
  p_heap q' = p_heap q /\ ss_chi2 (p_cur q') = ss_chi2 (p_cur p') /\
  (ss_status (p_cur q') = SUCCESS \/ (ss_status (p_cur q') = FAILED \/ ss_status (p_cur q') = SINGULAR_HESSIAN \/ ss_status (p_cur q') = ILL_CONDITIONED) /\
     exists J, jacobian_at VC (p_heap q) vs' fs' J /\ verdict (ss_status (p_cur q')) J).
Proof.
  intros A B A' B' vs fs vs' fs' W Ac Bf Sh W' Ac' Bf' Sh' Rp Rt Re Hm Hn E Hs Hh Eh G Hm' E' Hc'.
  pose proof (gn_rests_only_there VC SV EV Hok HE HF l1 l2 h1 g1 p p' A B W Ac Bf Sh Rp Rt Hm Hn E Hs Hh) as St. fold vs fs in St.
  assert (St' : stationary VC (p_heap q) vs fs) by (rewrite Eh; exact St). assert (Wq : Forall (factor_wf VC (p_heap q) vs) fs) by (rewrite Eh; exact W).
  destruct (gn_still VC SV' EV' Hok HE' HF' l1' l2' h1' g1' q A' B' W' Ac' Bf' Sh' q' (fun r J Hr HJ => stationary_grown VC (p_heap q) vs vs' fs fs' r J Wq G Hr HJ St') Re Hm' E' Hc') as (X & Y & Z).
  split; [exact X|]. split; [|exact Z].
  pose proof (uncaught VC SV EV Hok HE l1 l2 h1 g1 p p' A E Hs) as Hc.
  destruct (stats_gn VC SV EV Hok HE l1 l2 h1 g1 p p' A Hm E Hc) as (r0 & r1 & _ & S1 & _ & _ & S2 & _). destruct (stats_gn VC SV' EV' Hok HE' l1' l2' h1' g1' q q' A' Hm' E' Hc') as (s0 & s1 & _ & T1 & _ & _ & T2 & _).
  fold fs in S1. fold fs' in T1. rewrite S2, T2. apply (same_cost (p_heap q) vs vs' fs fs'); [exact G|rewrite Eh, <- Hh; exact S1|rewrite <- X; exact T1].
Qed.
Theorem agreeing_stays l1 l2 h1 g1 (q : pstate (N:=RN) (V:=V) (S:=S)) vs fs (I : V -> Prop) q' :
  let vs' := get_all_variables (p_graph q) in let fs' := get_all_factors (p_graph q) in let st := p_set q in
  finalized_history VC l1 l2 h1 (p_heap q) g1 (p_graph q) -> unfinalized VC ([], empty_graph) l1 ->
  Forall (factor_wf VC (p_heap q) vs') fs' -> some_active VC (p_heap q) fs' -> Forall buf_indep fs' -> shape_contract VC (p_heap q) fs' ->
  Forall (factor_wf VC (p_heap q) vs) fs -> stationary VC (p_heap q) vs fs -> all_rest VC (p_heap q) vs' -> grown_agreeing (p_heap q) vs vs' fs fs' ->
  st_method st = GaussNewton \/
    undoable VC I /\ (forall a v, nth_error (p_heap q) a = Some v -> I v) /\ (0 < st_lambda0 st)%R /\ (0 < st_up st)%R /\ (0 < st_max_lambda st)%R /\ 1 <= st_max_iter st ->
  optimize VC SV EV q = (q', Ok tt) -> p_caught q' = false -> p_heap q' = p_heap q.
Proof.
  intros vs' fs' st A B W' Ac' Bf' Sh' W St Re G Hm E Hc.
  pose proof (fun r J Hr HJ => stationary_grown VC (p_heap q) vs vs' fs fs' r J W G Hr HJ St) as St'.
  destruct (st_method (p_set q)) eqn:Em.
  - exact (proj1 (gn_still VC SV EV Hok HE HF l1 l2 h1 g1 q A B W' Ac' Bf' Sh' q' St' Re Em E Hc)).
  - destruct Hm as [Hm|(H1 & H2 & H3 & H4 & H5 & H6)]; [unfold st in Hm; congruence|].
    exact (lm_still VC SV EV Hok HE HF l1 l2 h1 g1 q A B W' Ac' Bf' Sh' I q' St' Re H1 H2 H3 H4 H5 Em H6 E Hc).
Qed.
Theorem shrunk_stays l1 l2 h1 g1 (q : pstate (N:=RN) (V:=V) (S:=S)) vs' fs' (I : V -> Prop) q' :
  let vs := get_all_variables (p_graph q) in let fs := get_all_factors (p_graph q) in let st := p_set q in
  finalized_history VC l1 l2 h1 (p_heap q) g1 (p_graph q) -> unfinalized VC ([], empty_graph) l1 ->
  Forall (factor_wf VC (p_heap q) vs) fs -> some_active VC (p_heap q) fs -> Forall buf_indep fs -> shape_contract VC (p_heap q) fs ->
  stationary VC (p_heap q) vs' fs' -> all_rest VC (p_heap q) vs -> grown_agreeing (p_heap q) vs vs' fs fs' ->
  st_method st = GaussNewton \/
    undoable VC I /\ (forall a v, nth_error (p_heap q) a = Some v -> I v) /\ (0 < st_lambda0 st)%R /\ (0 < st_up st)%R /\ (0 < st_max_lambda st)%R /\ 1 <= st_max_iter st ->
  optimize VC SV EV q = (q', Ok tt) -> p_caught q' = false -> p_heap q' = p_heap q.
Proof.
  intros vs fs st A B W Ac Bf Sh St Re G Hm E Hc.
  pose proof (fun r J Hr HJ => stationary_shrunk VC (p_heap q) vs vs' fs fs' r J G Hr HJ St) as St'.
  destruct (st_method (p_set q)) eqn:Em.
  - exact (proj1 (gn_still VC SV EV Hok HE HF l1 l2 h1 g1 q A B W Ac Bf Sh q' St' Re Em E Hc)).
  - destruct Hm as [Hm|(H1 & H2 & H3 & H4 & H5 & H6)]; [unfold st in Hm; congruence|].
    exact (lm_still VC SV EV Hok HE HF l1 l2 h1 g1 q A B W Ac Bf Sh I q' St' Re H1 H2 H3 H4 H5 Em H6 E Hc).
Qed.
End Two.
