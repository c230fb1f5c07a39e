(** Gauss-Newton on graphs whose variables can move by similarities without any measurement noticing. *)
From Coq Require Import List Arith ZArith Bool Reals Lra Lia.
From Verif Require Import Base Sparse Graph SpecGraph SpecOpt GraphLayout Geom Vars VarsLemmas FactorLib SpecShape FactorSafe Optimizer Real RSum
  SpecSolver SpecSteps SpecBlocks SpecFactor OptStepsLib GaugeSum GaugeRun SpecSimilar SimilarFactors SimilarRest.
Import ListNotations.
Local Open Scope nat_scope.
Set Bullet Behavior "Strict Subproofs".

Lemma overlooked_zero (h : rheap) u vs (fs : list (factor (N:=RN) (V:=lvar RN))) J : NoDup vs -> Forall (factor_wf (lib RN) h vs) fs -> Forall (overlooked h u) fs ->
  jacobian_at (lib RN) h vs fs J -> forall f i, In f fs -> i < f_rsize f -> first_order (lib RN) h vs (fun a c => nth c (field h u a) 0%R) f i = 0%R.
Proof.
  intros Nd W U (jss & F & _) f i Hf Hi. rewrite Forall_forall in W, U. destruct (U f Hf) as (lf & -> & Wl & In0).
  assert (exists js, f_jac (build lf) h [] = (js, Ok tt)) as (js & E).
  { clear -F Hf. induction F as [|g js fs jss E F IH]; [destruct Hf|]. destruct Hf as [->|Hf]; eauto. }
  rewrite (first_order_response h (field h u) vs _ js i Nd (W _ Hf) E). exact (lib_overlooks h u lf Wl In0 js i E Hi).
Qed.
Lemma field_width (h : rheap) u a c : c < width (lib RN) h a -> nth c (field h u a) 0%R = rate h u a c.
Proof.
  intros Hc. unfold width in Hc. destruct (nth_error h a) as [v|] eqn:Hv; [|lia]. apply (field_nth h u a v c Hv). cbn [vconst vsize lib] in Hc. destruct (l_const v); [lia|exact Hc].
Qed.
(** what no measurement notices, no Jacobian sees *)
Lemma motion_unobservable (h : rheap) u vs (fs : list (factor (N:=RN) (V:=lvar RN))) J : NoDup vs -> Forall (factor_wf (lib RN) h vs) fs -> Forall (overlooked h u) fs -> in_motion h u vs ->
  jacobian_at (lib RN) h vs fs J -> exists x, unobservable J x.
Proof.
  intros Nd W U (a & c & Ha & Hc & Hs) HJ. apply (first_order_unobservable (lib RN) h vs fs J (fun a c => nth c (field h u a) 0%R) HJ).
  - apply (overlooked_zero _ _ _ _ J Nd W U HJ).
  - exists a, c. split; [exact Ha|]. split; [exact Hc|]. rewrite (field_width _ _ _ _ Hc). exact Hs.
Qed.

Theorem similar_fails {S : Type} (SV : solver RN S) (EV : nat -> env (N:=RN) (V:=lvar RN)) :
  (forall n, env_ok (EV n)) -> factorising_solver SV ->
  forall l1 l2 h1 g1 (p p' : pstate (N:=RN) (V:=lvar RN) (S:=S)) u,
  finalized_history (lib RN) l1 l2 h1 (p_heap p) g1 (p_graph p) -> unfinalized (lib RN) ([], empty_graph) l1 ->
  careful ([], empty_graph) l1 -> careful (h1, g1) l2 ->
  let vs := get_all_variables (p_graph p) in let fs := get_all_factors (p_graph p) in
  Forall (factor_wf (lib RN) (p_heap p) vs) fs -> some_active (lib RN) (p_heap p) fs ->
  Forall (overlooked (p_heap p) u) fs -> in_motion (p_heap p) u vs ->
  st_method (p_set p) = GaussNewton -> 1 <= st_max_iter (p_set p) ->
  optimize (lib RN) SV EV p = (p', Ok tt) -> p_caught p' = false ->
  ss_status (p_cur p') = FAILED /\ p_heap p' = p_heap p /\ ss_iter (p_cur p') = 0.
Proof.
  intros HE HF l1 l2 h1 g1 p p' u Hi Hu C1 C2 vs fs Hwf Hact Hun Mo Hm Hn E Hca. destruct (lib_history _ _ _ _ _ _ Hi C1 C2) as (B1 & B2).
  apply (gn_blind (lib RN) SV EV lib_ok HE HF l1 l2 h1 g1 p p' Hi Hu Hwf Hact B1 B2 Hm Hn); auto. intros J HJ.
  exact (motion_unobservable _ _ _ _ J (history_nodup _ _ _ _ _ _ Hi) Hwf Hun Mo HJ).
Qed.
