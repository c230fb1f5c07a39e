(** Gauss-Newton in other units. *)
From Coq Require Import List Arith ZArith QArith Bool Reals Lra Lia.
From Verif Require Import Base Sparse Graph SpecGraph SpecOpt Geom Vars VarsLemmas FactorLib SpecShape Real SpecSolver Optimizer SpecSteps OptStepsLib SpecTwin TwinGraph SpecBlocks SpecChange Change ChangeRun SpecUnits UnitsVars UnitsRead UnitsFactors.
Import ListNotations.
Local Open Scope nat_scope.
Set Bullet Behavior "Strict Subproofs".

Section Run.
Context (u : addr -> nat -> R) (k : R).
Hypothesis Hu : forall a i, (0 < u a i)%R.
Hypothesis Hk : (0 < k)%R.
Notation RV := (rescaled_var u).
Notation heap := (@heap (lvar RN)).

Lemma measured (f f' : factor (N:=RN) (V:=lvar RN)) : same_measurement u k f f' -> f_rsize f' = f_rsize f /\ f_vars f' = f_vars f.
Proof. intros H. apply (measurements_scaled u k Hu Hk) in H. destruct H as (A & B & _). auto. Qed.
Lemma idz_units (h h' : heap) a : heaps RV h h' -> idz (lib RN) h' a = idz (lib RN) h a.
Proof. intros H. specialize (H a). unfold idz. destruct (nth_error h a), (nth_error h' a); try contradiction; auto. cbn. symmetry. apply H. Qed.
Lemma wf_units (h h' : heap) vs f f' : heaps RV h h' -> same_measurement u k f f' -> factor_wf (lib RN) h vs f -> factor_wf (lib RN) h' vs f'.
Proof.
  intros H M (A & B & C). destruct (measured f f' M) as (R1 & R2). unfold factor_wf. rewrite R1, R2. split; [exact A|]. split.
  - intros p Hp. destruct (B p Hp) as (a & v & -> & Ev & D & F). pose proof (H a) as Ha. rewrite Ev in Ha. destruct (nth_error h' a) as [v'|] eqn:Ev'; [|contradiction]. exists a, v'. split; [reflexivity|]. split; [exact Ev'|]. split.
    + cbn. rewrite (ksize_times u a v v' Ha). destruct Ha as (_ & <- & _). exact D.
    + intros b Hb. rewrite !(idz_units h h' _ H). apply F. exact Hb.
  - erewrite filter_ext; [exact C|]. intros [a|]; [|reflexivity]. rewrite (heaps_wide u h h' a H). reflexivity.
Qed.
Lemma active_units (h h' : heap) fs fs' : heaps RV h h' -> Forall2 (same_measurement u k) fs fs' -> some_active (lib RN) h fs -> some_active (lib RN) h' fs'.
Proof.
  intros H M (f & a & v & Hf & Ha & Ev & Hc). induction M as [|g g' fs fs' Mg M IH]; [destruct Hf|]. destruct Hf as [->|Hf].
  - pose proof (H a) as X. rewrite Ev in X. destruct (nth_error h' a) as [v'|] eqn:Ev'; [|contradiction]. exists g', a, v'. split; [left; reflexivity|]. rewrite (proj2 (measured _ _ Mg)). split; [exact Ha|]. split; [exact Ev'|]. cbn in *. destruct X as (_ & <- & _). exact Hc.
  - destruct (IH Hf) as (f' & b & w & X1 & X2). exists f', b, w. split; [right; exact X1|exact X2].
Qed.

Context {S S' : Type} (SV : solver RN S) (SV' : solver RN S') (EV EV' : nat -> env (N:=RN) (V:=lvar RN)).
Hypothesis HE : forall n, env_ok (EV n).
Hypothesis HE' : forall n, env_ok (EV' n).
Hypothesis HX : exact_solver SV.
Hypothesis HF' : factorising_solver SV'.
Theorem other_units l1 l1' l2 l2' h1 h1' g1 g1' (p p' : pstate (S:=S)) (q q' : pstate (S:=S')) :
  finalized_history (lib RN) l1 l2 h1 (p_heap p) g1 (p_graph p) -> unfinalized (lib RN) ([], empty_graph) l1 -> careful ([], empty_graph) l1 -> careful (h1, g1) l2 ->
  finalized_history (lib RN) l1' l2' h1' (p_heap q) g1' (p_graph q) -> unfinalized (lib RN) ([], empty_graph) l1' -> careful ([], empty_graph) l1' -> careful (h1', g1') l2' ->
  let vs := get_all_variables (p_graph p) in let fs := get_all_factors (p_graph p) in let fs' := get_all_factors (p_graph q) in
  heaps RV (p_heap p) (p_heap q) -> get_all_variables (p_graph q) = vs -> Forall2 (same_measurement u k) fs fs' ->
  Forall (factor_wf (lib RN) (p_heap p) vs) fs -> some_active (lib RN) (p_heap p) fs ->
  st_method (p_set p) = GaussNewton -> st_method (p_set q) = GaussNewton -> st_rate (p_set p) = st_rate (p_set q) ->
  optimize (lib RN) SV EV p = (p', Ok tt) -> optimize (lib RN) SV' EV' q = (q', Ok tt) -> p_caught p' = false -> p_caught q' = false ->
  ss_iter (p_cur p') = ss_iter (p_cur q') ->
  heaps RV (p_heap p') (p_heap q') /\
  forall r r', stacked (p_heap p') fs r -> stacked (p_heap q') fs' r' -> sqnorm (N:=RN) r = (k * k * sqnorm (N:=RN) r')%R.
Proof.
  intros A B C C2 A' B' C' C2' vs fs fs' Hh Ev M W Ac Hm Hm' Er E E' Hc Hc' Hi.
  destruct (lib_history _ _ _ _ _ _ A C C2) as (G1 & G2). destruct (lib_history _ _ _ _ _ _ A' C' C2') as (G1' & G2').
  assert (CH : forall h h', heaps RV h h' -> Forall2 (changed (lib RN) (stretch u) (/ (k * k)) h h' vs) fs fs').
  { intros h h' H. clear -M H Hu Hk. induction M as [|f f' fs0 fs0' Mf M IH]; constructor; auto. apply (scaled_changed u k f f' h h' vs Hk); [apply (measurements_scaled u k Hu Hk); exact Mf|exact H]. }
  assert (W' : Forall (factor_wf (lib RN) (p_heap q) vs) fs').
  { clear -M W Hh Hu Hk. induction M as [|f f' fs0 fs0' Mf M IH]; constructor; inversion W; subst; auto. eapply wf_units; eauto. }
  destruct (other_coordinates (lib RN) SV SV' EV EV' lib_ok HE HE' HX HF' RV (stretch u) (/ (k * k))%R _ _ _ _ _ _ _ _ p p' q q' A B A' B' (units_coordinates u Hu) Hh Ev CH W W' Ac
    (active_units _ _ _ _ Hh M Ac) G1 G1' G2 G2' Hm Hm' Er E E' Hc Hc' Hi) as (R1 & R2).
  split; [exact R1|]. intros r r' X X'. rewrite (R2 r r' X X'). change (car RN) with R in *. generalize (sqnorm (N:=RN) r). intros z. rewrite <- Rmult_assoc, Rinv_r by nra. symmetry. apply Rmult_1_l.
Qed.
End Run.
