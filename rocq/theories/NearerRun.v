(** Levenberg-Marquardt runs on linear problems. *)
From Coq Require Import List Arith ZArith QArith Bool Reals Lra Lia.
From Verif Require Import Base Sparse Graph SpecGraph SpecOpt ListLemmas GraphLayout GraphFin GraphBasic GraphVec GraphDense GraphVec Optimizer OptLemmas OptWork OptRun OptMore OptFacts OptReal Real RSum SpecSolver SpecSteps OptSteps OptLinear OptVerdict SpecRest CovRun Info SpecContract Contract ContractRun SpecNearer Nearer.
From Verif Require Import Geom Vars VarsLemmas FactorLib SpecShape FactorSafe OptStepsLib ContractLib.
Import ListNotations.
Local Open Scope nat_scope.
Set Bullet Behavior "Strict Subproofs".

Section Run.
Context {V : Type} (VC : vclass RN V) {S : Type} (SV : solver RN S) (EV : nat -> env (N:=RN) (V:=V)).
Hypothesis Hok : vclass_ok VC.
Hypothesis HE : forall n, env_ok (EV n).
Hypothesis HF : factorising_solver SV.

Lemma lm_first vs (fs : list (factor (N:=RN) (V:=V))) rate up down top h l y : lm_move VC vs fs rate up down top (h, l) y -> exists J, jacobian_at VC h vs fs J.
Proof. intros M. inversion M; subst; eauto; match goal with N : newton_step _ _ _ _ _ _ _ |- _ => destruct N as (? & J & ? & _ & HJ & _); eauto end. Qed.
Lemma lm_all vs (fs : list (factor (N:=RN) (V:=V))) rate up down top h0 l0 hs J (r0 rs : list R) :
  NoDup vs -> Forall (fun a => a < length h0) vs -> Forall (factor_wf VC h0 vs) fs -> linear_problem VC h0 vs fs -> reach VC h0 vs hs -> jacobian_at VC h0 vs fs J ->
  stacked h0 fs r0 -> stacked hs fs rs -> (forall i, i < mcols J -> rsum (mrows J) (fun k => mat_at J k i * nth k rs 0)%R = 0%R) ->
  (0 < l0)%R -> (0 < up)%R -> (0 < top)%R -> (0 < rate < 2)%R ->
  forall k h l, moves (lm_move VC vs fs rate up down top) k (h0, l0) (h, l) -> (0 < l)%R /\ reach VC h0 vs h /\ (h = h0 \/ (gap VC h0 vs hs J h < gap VC h0 vs hs J h0)%R).
Proof.
  intros Nd Hl W HL Rs HJ S0 Ss St P0 Pu Pt Pr. induction k; intros h l M.
  - inversion M; subst. split; [exact P0|]. split; [|left; reflexivity]. apply reach_refl. exact (proj1 (proj2 HL _ (revalued_refl VC _))).
  - inversion M as [|k0 a b c M1 F]; subst. destruct b as (hb & lb). destruct (IHk hb lb M1) as (Pb & Rb & Gb). inversion F; subst.
    + split; [apply Rmult_lt_0_compat; assumption|]. split; assumption.
    + split; [eapply Rlt_le_trans; [|apply Rmax_r]; lra|].
      destruct (newton VC Hok h0 vs fs rate Hl HL hb h J lb Rb HJ ltac:(assumption)) as (_ & _ & _ & _ & Rh & _). split; [exact Rh|]. right.
      assert (G : (gap VC h0 vs hs J h < gap VC h0 vs hs J hb)%R).
      { match goal with A : stacked hb fs ?x, B : stacked h fs ?y |- _ => apply (nearer VC Hok h0 vs fs rate Nd Hl W HL hs J r0 rs Rs HJ S0 Ss St hb h lb x y Rb Pb Pr ltac:(assumption) A B) end.
        rewrite !sqnorm_rsum. apply Rlt_not_eq. assumption. }
      destruct Gb as [->|Gb]; [exact G|]. eapply Rlt_trans; eassumption.
    + split; [apply Rmin_glb_lt; [apply Rmult_lt_0_compat|]; assumption|]. split; assumption.
Qed.

Lemma lm_nearer (I : V -> Prop) l1 l2 h1 g1 (p p' : pstate (N:=RN) (V:=V) (S:=S)) hs :
  undoable VC I -> (forall a v, nth_error (p_heap p) a = Some v -> I v) ->
  finalized_history VC l1 l2 h1 (p_heap p) g1 (p_graph p) -> unfinalized VC ([], empty_graph) l1 ->
  let vs := get_all_variables (p_graph p) in let fs := get_all_factors (p_graph p) in let st := p_set p in
  Forall (factor_wf VC (p_heap p) vs) fs -> some_active VC (p_heap p) fs -> Forall buf_indep fs -> shape_contract VC (p_heap p) fs ->
  linear_problem VC (p_heap p) vs fs -> revalued VC (p_heap p) hs -> reassigned VC (p_heap p) hs vs -> stationary VC hs vs fs ->
  st_method st = LevenbergMarquardt -> 1 <= st_max_iter st -> (0 < st_lambda0 st)%R -> (0 < st_up st)%R -> (0 < st_max_lambda st)%R -> (0 < st_rate st < 2)%R ->
  optimize VC SV EV p = (p', Ok tt) -> p_caught p' = false ->
  p_heap p' = p_heap p \/ (distance_sq VC hs (p_heap p') vs < distance_sq VC hs (p_heap p) vs)%R.
Proof.
  intros HI Hh A B vs fs st W Ac Bf Sh L Rv Ra St Hm Hn P0 Pu Pt Pr E Hc.
  destruct (finalized_facts VC Hok _ _ _ _ _ _ A) as (_ & Hf & _). assert (Nd : NoDup vs) by exact (vars_nodup VC _ _ Hf).
  pose proof (ri_live _ _ _ (fin_reg _ _ _ Hf)) as Hl.
  destruct (lm_path VC SV EV Hok HE I l1 l2 h1 g1 p p' HI Hh HF A B W Ac Bf Sh Hm Hn E Hc) as (k & _ & M). fold vs fs st in M.
  destruct (stats_lm VC SV EV Hok HE I l1 l2 h1 g1 p p' HI real_order A Hh Hm E Hc) as (r0 & r1 & S0 & _). fold fs in S0.
  destruct k as [|k]; [inversion M; left; congruence|].
  destruct (moves_first _ _ _ _ M) as (b & Fb). destruct (lm_first _ _ _ _ _ _ _ _ _ Fb) as (J & HJ).
  destruct St as (rs & Js & Ss & HJs & St). destruct (same_jacobian VC Hok _ vs fs Hl L hs J Js (conj Rv Ra) HJ HJs) as (E1 & E2 & E3).
  assert (St' : forall i, i < mcols J -> rsum (mrows J) (fun k => mat_at J k i * nth k rs 0)%R = 0%R).
  { intros i Hi. rewrite <- E2 in Hi. etransitivity; [|exact (St i Hi)]. rewrite E1. apply rsum_ext. intros c Hc'. rewrite E3 by lia. reflexivity. }
  destruct (lm_all vs fs _ _ _ _ (p_heap p) _ hs J r0 rs Nd Hl W L (conj Rv Ra) HJ S0 Ss St' P0 Pu Pt Pr _ _ _ M) as (_ & Rh & [G|G]); [left; exact G|right].
  rewrite (gap_distance VC Hok (p_heap p) vs fs Hl hs J (conj Rv Ra) HJ (p_heap p') Rh).
  rewrite (gap_distance VC Hok (p_heap p) vs fs Hl hs J (conj Rv Ra) HJ (p_heap p)); [exact G|]. apply reach_refl. exact (proj1 (proj2 L _ (revalued_refl VC _))).
Qed.
End Run.
Lemma lm_nearer_lib {S : Type} (SV : solver RN S) (EV : nat -> env (N:=RN) (V:=lvar RN)) (HE : forall n, env_ok (EV n)) (HF : factorising_solver SV)
  l1 l2 h1 g1 (p p' : pstate (N:=RN) (V:=lvar RN) (S:=S)) hs :
  finalized_history (lib RN) l1 l2 h1 (p_heap p) g1 (p_graph p) -> unfinalized (lib RN) ([], empty_graph) l1 -> careful ([], empty_graph) l1 -> careful (h1, g1) l2 ->
  let vs := get_all_variables (p_graph p) in let fs := get_all_factors (p_graph p) in let st := p_set p in
  Forall (factor_wf (lib RN) (p_heap p) vs) fs -> some_active (lib RN) (p_heap p) fs -> (forall a v, nth_error (p_heap p) a = Some v -> real_kind (l_kind v)) ->
  vector_problem (p_heap p) vs fs -> revalued (lib RN) (p_heap p) hs -> reassigned (lib RN) (p_heap p) hs vs -> stationary (lib RN) hs vs fs ->
  st_method st = LevenbergMarquardt -> 1 <= st_max_iter st -> (0 < st_lambda0 st)%R -> (0 < st_up st)%R -> (0 < st_max_lambda st)%R -> (0 < st_rate st < 2)%R ->
  optimize (lib RN) SV EV p = (p', Ok tt) -> p_caught p' = false ->
  p_heap p' = p_heap p \/ (distance_sq (lib RN) hs (p_heap p') vs < distance_sq (lib RN) hs (p_heap p) vs)%R.
Proof.
  intros A B C1 C2 vs fs st W Ac Rk Vp Rv Ra St Hm Hn P0 Pu Pt Pr E Hc. destruct (lib_history _ _ _ _ _ _ A C1 C2) as (G1 & G2). destruct (sound_history _ _ _ _ _ _ A C1 C2) as (Sh & _). cbn [fst] in Sh.
  exact (lm_nearer (lib RN) SV EV lib_ok HE HF _ l1 l2 h1 g1 p p' hs lib_real Rk A B W Ac G1 G2 (vector_linear _ _ _ Sh W G2 Vp) Rv Ra St Hm Hn P0 Pu Pt Pr E Hc).
Qed.
