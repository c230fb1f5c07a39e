(** Covariances at an optimum: with variables held constant and with measurements that agree. *)
From Coq Require Import List Arith ZArith QArith Bool Lia Permutation Reals Lra.
From Verif Require Import Base Sparse Graph SpecGraph SpecOpt ListLemmas GraphLayout GraphFin GraphBasic GraphVec GraphDense GraphSparse Optimizer OptLemmas OptWork OptMore Real RSum SpecSolver SpecSteps OptSteps SpecBlocks OptPart Change SpecCov CovRun SpecMarginal Marginal MarginalRun SpecGrown Grown GrownRun SpecPinned Pinned OptVerdict ContractRun OptFacts OptEnds SpecRest RestRun SpecAgree Agree SpecHeld.
From Verif Require Import Geom Vars VarsLemmas FactorLib SpecShape FactorSafe OptStepsLib SpecFree Held.
Import ListNotations.
Local Open Scope nat_scope.
Set Bullet Behavior "Strict Subproofs".

(** settings with which a run does not leave an optimum *)
Definition calm {V : Type} (VC : vclass RN V) {S : Type} (I : V -> Prop) (p : pstate (N:=RN) (V:=V) (S:=S)) : Prop :=
  let st := p_set p in st_method st = GaussNewton \/
    undoable VC I /\ (forall a v, nth_error (p_heap p) a = Some v -> I v) /\ (0 < st_lambda0 st)%R /\ (0 < st_up st)%R /\ (0 < st_max_lambda st)%R.

Section One.
Context {V : Type} (VC : vclass RN V) {S : Type} (SV : solver RN S) (EV : nat -> env (N:=RN) (V:=V)).
Notation pstate := (pstate (N:=RN) (V:=V) (S:=S)).
Hypothesis Hok : vclass_ok VC.
Hypothesis HE : forall n, env_ok (EV n).
Hypothesis HF : factorising_solver SV.
Lemma rest_answers (I : V -> Prop) l1 l2 h1 g1 (p p' : pstate) :
  finalized_history VC l1 l2 h1 (p_heap p) g1 (p_graph p) -> unfinalized VC ([], empty_graph) l1 ->
  let vs := get_all_variables (p_graph p) in let fs := get_all_factors (p_graph p) in
  Forall (factor_wf VC (p_heap p) vs) fs -> some_active VC (p_heap p) fs -> Forall buf_indep fs -> shape_contract VC (p_heap p) fs ->
  (forall r J, stacked (p_heap p) fs r -> jacobian_at VC (p_heap p) vs fs J -> stationary VC (p_heap p) vs fs) -> all_rest VC (p_heap p) vs ->
  calm VC I p -> 1 <= st_max_iter (p_set p) -> p_hvalid p = false -> optimize VC SV EV p = (p', Ok tt) -> p_caught p' = false ->
  NoDup vs /\
  exists p1, prepare SV p' = (p1, Ok tt) /\ answers VC (p_heap p) vs fs (fun a => snd (estimate_covariance VC SV (Some a) p1)) /\
    forall f, In f fs -> exists js, f_jac f (p_heap p) [] = (js, Ok tt).
Proof.
  intros A B vs fs W Ac Bf Sh St Re Hm Hn Hv E Hc.
  destruct (finalized_facts VC Hok _ _ _ _ _ _ A) as (_ & Hf & _). assert (Nd : NoDup vs) by exact (vars_nodup VC _ _ Hf).
  pose proof (ri_live _ _ _ (fin_reg _ _ _ Hf)) as Hl. split; [exact Nd|].
  assert (Hm' : st_method (p_set p) = GaussNewton \/ undoable VC I /\ (forall a v, nth_error (p_heap p) a = Some v -> I v)) by (destruct Hm as [Hm|(X & Y & _)]; auto).
  destruct (last_covariances VC SV EV Hok HE HF I l1 l2 h1 g1 p p' A B W Ac Bf Sh Hm' Hn Hv E Hc) as (j & q & J & p1 & _ & J2 & J3 & _ & _ & _ & J7 & J8 & J9 & R1 & R2). fold vs fs in J7, J9.
  assert (Hq : p_heap q = p_heap p).
  { destruct j as [|j].
    - apply optimize_ok in J2. destruct J2 as (Hg & g & r0 & p2 & Cr & L & ->). cbn in L. injection L as <-. reflexivity.
    - destruct (st_method (p_set p)) eqn:Em.
      + exact (proj1 (gn_still VC SV EV Hok HE HF l1 l2 h1 g1 (limit (Datatypes.S j) p) A B W Ac Bf Sh q St Re Em J2 J3)).
      + destruct Hm as [Hm|(M1 & M2 & M3 & M4 & M5)]; [congruence|].
        apply (lm_still VC SV EV Hok HE HF l1 l2 h1 g1 (limit (Datatypes.S j) p) A B W Ac Bf Sh I q St Re M1 M2 M3 M4 M5 Em); [cbn; lia|exact J2|exact J3]. }
  rewrite Hq in J7. exists p1. split; [exact J8|].
  split; [|destruct J7 as (jss & F2 & _); clear - F2; induction F2 as [|f js l jss X _ IH]; intros g Hg; [destruct Hg|destruct Hg as [<-|Hg]; eauto]].
  apply (reports_answers VC (p_heap p) (p_heap p') vs fs J); [exact Nd|exact J7| | |exact J9].
  - intros a Ha. rewrite Forall_forall in Hl. apply (revalued_width VC Hok); auto.
  - intros a Ha. rewrite Forall_forall in Hl. destruct (nth_error (p_heap p) a) as [v|] eqn:Ev; [|apply nth_error_None in Ev; specialize (Hl a Ha); unfold addr in *; lia].
    destruct (revalued_hpres VC Hok _ _ R2 a v Ev) as (v' & Ev' & _). eauto.
Qed.
End One.

Section Two.
Context {V : Type} (VC : vclass RN V) {S S' : Type} (SV : solver RN S) (SV' : solver RN S') (EV EV' : nat -> env (N:=RN) (V:=V)).
Hypothesis Hok : vclass_ok VC.
Hypothesis HE : forall n, env_ok (EV n).
Hypothesis HE' : forall n, env_ok (EV' n).
Hypothesis HF : factorising_solver SV.
Hypothesis HF' : factorising_solver SV'.
Theorem agreeing_sharper (I I' : V -> Prop) l1 l1' l2 l2' h1 h1' g1 g1' (p p' : pstate (N:=RN) (V:=V) (S:=S)) (q q' : pstate (N:=RN) (V:=V) (S:=S')) :
  finalized_history VC l1 l2 h1 (p_heap p) g1 (p_graph p) -> unfinalized VC ([], empty_graph) l1 ->
  finalized_history VC l1' l2' h1' (p_heap q) g1' (p_graph q) -> unfinalized VC ([], empty_graph) l1' ->
  let vs := get_all_variables (p_graph p) in let fs := get_all_factors (p_graph p) in let vs' := get_all_variables (p_graph q) in let fs' := get_all_factors (p_graph q) in
  p_heap q = p_heap p -> grown_agreeing (p_heap p) vs vs' fs fs' -> stationary VC (p_heap p) vs fs -> all_rest VC (p_heap p) vs' ->
  Forall (factor_wf VC (p_heap p) vs) fs -> some_active VC (p_heap p) fs -> Forall buf_indep fs -> shape_contract VC (p_heap p) fs ->
  Forall (factor_wf VC (p_heap q) vs') fs' -> some_active VC (p_heap q) fs' -> Forall buf_indep fs' -> shape_contract VC (p_heap q) fs' ->
  calm VC I p -> calm VC I' q -> 1 <= st_max_iter (p_set p) -> 1 <= st_max_iter (p_set q) -> p_hvalid p = false -> p_hvalid q = false ->
  optimize VC SV EV p = (p', Ok tt) -> optimize VC SV' EV' q = (q', Ok tt) -> p_caught p' = false -> p_caught q' = false ->
  exists p1 q1, prepare SV p' = (p1, Ok tt) /\ prepare SV' q' = (q1, Ok tt) /\
    (newcomer_adrift VC (p_heap p) vs vs' fs' /\ (forall a, In a vs' -> snd (estimate_covariance VC SV' (Some a) q1) = Ok None) \/
     forall b, In b vs -> 0 < width VC (p_heap p) b -> no_larger (snd (estimate_covariance VC SV (Some b) p1)) (snd (estimate_covariance VC SV' (Some b) q1))).
Proof.
  intros A B A' B' vs fs vs' fs' Eh Gr St Re W Ac Bf Sh W' Ac' Bf' Sh' Hm Hm' Hn Hn' Hv Hv' E E' Hc Hc'.
  pose proof (proj1 Gr) as Gi.
  destruct (rest_answers VC SV EV Hok HE HF I l1 l2 h1 g1 p p' A B W Ac Bf Sh (fun _ _ _ _ => St) (fun a v Ha => Re a v (Gi a Ha)) Hm Hn Hv E Hc) as (Nd & p1 & P1 & An & _).
  assert (St' : forall r J, stacked (p_heap q) fs' r -> jacobian_at VC (p_heap q) vs' fs' J -> stationary VC (p_heap q) vs' fs').
  { rewrite Eh. intros r J Hr HJ. exact (stationary_grown VC (p_heap p) vs vs' fs fs' r J W Gr Hr HJ St). }
  assert (Re' : all_rest VC (p_heap q) vs') by (rewrite Eh; exact Re).
  destruct (rest_answers VC SV' EV' Hok HE' HF' I' l1' l2' h1' g1' q q' A' B' W' Ac' Bf' Sh' St' Re' Hm' Hn' Hv' E' Hc') as (Nd' & q1 & Q1 & An' & _).
  fold vs fs in Nd, An. fold vs' fs' in Nd', An'. rewrite Eh in An'. exists p1, q1. split; [exact P1|]. split; [exact Q1|].
  apply (answers_grown VC (p_heap p) (p_heap p) vs vs' fs fs' Nd Nd') with (5 := An) (6 := An').
  - split; [exact Gi|]. destruct Gr as (_ & more & Pm & _). eauto.
  - reflexivity.
  - reflexivity.
  - intros f a i c Hf Ha Hw. unfold deriv. destruct (listed_at a (f_vars f)) as [k|] eqn:El; [|reflexivity]. exfalso.
    apply listed_in in El. rewrite Forall_forall in W. destruct (W f Hf) as (_ & W1 & _). destruct (W1 (Some a) El) as (a' & v & Ea & Ev & W2 & _). injection Ea as <-.
    unfold width in Hw. rewrite Ev in Hw. destruct (vconst VC v); [lia|]. apply Ha. apply W2. reflexivity.
Qed.
End Two.

Section Lib.
Context {S S' : Type} (SV : solver RN S) (SV' : solver RN S') (EV EV' : nat -> env (N:=RN) (V:=lvar RN)).
Hypothesis HE : forall n, env_ok (EV n).
Hypothesis HE' : forall n, env_ok (EV' n).
Hypothesis HF : factorising_solver SV.
Hypothesis HF' : factorising_solver SV'.
Definition lib_calm {S : Type} (p : pstate (N:=RN) (V:=lvar RN) (S:=S)) : Prop := let st := p_set p in st_method st = GaussNewton \/
  (forall a v, nth_error (p_heap p) a = Some v -> real_kind (l_kind v)) /\ (0 < st_lambda0 st)%R /\ (0 < st_up st)%R /\ (0 < st_max_lambda st)%R.
Lemma calm_of {T : Type} (p : pstate (N:=RN) (V:=lvar RN) (S:=T)) : lib_calm p -> calm (lib RN) (fun v => real_kind (l_kind v)) p.
Proof. intros [H|(H1 & H2)]; [left; exact H|right]. split; [exact lib_real|]. split; [exact H1|exact H2]. Qed.
Theorem held_sharper l1 l1' l2 l2' h1 h1' g1 g1' (p p' : pstate (N:=RN) (V:=lvar RN) (S:=S)) (q q' : pstate (N:=RN) (V:=lvar RN) (S:=S')) :
  finalized_history (lib RN) l1 l2 h1 (p_heap p) g1 (p_graph p) -> unfinalized (lib RN) ([], empty_graph) l1 -> careful ([], empty_graph) l1 -> careful (h1, g1) l2 ->
  finalized_history (lib RN) l1' l2' h1' (p_heap q) g1' (p_graph q) -> unfinalized (lib RN) ([], empty_graph) l1' -> careful ([], empty_graph) l1' -> careful (h1', g1') l2' ->
  let vs := get_all_variables (p_graph p) in let fs := get_all_factors (p_graph p) in let vs' := get_all_variables (p_graph q) in let fs' := get_all_factors (p_graph q) in
  held_still (p_heap p) (p_heap q) -> same_graph vs vs' fs fs' -> Forall (fun f => exists lf, f = build lf) fs ->
  stationary (lib RN) (p_heap p) vs fs -> all_rest (lib RN) (p_heap p) vs -> all_rest (lib RN) (p_heap q) vs' ->
  Forall (factor_wf (lib RN) (p_heap p) vs) fs -> some_active (lib RN) (p_heap p) fs -> Forall (factor_wf (lib RN) (p_heap q) vs') fs' -> some_active (lib RN) (p_heap q) fs' ->
  lib_calm p -> lib_calm q -> 1 <= st_max_iter (p_set p) -> 1 <= st_max_iter (p_set q) -> p_hvalid p = false -> p_hvalid q = false ->
  optimize (lib RN) SV EV p = (p', Ok tt) -> optimize (lib RN) SV' EV' q = (q', Ok tt) -> p_caught p' = false -> p_caught q' = false ->
  exists p1 q1, prepare SV p' = (p1, Ok tt) /\ prepare SV' q' = (q1, Ok tt) /\
    forall b, In b vs -> 0 < width (lib RN) (p_heap q) b -> no_larger (snd (estimate_covariance (lib RN) SV (Some b) p1)) (snd (estimate_covariance (lib RN) SV' (Some b) q1)).
Proof.
  intros A B C1 C2 A' B' C1' C2' vs fs vs' fs' Hs Gr Lb St Re Re' W Ac W' Ac' Hm Hm' Hn Hn' Hv Hv' E E' Hc Hc'.
  destruct (lib_history _ _ _ _ _ _ A C1 C2) as (G1 & G2). destruct (lib_history _ _ _ _ _ _ A' C1' C2') as (G1' & G2').
  assert (St' : forall r J, stacked (p_heap q) fs' r -> jacobian_at (lib RN) (p_heap q) vs' fs' J -> stationary (lib RN) (p_heap q) vs' fs').
  { intros r J Hr HJ. apply (stationary_held (lib RN) (p_heap p) (p_heap q) vs vs' fs fs' Gr) with (r' := r) (J' := J); auto.
    - intros a _. apply held_width. exact Hs.
    - intros f Hf. rewrite Forall_forall in Lb. destruct (Lb f Hf) as (lf & ->). apply held_res. exact Hs.
    - intros f js js' Hf Ej Ej'. rewrite Forall_forall in Lb. destruct (Lb f Hf) as (lf & ->). apply (held_blocks (p_heap p) (p_heap q) Hs lf js js' Ej Ej'). }
  destruct (rest_answers (lib RN) SV EV lib_ok HE HF _ l1 l2 h1 g1 p p' A B W Ac G1 G2 (fun _ _ _ _ => St) Re (calm_of p Hm) Hn Hv E Hc) as (Nd & p1 & P1 & An & Jo).
  destruct (rest_answers (lib RN) SV' EV' lib_ok HE' HF' _ l1' l2' h1' g1' q q' A' B' W' Ac' G1' G2' St' Re' (calm_of q Hm') Hn' Hv' E' Hc') as (Nd' & q1 & Q1 & An' & Jo').
  fold vs fs in Nd, An, Jo. fold vs' fs' in Nd', An', Jo'. exists p1, q1. split; [exact P1|]. split; [exact Q1|].
  intros b Hb Wb. apply (answers_pinned (lib RN) (p_heap p) (p_heap q) vs vs' fs fs' Nd Nd' Gr) with (3 := An) (4 := An'); [| |exact Hb|exact Wb].
  - intros a _. apply held_width. exact Hs.
  - intros f a i c Hf Hw. unfold deriv. destruct (listed_at a (f_vars f)) as [k|] eqn:El; [|reflexivity].
    destruct (Jo f Hf) as (js & Ej). destruct (Jo' f (Permutation_in f (Permutation_sym (proj2 Gr)) Hf)) as (js' & Ej').
    rewrite Ej, Ej'. cbn [fst]. rewrite Forall_forall in Lb. destruct (Lb f Hf) as (lf & Elf). subst f. rewrite (held_blocks (p_heap p) (p_heap q) Hs lf js js' Ej Ej' k a (listed_at_nth _ _ _ El)); [reflexivity|lia].
Qed.
End Lib.
