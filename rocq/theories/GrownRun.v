(** Covariances after runs on a graph and on one with further measurements and variables. *)
From Coq Require Import List Arith ZArith QArith Bool Lia Permutation Reals Lra.
From Verif Require Import Base Sparse Graph SpecGraph SpecOpt ListLemmas GraphLayout GraphFin GraphBasic GraphVec GraphDense Optimizer OptLemmas OptWork OptMore Real RSum SpecSolver SpecSteps OptSteps SpecBlocks OptPart SpecCov CovRun SpecMarginal Marginal MarginalRun SpecGrown Grown.
From Verif Require Import Geom Vars VarsLemmas FactorLib SpecShape FactorSafe OptStepsLib SpecFree.
Import ListNotations.
Local Open Scope nat_scope.
Set Bullet Behavior "Strict Subproofs".

Lemma there_hpres {V : Type} (VC : vclass RN V) (h h' : @heap V) : still_there VC h h' <-> hpres VC true h h'.
Proof.
  split; intros H a v Ha; destruct (H a v Ha) as (v' & E & X); exists v'; (split; [exact E|]).
  - destruct X as (X1 & X2 & X3). split; [exact X1|]. split; [exact X2|]. intros _. exact X3.
  - destruct X as (X1 & X2 & X3). split; [exact X1|]. split; [exact X2|exact (X3 eq_refl)].
Qed.

Section One.
Context {V : Type} (VC : vclass RN V) {S : Type} (SV : solver RN S) (EV : nat -> env (N:=RN) (V:=V)).
Notation pstate := (pstate (N:=RN) (V:=V) (S:=S)).
Hypothesis Hok : vclass_ok VC.
Hypothesis HE : forall n, env_ok (EV n).
Hypothesis HF : factorising_solver SV.
Definition movable (I : V -> Prop) (p : pstate) : Prop := st_method (p_set p) = GaussNewton \/ undoable VC I /\ forall a v, nth_error (p_heap p) a = Some v -> I v.
Lemma held_answers (I : V -> Prop) l1 l2 h1 g1 (p p' : pstate) :
  finalized_history VC l1 l2 h1 (p_heap p) g1 (p_graph p) -> unfinalized VC ([], empty_graph) l1 ->
  let vs := get_all_variables (p_graph p) in let fs := get_all_factors (p_graph p) in
  Forall (factor_wf VC (p_heap p) vs) fs -> some_active VC (p_heap p) fs -> Forall buf_indep fs -> shape_contract VC (p_heap p) fs ->
  movable I p -> 1 <= st_max_iter (p_set p) -> p_hvalid p = false -> optimize VC SV EV p = (p', Ok tt) -> p_caught p' = false ->
  NoDup vs /\ Forall (fun a => a < length (p_heap p)) vs /\
  exists h p1, revalued VC (p_heap p) h /\ prepare SV p' = (p1, Ok tt) /\ answers VC h vs fs (fun a => snd (estimate_covariance VC SV (Some a) p1)) /\
    forall f, In f fs -> exists js, f_jac f h [] = (js, Ok tt).
Proof.
  intros A B vs fs W Ac Bf Sh Hm Hn Hv E Hc.
  destruct (finalized_facts VC Hok _ _ _ _ _ _ A) as (_ & Hf & _). assert (Nd : NoDup vs) by exact (vars_nodup VC _ _ Hf).
  pose proof (ri_live _ _ _ (fin_reg _ _ _ Hf)) as Hl. split; [exact Nd|]. split; [exact Hl|].
  destruct (last_covariances VC SV EV Hok HE HF I l1 l2 h1 g1 p p' A B W Ac Bf Sh Hm Hn Hv E Hc) as (j & q & J & p1 & _ & _ & _ & _ & _ & _ & J7 & J8 & J9 & R1 & R2). fold vs fs in J7, J9.
  exists (p_heap q), p1. split; [exact R1|]. split; [exact J8|].
  assert (Wd : forall h a, revalued VC (p_heap p) h -> In a vs -> width VC h a = width VC (p_heap p) a).
  { intros h a Hr Ha. rewrite Forall_forall in Hl. apply (revalued_width VC Hok); auto. }
  split; [|destruct J7 as (jss & F2 & _); clear - F2; induction F2 as [|f js l jss X _ IH]; intros g Hg; [destruct Hg|destruct Hg as [<-|Hg]; eauto]].
  apply (reports_answers VC (p_heap q) (p_heap p') vs fs J); [exact Nd|exact J7| | |exact J9].
  - intros a Ha. rewrite (Wd (p_heap p') a R2 Ha), (Wd (p_heap q) a R1 Ha). reflexivity.
  - intros a Ha. rewrite Forall_forall in Hl. destruct (nth_error (p_heap p) a) as [v|] eqn:Ev; [|apply nth_error_None in Ev; specialize (Hl a Ha); unfold addr in *; lia].
    destruct (revalued_hpres VC Hok _ _ R2 a v Ev) as (v' & Ev' & _). eauto.
Qed.
End One.

Section Two.
Context {V : Type} (VC : vclass RN V) {S S' : Type} (SV : solver RN S) (SV' : solver RN S') (EV EV' : nat -> env (N:=RN) (V:=V)).
Hypothesis Hok : vclass_ok VC.
Hypothesis HE : forall n, env_ok (EV n).
Hypothesis HE' : forall n, env_ok (EV' n).
Hypothesis HF : factorising_solver SV.
Hypothesis HF' : factorising_solver SV'.
Theorem grown_covariances (I I' : V -> Prop) l1 l1' l2 l2' h1 h1' g1 g1' (p p' : pstate (N:=RN) (V:=V) (S:=S)) (q q' : pstate (N:=RN) (V:=V) (S:=S')) :
  finalized_history VC l1 l2 h1 (p_heap p) g1 (p_graph p) -> unfinalized VC ([], empty_graph) l1 ->
  finalized_history VC l1' l2' h1' (p_heap q) g1' (p_graph q) -> unfinalized VC ([], empty_graph) l1' ->
  let vs := get_all_variables (p_graph p) in let fs := get_all_factors (p_graph p) in let vs' := get_all_variables (p_graph q) in let fs' := get_all_factors (p_graph q) in
  still_there VC (p_heap p) (p_heap q) -> grown vs vs' fs fs' ->
  (forall f h, In f fs -> still_there VC (p_heap p) h -> f_jac f h [] = f_jac f (p_heap p) []) ->
  Forall (factor_wf VC (p_heap p) vs) fs -> some_active VC (p_heap p) fs -> Forall buf_indep fs -> shape_contract VC (p_heap p) fs ->
  Forall (factor_wf VC (p_heap q) vs') fs' -> some_active VC (p_heap q) fs' -> Forall buf_indep fs' -> shape_contract VC (p_heap q) fs' ->
  st_method (p_set p) = GaussNewton \/ undoable VC I /\ (forall a v, nth_error (p_heap p) a = Some v -> I v) ->
  st_method (p_set q) = GaussNewton \/ undoable VC I' /\ (forall a v, nth_error (p_heap q) a = Some v -> I' v) ->
  1 <= st_max_iter (p_set p) -> 1 <= st_max_iter (p_set q) -> p_hvalid p = false -> p_hvalid q = false ->
  optimize VC SV EV p = (p', Ok tt) -> optimize VC SV' EV' q = (q', Ok tt) -> p_caught p' = false -> p_caught q' = false ->
  exists p1 q1, prepare SV p' = (p1, Ok tt) /\ prepare SV' q' = (q1, Ok tt) /\
    ((exists h, revalued VC (p_heap q) h /\ newcomer_adrift VC h vs vs' fs') /\ (forall a, In a vs' -> snd (estimate_covariance VC SV' (Some a) q1) = Ok None) \/
     forall b, In b vs -> 0 < width VC (p_heap p) b -> no_larger (snd (estimate_covariance VC SV (Some b) p1)) (snd (estimate_covariance VC SV' (Some b) q1))).
Proof.
  intros A B A' B' vs fs vs' fs' Th Gr Cj W Ac Bf Sh W' Ac' Bf' Sh' Hm Hm' Hn Hn' Hv Hv' E E' Hc Hc'.
  destruct (held_answers VC SV EV Hok HE HF I l1 l2 h1 g1 p p' A B W Ac Bf Sh Hm Hn Hv E Hc) as (Nd & Hl & h & p1 & R1 & P1 & An & _).
  destruct (held_answers VC SV' EV' Hok HE' HF' I' l1' l2' h1' g1' q q' A' B' W' Ac' Bf' Sh' Hm' Hn' Hv' E' Hc') as (Nd' & Hl' & h' & q1 & R1' & P1' & An' & _). fold vs fs in Nd, Hl, An. fold vs' fs' in Nd', Hl', An'.
  exists p1, q1. split; [exact P1|]. split; [exact P1'|].
  pose proof (revalued_hpres VC Hok _ _ R1) as T1. pose proof (hpres_trans VC true _ _ _ (proj1 (there_hpres VC _ _) Th) (revalued_hpres VC Hok _ _ R1')) as T2.
  assert (Wl : forall k a, hpres VC true (p_heap p) k -> a < length (p_heap p) -> width VC k a = width VC (p_heap p) a).
  { intros k a T La. unfold width. destruct (nth_error (p_heap p) a) as [v|] eqn:Ev; [|apply nth_error_None in Ev; lia]. destruct (T a v Ev) as (v' & -> & _ & Sz & C). rewrite (C eq_refl), Sz. reflexivity. }
  assert (Hin : forall a, In a vs -> a < length (p_heap p)) by (intros a Ha; rewrite Forall_forall in Hl; exact (Hl a Ha)).
  assert (Jf : forall f, In f fs -> f_jac f h [] = f_jac f (p_heap p) [] /\ f_jac f h' [] = f_jac f (p_heap p) []) by (intros f Hf; split; apply Cj; auto; apply there_hpres; assumption).
  destruct (answers_grown VC h h' vs vs' fs fs' Nd Nd' Gr) with (4 := An) (5 := An') as [(X & Y)|X].
  - intros a Ha. rewrite (Wl h' a T2 (Hin a Ha)), (Wl h a T1 (Hin a Ha)). reflexivity.
  - intros f a i c Hf. unfold deriv. destruct (Jf f Hf) as (-> & ->). reflexivity.
  - intros f a i c Hf Ha Hw. unfold deriv. destruct (listed_at a (f_vars f)) as [k|] eqn:El; [|reflexivity]. exfalso.
    apply listed_in in El. rewrite Forall_forall in W. destruct (W f Hf) as (_ & W1 & _). destruct (W1 (Some a) El) as (a' & v & Ea & Ev & W2 & _). injection Ea as <-.
    assert (La : a < length (p_heap p)) by (apply nth_error_Some; congruence). rewrite (Wl h' a T2 La) in Hw. unfold width in Hw. rewrite Ev in Hw. destruct (vconst VC v); [lia|]. apply Ha. apply W2. reflexivity.
  - left. split; [exists h'; split; [exact R1'|exact X]|exact Y].
  - right. intros b Hb Wb. apply X; [exact Hb|]. rewrite (Wl h b T1 (Hin b Hb)). exact Wb.
Qed.
End Two.

Theorem grown_covariances_lib {S S' : Type} (SV : solver RN S) (SV' : solver RN S') (EV EV' : nat -> env (N:=RN) (V:=lvar RN)) (HE : forall n, env_ok (EV n)) (HE' : forall n, env_ok (EV' n)) (HF : factorising_solver SV) (HF' : factorising_solver SV')
  l1 l1' l2 l2' h1 h1' g1 g1' (p p' : pstate (N:=RN) (V:=lvar RN) (S:=S)) (q q' : pstate (N:=RN) (V:=lvar RN) (S:=S')) :
  finalized_history (lib RN) l1 l2 h1 (p_heap p) g1 (p_graph p) -> unfinalized (lib RN) ([], empty_graph) l1 -> careful ([], empty_graph) l1 -> careful (h1, g1) l2 ->
  finalized_history (lib RN) l1' l2' h1' (p_heap q) g1' (p_graph q) -> unfinalized (lib RN) ([], empty_graph) l1' -> careful ([], empty_graph) l1' -> careful (h1', g1') l2' ->
  let vs := get_all_variables (p_graph p) in let fs := get_all_factors (p_graph p) in let vs' := get_all_variables (p_graph q) in let fs' := get_all_factors (p_graph q) in
  still_there (lib RN) (p_heap p) (p_heap q) -> grown vs vs' fs fs' -> Forall (fun f => exists lf, f = build lf /\ value_free lf) fs ->
  Forall (factor_wf (lib RN) (p_heap p) vs) fs -> some_active (lib RN) (p_heap p) fs -> Forall (factor_wf (lib RN) (p_heap q) vs') fs' -> some_active (lib RN) (p_heap q) fs' ->
  st_method (p_set p) = GaussNewton \/ (forall a v, nth_error (p_heap p) a = Some v -> real_kind (l_kind v)) ->
  st_method (p_set q) = GaussNewton \/ (forall a v, nth_error (p_heap q) a = Some v -> real_kind (l_kind v)) ->
  1 <= st_max_iter (p_set p) -> 1 <= st_max_iter (p_set q) -> p_hvalid p = false -> p_hvalid q = false ->
  optimize (lib RN) SV EV p = (p', Ok tt) -> optimize (lib RN) SV' EV' q = (q', Ok tt) -> p_caught p' = false -> p_caught q' = false ->
  exists p1 q1, prepare SV p' = (p1, Ok tt) /\ prepare SV' q' = (q1, Ok tt) /\
    ((exists h, revalued (lib RN) (p_heap q) h /\ newcomer_adrift (lib RN) h vs vs' fs') /\ (forall a, In a vs' -> snd (estimate_covariance (lib RN) SV' (Some a) q1) = Ok None) \/
     forall b, In b vs -> 0 < width (lib RN) (p_heap p) b -> no_larger (snd (estimate_covariance (lib RN) SV (Some b) p1)) (snd (estimate_covariance (lib RN) SV' (Some b) q1))).
Proof.
  intros A B C1 C2 A' B' C1' C2' vs fs vs' fs' Th Gr Hfr W Ac W' Ac' Hm Hm' Hn Hn' Hv Hv' E E' Hc Hc'.
  destruct (lib_history _ _ _ _ _ _ A C1 C2) as (G1 & G2). destruct (lib_history _ _ _ _ _ _ A' C1' C2') as (G1' & G2').
  apply (grown_covariances (lib RN) SV SV' EV EV' lib_ok HE HE' HF HF' (fun v => real_kind (l_kind v)) (fun v => real_kind (l_kind v)) l1 l1' l2 l2' h1 h1' g1 g1' p p' q q'); auto using traceable_undoable.
  - intros f h Hf T. rewrite Forall_forall in Hfr. destruct (Hfr f Hf) as (lf & -> & Vf). apply free_jacobian; [exact Vf|apply there_hpres; exact T|].
    intros a Ha. rewrite Forall_forall in W. destruct (W _ Hf) as (_ & W1 & _). destruct (W1 _ Ha) as (b & v & X & Y & _). injection X as <-. apply nth_error_Some. congruence.
Qed.
