(** Which covariances are reported after optimize(), in exact arithmetic (C77, C78). *)
From Coq Require Import List Arith ZArith Bool Reals Lra Lia.
From Verif Require Import Base Sparse Graph SpecGraph SpecOpt GraphLayout GraphBasic GraphVec GraphFin GraphDense Optimizer OptLemmas OptWork OptLM OptRun OptMore OptEnds OptLast Real RSum
  SpecSolver SpecSteps OptSteps OptCov OptCovFull Gram SpecCov.
Import ListNotations.
Local Open Scope nat_scope.
Set Bullet Behavior "Strict Subproofs".

Section Loop.
Context {V : Type} (VC : vclass RN V) {S : Type} (SV : solver RN S) (EV : nat -> env (N:=RN) (V:=V)).
Notation pstate := (pstate (N:=RN) (V:=V) (S:=S)).
Hypothesis Hok : vclass_ok VC.
Hypothesis HE : forall n, env_ok (EV n).
Hypothesis HF : factorising_solver SV.
Context (l1 : list (env (N:=RN) (V:=V) * op (N:=RN) (V:=V))) (h1 : @heap V) (g1 : graph (N:=RN) (V:=V)) (h0 : @heap V) (vs : list addr) (fs : list (factor (N:=RN) (V:=V))).
Hypothesis Hu : unfinalized VC ([], empty_graph) l1.
Hypothesis Hlive : Forall (fun a => a < length h0) vs.
Hypothesis Hwf : Forall (factor_wf VC h0 vs) fs.
Hypothesis Hact : some_active VC h0 fs.
Hypothesis Hbuf : Forall buf_indep fs.
Hypothesis Hshape : shape_contract VC h0 fs.
Context (I : V -> Prop).
Notation on := (onrun VC l1 h1 g1 h0 vs fs).
(** the run of the method can be followed *)
Definition followed (p : pstate) : Prop :=
  on (p_heap p) (p_graph p) /\ healthy (p_cur p) /\ (st_method (p_set p) = GaussNewton \/ undoable VC I /\ heldI I (p_heap p)).
Lemma followed_step (p p1 : pstate) : followed p -> one_step VC SV EV p = (p1, Ok tt) -> on (p_heap p1) (p_graph p1) /\ (healthy (p_cur p1) -> followed p1).
Proof.
  intros (On & Hh & Hm) E1. pose proof (frames_one VC SV EV HE _ _ _ E1) as (T & F1 & _). pose proof (hf_one VC SV EV _ _ _ E1 Hh) as H1. unfold one_step in E1.
  assert (K : on (p_heap p1) (p_graph p1) /\ (st_method (p_set p) = GaussNewton \/ undoable VC I /\ heldI I (p_heap p1))).
  { destruct (st_method (p_set p)) eqn:Em.
    - split; [|auto]. destruct H1 as [H1|(_ & H1)].
      + apply (gn_moves VC SV EV Hok HE (factorising_exact SV HF) l1 h1 g1 h0 vs fs Hu Hlive Hwf Hact Hbuf Hshape p p1 On E1). apply not_fail; auto.
      + destruct (gn_failed VC SV EV _ _ E1 Hh H1) as (A & _). eapply (onrun_traced VC Hok l1 h1 g1 h0 vs fs); [exact On|exact T|rewrite A; apply revalued_refl].
    - destruct Hm as [Hm|(HI & Hi)]; [discriminate|].
      destruct (lm_step_moves VC SV EV Hok HE (factorising_exact SV HF) l1 h1 g1 h0 vs fs Hu Hlive Hwf Hact Hbuf Hshape I HI HF _ _ _ _ p p1 On Hi (conj eq_refl (conj eq_refl (conj eq_refl eq_refl))) E1) as (_ & _ & _ & A & B & _).
      auto. }
  destruct K as (K1 & K2). split; [exact K1|]. intros Hh1. split; [exact K1|]. split; [exact Hh1|]. rewrite F1. exact K2.
Qed.
Lemma followed_loop n : forall (p p' : pstate), followed p -> opt_loop VC SV EV n p = (p', Ok tt) -> p_caught p' = false -> on (p_heap p') (p_graph p').
Proof.
  induction n as [|n IH]; intros p p' Fo E Hc; cbn [opt_loop] in E; [inversion E; subst; apply Fo|].
  destruct (one_step VC SV EV p) as [p1 [[]|e|u]] eqn:E1; [|inversion E; subst; discriminate|discriminate].
  destruct (followed_step p p1 Fo E1) as (A & B). pose proof (hf_one VC SV EV _ _ _ E1 (proj1 (proj2 Fo))) as H1.
  destruct (ss_status (p_cur p1)) eqn:Es; try (inversion E; subst; exact A).
  all: assert (Hh : healthy (p_cur p1)) by (destruct H1 as [H1|(_ & [H1|[H1|H1]])]; [exact H1|congruence..]).
  all: repeat match type of E with (if ?b then _ else _) = _ => destruct b end; try (exact (IH _ _ (B Hh) E Hc)); inversion E; subst; exact A.
Qed.
End Loop.

Section Covariances.
Context {V : Type} (VC : vclass RN V) {S : Type} (SV : solver RN S) (EV : nat -> env (N:=RN) (V:=V)).
Notation pstate := (pstate (N:=RN) (V:=V) (S:=S)).
Hypothesis Hok : vclass_ok VC.
Hypothesis HE : forall n, env_ok (EV n).
Hypothesis HF : factorising_solver SV.

Lemma end_parts (p2 : pstate) : p_heap (end_run p2) = p_heap p2 /\ p_graph (end_run p2) = p_graph p2 /\ p_caught (end_run p2) = p_caught p2 /\ p_complete (end_run p2) = true.
Proof. unfold end_run. destruct (ss_status (p_cur p2)); auto. Qed.

Lemma run_on (I : V -> Prop) l1 l2 h1 g1 (p p' : pstate) :
  finalized_history VC l1 l2 h1 (p_heap p) g1 (p_graph p) -> unfinalized VC ([], empty_graph) l1 ->
  let vs := get_all_variables (p_graph p) in let fs := get_all_factors (p_graph p) in
  Forall (factor_wf VC (p_heap p) vs) fs -> some_active VC (p_heap p) fs -> Forall buf_indep fs -> shape_contract VC (p_heap p) fs ->
  st_method (p_set p) = GaussNewton \/ undoable VC I /\ (forall a v, nth_error (p_heap p) a = Some v -> I v) ->
  optimize VC SV EV p = (p', Ok tt) -> p_caught p' = false -> onrun VC l1 h1 g1 (p_heap p) vs fs (p_heap p') (p_graph p').
Proof.
  intros Hi Hu vs fs Hwf Hact Hbuf Hsh Hm E Hc. apply optimize_ok in E. destruct E as (Hg & g & r0 & p2 & Cr & L & ->).
  destruct (begun_on VC EV Hok HE _ _ _ _ p g r0 Hi Cr) as (On & Hl). destruct (end_parts p2) as (-> & -> & X & _). rewrite X in Hc.
  apply (followed_loop VC SV EV Hok HE HF l1 h1 g1 (p_heap p) vs fs Hu Hl Hwf Hact Hbuf Hsh I (st_max_iter (p_set p)) (begin_run g r0 p) p2); [|exact L|exact Hc].
  split; [exact On|]. split; [split; simpl; auto|]. exact Hm.
Qed.

(** the Jacobian *)
Theorem held_jacobian (I : V -> Prop) l1 l2 h1 g1 (p p' : pstate) :
  finalized_history VC l1 l2 h1 (p_heap p) g1 (p_graph p) -> unfinalized VC ([], empty_graph) l1 ->
  let vs := get_all_variables (p_graph p) in let fs := get_all_factors (p_graph p) in
  Forall (factor_wf VC (p_heap p) vs) fs -> some_active VC (p_heap p) fs -> Forall buf_indep fs -> shape_contract VC (p_heap p) fs ->
  st_method (p_set p) = GaussNewton \/ undoable VC I /\ (forall a v, nth_error (p_heap p) a = Some v -> I v) ->
  1 <= st_max_iter (p_set p) -> optimize VC SV EV p = (p', Ok tt) -> p_caught p' = false ->
  exists j q J, j < st_max_iter (p_set p) /\
    optimize VC SV EV (limit j p) = (q, Ok tt) /\ p_caught q = false /\ ss_status (p_cur q) = SUCCESS /\ ss_iter (p_cur q) = j /\
    (ss_iter (p_cur p') = Datatypes.S j \/ ss_iter (p_cur p') = j /\ failure (ss_status (p_cur p')) /\ p_heap p' = p_heap q) /\
    revalued VC (p_heap p) (p_heap q) /\ revalued VC (p_heap p) (p_heap p') /\
    jacobian_at VC (p_heap q) vs fs J /\ omap sp_dense (sparse_jacobian (p_graph p')) = Ok J /\ fin VC (p_heap p') (p_graph p') /\ get_all_variables (p_graph p') = vs.
Proof.
  intros Hi Hu vs fs Hwf Hact Hbuf Hsh Hm Hn E Hc.
  destruct (last_jacobian VC SV EV HE p p' E Hc Hn) as (j & q & Mx & J1 & J2 & J3 & J4 & J5 & J6 & J7 & J8).
  pose proof (run_on I l1 l2 h1 g1 p p' Hi Hu Hwf Hact Hbuf Hsh Hm E Hc) as On'.
  pose proof (run_on I l1 l2 h1 g1 (limit j p) q Hi Hu Hwf Hact Hbuf Hsh Hm J2 J3) as On.
  change (p_heap (limit j p)) with (p_heap p) in On. change (p_graph (limit j p)) with (p_graph p) in On. fold vs fs in On, On'.
  assert (Hl : Forall (fun a => a < length (p_heap p)) vs).
  { destruct (finalized_facts VC Hok _ _ _ _ _ _ Hi) as (_ & Hf & _). exact (ri_live _ _ _ (fin_reg _ _ _ Hf)). }
  destruct (onrun_jacobian VC EV Hok HE l1 h1 g1 (p_heap p) vs fs Hu Hl Hwf Hact Hbuf Hsh _ _ _ _ On J7) as (HJ & _).
  exists j, q, (sp_dense Mx). split; [exact J1|]. split; [exact J2|]. split; [exact J3|]. split; [exact J4|]. split; [exact J5|]. split; [exact J6|].
  split; [apply On|]. split; [apply On'|]. split; [exact HJ|]. split; [rewrite J8; reflexivity|]. split; [exact (onrun_fin VC Hok _ _ _ _ _ _ _ _ On')|apply On'].
Qed.

(** ** from the Jacobian to the covariances *)
Lemma estimates (p : pstate) J vs : fin VC (p_heap p) (p_graph p) -> get_all_variables (p_graph p) = vs -> p_hvalid p = false -> p_complete p = true ->
  omap sp_dense (sparse_jacobian (p_graph p)) = Ok J -> mcols J = total_cols VC (p_heap p) vs -> 0 < mcols J ->
  exists p1, prepare SV p = (p1, Ok tt) /\ reports VC (p_heap p) vs J (fun a => snd (estimate_covariance VC SV (Some a) p1)).
Proof.
  intros Hf Hv H1 H2 HJ Hc Hp.
  destruct (covariance_available VC SV HF p J (jtj J) H1 H2 HJ Hp) as (p1 & E & K); [split; [reflexivity|]; split; reflexivity|].
  exists p1. split; [exact E|]. destruct K as [K|(K & W & K1 & K2)]; [left; exact K|right]. split; [exact K|]. exists (jtj J), W. split; [split; [reflexivity|]; split; reflexivity|]. split; [exact K1|].
  intros k a v Hk Ha Cv Sv. assert (Pl : variable_placement (p_graph p) (vid VC v) = Some (VPlacement a (col_start VC (p_heap p) vs k) (width VC (p_heap p) a))).
  { rewrite <- Hv in Hk |- *. rewrite <- (fin_vplace VC (p_heap p) (p_graph p) k a Hf Hk). unfold idz. rewrite Ha. reflexivity. }
  assert (Hw : width VC (p_heap p) a = vsize VC v) by (unfold width; rewrite Ha, Cv; reflexivity). rewrite Hw in Pl.
  assert (Bd : col_start VC (p_heap p) vs k + vsize VC v <= mcols J).
  { rewrite Hc, <- Hw. apply col_start_le. exact Hk. }
  destruct (K2 a v _ Ha Cv Sv Pl) as [(P & Q1 & Q2 & Q3 & Q4 & Q5)|Q]; [exact Sv|exact Bd| |right; exact Q].
  left. exists P. split; [exact Q1|]. split; [|exact Q5]. split; [exact Q2|]. split; [exact Q3|]. exact Q4.
Qed.
Lemma cols_pos h vs (fs : list (factor (N:=RN) (V:=V))) J : some_active VC h fs -> Forall (factor_wf VC h vs) fs -> jacobian_at VC h vs fs J ->
  mcols J = total_cols VC h vs /\ 0 < mcols J.
Proof.
  intros (f & a & v & A & B & C & D) W (jss & _ & (_ & X & _)). assert (mcols J = total_cols VC h vs) as Y by (rewrite X; reflexivity). split; [exact Y|]. rewrite Y.
  rewrite Forall_forall in W. destruct (W f A) as (_ & W2 & _). destruct (W2 _ B) as (a' & v' & W3 & W4 & W5 & _). injection W3 as <-.
  assert (v' = v) as -> by congruence. destruct (W5 D) as (W6 & W7). apply in_split in W6. destruct W6 as (x & y & ->). unfold total_cols. rewrite map_app, list_sum_app. simpl.
  unfold width at 2. rewrite C, D. lia.
Qed.
End Covariances.
