(** x at 4 with priors 3 and 5, y at 6 and y - x measured as 2; with x optimised and with x held constant. *)
From Coq Require Import List Arith ZArith QArith Bool Reals Lra Lia Qreals Permutation.
From Verif Require RestRun.
From Verif Require Import Base Sparse Graph SpecGraph SpecOpt Geom Vars VarsLemmas FactorsLin FactorsLinFacts FactorsGeo Optimizer OptLemmas Real SpecSolver OptToy Ldlt LdltSolver OptReal LdltCase FactorLib SpecShape FactorSafe SpecSteps RSum OptStepsLib SpecDefined OptDefined OptVerdict Gram OptWork OrderCase PartCase SpecRest RestVars RestCase SpecPinned SpecHeld.
Import ListNotations.
Local Open Scope nat_scope.
Set Bullet Behavior "Strict Subproofs".

Definition kf : factor (N:=RN) (V:=lvar RN) := build (LGenericBetween (N:=RN) 12 0 1 2 1 1%R).
Definition kops (b : bool) : list (op (N:=RN) (V:=lvar RN)) :=
  [ ONew (LVar 1 b (KGeneric [4%R])); ONew (LVar 2 false (KGeneric [6%R])); ONew (LVar 3 true (KGeneric [2%R])) ] ++
  [ OAddVar (Some 0); OAddVar (Some 1); OAddVar (Some 2); OAddFactor (Some tf1); OAddFactor (Some tf2); OAddFactor (Some kf) ].
Notation kheap b := [LVar (N:=RN) 1 b (KGeneric [4%R]); LVar 2 false (KGeneric [6%R]); LVar 3 true (KGeneric [2%R])].
Definition kstart (b : bool) (m : method) : lstate := start (lib RN) LS env0 empty_ldlt (lset m 1) (kops b).
Lemma k_never b : Forall (fun f => exists lf, f = build lf /\ well_used (kheap b) lf /\ ~ may_refuse lf) [tf1; tf2; kf].
Proof.
  apply Forall_cons; [exists (LGenericPrior (N:=RN) 10 0 [3%R] 1%R)|apply Forall_cons; [exists (LGenericPrior (N:=RN) 11 0 [5%R] 1%R)|apply Forall_cons; [exists (LGenericBetween (N:=RN) 12 0 1 2 1 1%R)|apply Forall_nil]]]; (split; [reflexivity|]);
    (split; [|exact (fun H => H)]); cbn [well_used]; unfold var_at, of_size; repeat split; (eexists; split; [reflexivity|split; reflexivity]).
Qed.
Lemma k_wf b : Forall (factor_wf (lib RN) (kheap b) [0; 1; 2]) [tf1; tf2; kf].
Proof.
  apply Forall_cons; [|apply Forall_cons; [|apply Forall_cons; [|apply Forall_nil]]]; (split; [cbn; lia|]); (split; [|destruct b; cbn; repeat constructor; cbn; intuition discriminate]);
    intros q Hq; cbn in Hq; repeat (destruct Hq as [<-|Hq]); try destruct Hq; (eexists _, _; split; [reflexivity|]; split; [reflexivity|]);
    (split; [intros _; split; [cbn; tauto|cbn; lia]|]); intros c [<-|[<-|[<-|[]]]]; cbn; intros; congruence.
Qed.
Lemma k_lists b m : get_all_variables (p_graph (kstart b m)) = [0; 1; 2] /\ get_all_factors (p_graph (kstart b m)) = [tf1; tf2; kf] /\ p_heap (kstart b m) = kheap b.
Proof. destruct b; (split; [reflexivity|]); (split; [reflexivity|]); reflexivity. Qed.
Lemma kstart_hist b m : ohist LS (kops b) (kstart b m).
Proof.
  unfold ohist. cbn zeta. destruct (k_lists b m) as (-> & -> & Eh). split; [unfold on_ops, kstart; apply start_finalized; destruct b; rc; reflexivity|]. rewrite Eh.
  split; [repeat (split; [discriminate|]); exact I|]. pose proof (k_never b) as X. inversion X as [|? ? (lf & U1 & U2 & _) X2]; subst. inversion X2 as [|? ? (lg & U3 & U4 & _) X3]; subst. inversion X3 as [|? ? (lk & U5 & U6 & _) _]; subst.
  split; [|split; [exact (k_wf b)|exists kf, 1, (LVar (N:=RN) 2 false (KGeneric [6%R])); cbn; auto]].
  do 6 (split; [first [exact I|reflexivity]|]). split; [exists lf; split; [exact U1|exact U2]|]. split; [exists lg; split; [exact U3|exact U4]|]. split; [exists lk; split; [exact U5|exact U6]|exact I].
Qed.
Lemma k_run b m : exists p', optimize (lib RN) LS EV0 (kstart b m) = (p', Ok tt) /\ p_caught p' = false.
Proof.
  destruct (kstart_hist b m) as (A & B & C & D & E).
  apply (lib_optimize_answers LS EV0 EV0_ok _ _ _ _ (kstart b m) natural_sized A C I eq_refl B D E); [|reflexivity].
  destruct (k_lists b m) as (_ & -> & ->). apply k_never.
Qed.
(** J = (1 0; 1 0; -1 1) *)
Definition kjac : mat RN := Mat (N:=RN) 3 2 (fun i j => match i, j with 2, O => (- ow)%R | 2, _ => ow | _, O => ow | _, _ => @nzero RN end).
Lemma kjacobian : jacobian_at (lib RN) (kheap false) [0; 1; 2] [tf1; tf2; kf] kjac.
Proof.
  exists [[diagm (N:=RN) 1 ow]; [diagm (N:=RN) 1 ow]; [diagm (N:=RN) 1 (nneg ow); diagm 1 ow; mempty]]. split; [constructor; [reflexivity|constructor; [reflexivity|constructor; [reflexivity|constructor]]]|].
  split; [reflexivity|]. split; [reflexivity|]. intros k f js m a r c Hk Hj Hm Hr Hc.
  destruct k as [|[|[|k]]]; [| | |destruct k; discriminate]; injection Hk as <-; injection Hj as <-; cbn in Hr; assert (r = 0) by lia; subst r;
    (destruct m as [|[|[|m]]]; [| | |destruct m; discriminate]; injection Hm as <-; cbn in Hc; try lia; assert (c = 0) by lia; subst c; reflexivity).
Qed.
Lemma k_stationary : stationary (lib RN) (kheap false) [0; 1; 2] [tf1; tf2; kf].
Proof.
  exists [(ow * (4 - 3))%R; (ow * (4 - 5))%R; (ow * (6 - 4 - 2))%R], kjac. split; [|split; [exact kjacobian|]].
  - exists [[(ow * (4 - 3))%R]; [(ow * (4 - 5))%R]; [(ow * (6 - 4 - 2))%R]]. split; [|reflexivity]. constructor; [split; reflexivity|constructor; [split; reflexivity|constructor; [split; reflexivity|constructor]]].
  - intros i Hi. cbn in Hi. destruct i as [|[|i]]; [| |lia]; cbn -[ow Rmult Rplus Rminus Ropp]; rewrite ?q0, ow1; lra.
Qed.
Lemma k_posed : ~ ill_posed 0 kjac.
Proof.
  intros (x & i & L & Hi & X1 & X2). cbn in Hi, L. destruct x as [|a [|b [|? ?]]]; try discriminate L. rewrite damped_zero in X2. unfold image_sq, column_sq in X2. cbn in X2. rewrite ?ow1, ?q0 in X2.
  pose proof (pow2_ge_0 a) as A. pose proof (pow2_ge_0 (b - a)) as B. pose proof (pow2_ge_0 (a - 1/2)) as C. pose proof (pow2_ge_0 (a - 1/3)) as D.
  assert (K : (1 / 2 <= 2 * (a * a) + (b - a) * (b - a))%R) by (destruct i as [|[|i]]; [| |lia]; cbn in X1; subst; nra).
  destruct X2 as [X2|(c & Hc & X2)]; [nra|]. destruct c as [|[|c]]; [| |lia]; cbn in X2; rewrite ?ow1, ?q0 in X2; nra.
Qed.
Lemma k_rest b : all_rest (lib RN) (kheap b) [0; 1; 2].
Proof. intros a v [<-|[<-|[<-|[]]]] E _; injection E as <-; apply settled_rests; exact I. Qed.
Lemma k_responsive : all_responsive (lib RN) (kheap false) [0; 1; 2].
Proof. intros a v [<-|[<-|[<-|[]]]] E _; injection E as <-; apply linear_responsive; exact I. Qed.
Lemma k_held : held_still (kheap false) (kheap true).
Proof. repeat (constructor; [cbn; auto|]). constructor. Qed.
Lemma k_same : same_graph [0; 1; 2] [0; 1; 2] [tf1; tf2; kf] [tf1; tf2; kf].
Proof. split; [tauto|apply Permutation_refl]. Qed.
Lemma k_lib : Forall (fun f => exists lf, f = build lf) [tf1; tf2; kf].
Proof. constructor; [eexists; reflexivity|constructor; [eexists; reflexivity|constructor; [eexists; reflexivity|constructor]]]. Qed.
Lemma k_success p' : optimize (lib RN) LS EV0 (kstart false GaussNewton) = (p', Ok tt) -> p_caught p' = false -> ss_status (p_cur p') = SUCCESS /\ p_heap p' = p_heap (kstart false GaussNewton).
Proof.
  intros Ep Hc. destruct (kstart_hist false GaussNewton) as (A & B & C & D & E). destruct (lib_history _ _ _ _ _ _ A C I) as (G1 & G2). destruct (k_lists false GaussNewton) as (Ev & Ef & Eh).
  destruct (RestRun.gn_stays (lib RN) LS EV0 lib_ok EV0_ok LS_factorising _ _ _ _ (kstart false GaussNewton) A B D E G1 G2) with (p' := p') as (X & _ & Z); [rewrite Ev, Ef, Eh; exact k_stationary|rewrite Ev, Eh; apply k_rest|reflexivity|exact Ep|exact Hc|].
  split; [|exact X]. destruct Z as [(Z1 & _)|(Z1 & _ & J & Z2 & Z3)]; [exact Z1|exfalso]. rewrite Ev, Ef, Eh in Z2.
  destruct (OptVerdict.jacobian_unique (lib RN) _ _ _ _ _ Z2 kjacobian) as (U1 & U2 & U3).
  apply k_posed. apply (OptVerdict.ill_posed_same J kjac 0 U1 U2 U3). exact (OptVerdict.verdict_ill _ J Z1 Z3).
Qed.
