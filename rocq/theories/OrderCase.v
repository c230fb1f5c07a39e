(** Two optimisers over the same three objects: x = 7 and y = 1 are free, the difference y - x is measured as 2 and x as 3.
    The second graph was filled in the opposite order. *)
From Coq Require Import List Arith ZArith QArith Bool Reals Lra Lia Qreals Permutation.
From Verif Require Import Base Sparse Graph SpecGraph SpecOpt Geom Vars VarsLemmas FactorsLin FactorsLinFacts Optimizer OptLemmas Real SpecSolver OptToy Ldlt LdltSolver OptReal LdltCase FactorLib SpecShape FactorSafe SpecSteps RSum OptStepsLib SpecDefined OptDefined OptVerdict Gram OptWork.
Import ListNotations.
Set Bullet Behavior "Strict Subproofs".

Definition of1 : factor (N:=RN) (V:=lvar RN) := generic_prior (lib RN) 10 0%nat [3%R] 1%R.
Definition of2 : factor (N:=RN) (V:=lvar RN) := generic_between (lib RN) 11 0%nat 1%nat 2%nat 1%nat 1%R.
Definition onew : list (op (N:=RN) (V:=lvar RN)) :=
  [ ONew (LVar 1 false (KGeneric [7%R])); ONew (LVar 2 false (KGeneric [1%R])); ONew (LVar 3 true (KGeneric [2%R])) ].
Definition oops : list (op (N:=RN) (V:=lvar RN)) :=
  onew ++ [ OAddVar (Some 0%nat); OAddVar (Some 1%nat); OAddVar (Some 2%nat); OAddFactor (Some of1); OAddFactor (Some of2) ].
Definition oops' : list (op (N:=RN) (V:=lvar RN)) :=
  onew ++ [ OAddVar (Some 2%nat); OAddVar (Some 1%nat); OAddVar (Some 0%nat); OAddFactor (Some of2); OAddFactor (Some of1) ].
(** eliminates the last unknown first *)
Definition backwards (H : mat RN) : list nat := rev (seq 0 (mrows H)).
Definition RS : solver RN (ldlt RN) := ldlt_solver backwards.
Lemma RS_factorising : factorising_solver RS.
Proof. apply ldlt_factorising. intros H. apply Permutation_sym, Permutation_rev. Qed.
Definition ostart : lstate := start (lib RN) RS env0 empty_ldlt (lset GaussNewton 1) oops.
Definition ostart' : lstate := start (lib RN) LS env0 empty_ldlt (lset GaussNewton 1) oops'.
Notation oheap := [LVar (N:=RN) 1 false (KGeneric [7%R]); LVar 2 false (KGeneric [1%R]); LVar 3 true (KGeneric [2%R])].
Definition on_ops (l : list (op (N:=RN) (V:=lvar RN))) : list (env (N:=RN) (V:=lvar RN) * op (N:=RN) (V:=lvar RN)) := map (fun o => (env0, o)) l.
Definition ohist (SV : solver RN (ldlt RN)) (l : list (op (N:=RN) (V:=lvar RN))) (p : lstate) : Prop :=
  let s0 := run (lib RN) ([], empty_graph) (on_ops l) in
  finalized_history (lib RN) (on_ops l) [] (fst s0) (p_heap p) (fst (finalize_structure (lib RN) (fst s0) (snd s0))) (p_graph p) /\
  unfinalized (lib RN) ([], empty_graph) (on_ops l) /\ careful ([], empty_graph) (on_ops l) /\
  Forall (factor_wf (lib RN) (p_heap p) (get_all_variables (p_graph p))) (get_all_factors (p_graph p)) /\ some_active (lib RN) (p_heap p) (get_all_factors (p_graph p)).
Lemma o_used : (exists lf, of1 = build lf /\ well_used oheap lf) /\ (exists lf, of2 = build lf /\ well_used oheap lf).
Proof.
  split; [exists (LGenericPrior 10 0%nat [3%R] 1%R)|exists (LGenericBetween 11 0%nat 1%nat 2%nat 1%nat 1%R)]; (split; [reflexivity|]); cbn [well_used]; unfold var_at, of_size;
    repeat split; (eexists; split; [reflexivity|split; reflexivity]).
Qed.
Lemma o_wf vs : (forall a, In a vs <-> In a [0; 1; 2]%nat) -> factor_wf (lib RN) oheap vs of1 /\ factor_wf (lib RN) oheap vs of2.
Proof.
  intros M. assert (K : forall b, In b vs -> b = 0%nat \/ b = 1%nat \/ b = 2%nat) by (intros b Hb; apply M in Hb; cbn in Hb; intuition).
  split; (split; [cbn; lia|]); (split; [|cbn; repeat constructor; cbn; intuition discriminate]);
    [intros q [<-|[]]|intros q [<-|[<-|[<-|[]]]]]; (eexists _, _; split; [reflexivity|]; split; [reflexivity|]);
    (split; [intros _; split; [apply M; cbn; tauto|cbn; lia]|]); intros b Hb; destruct (K b Hb) as [ -> | [ -> | -> ]]; cbn; intros; congruence.
Qed.
Lemma ostart_hist : ohist RS oops ostart.
Proof.
  unfold ohist. cbn zeta. split; [unfold on_ops, ostart; apply start_finalized; rc; reflexivity|]. change (get_all_variables (p_graph ostart)) with [0; 1; 2]%nat. change (get_all_factors (p_graph ostart)) with [of1; of2]. change (p_heap ostart) with oheap.
  split; [repeat (split; [discriminate|]); exact I|]. destruct o_used as (U1 & U2). destruct (o_wf [0; 1; 2]%nat) as (W1 & W2); [tauto|].
  split; [|split; [auto|exists of1, 0%nat, (LVar (N:=RN) 1 false (KGeneric [7%R])); cbn; auto]].
  do 6 (split; [first [exact I|reflexivity]|]). split; [exact U1|]. split; [exact U2|exact I].
Qed.
Lemma ostart_hist' : ohist LS oops' ostart'.
Proof.
  unfold ohist. cbn zeta. split; [unfold on_ops, ostart'; apply start_finalized; rc; reflexivity|]. change (get_all_variables (p_graph ostart')) with [2; 1; 0]%nat. change (get_all_factors (p_graph ostart')) with [of2; of1]. change (p_heap ostart') with oheap.
  split; [repeat (split; [discriminate|]); exact I|]. destruct o_used as (U1 & U2). destruct (o_wf [2; 1; 0]%nat) as (W1 & W2); [cbn; intuition|].
  split; [|split; [auto|exists of1, 0%nat, (LVar (N:=RN) 1 false (KGeneric [7%R])); cbn; auto]].
  do 6 (split; [first [exact I|reflexivity]|]). split; [exact U2|]. split; [exact U1|exact I].
Qed.
Lemma backwards_sized : sized_solver RS.
Proof. apply ldlt_sized. intros H. unfold backwards. rewrite rev_length. apply seq_length. Qed.
Lemma natural_sized : sized_solver LS.
Proof. apply ldlt_sized. intros H. apply seq_length. Qed.
(** J = (1 0; -1 1) for the order x, y and rows prior, between *)
Definition ow : R := ndiv (n:=RN) nunit 1%R.
Definition ojac : mat RN := Mat (N:=RN) 2 2 (fun i j => match i, j with O, O => ow | O, _ => @nzero RN | _, O => (- ow)%R | _, _ => ow end).
Definition ojac' : mat RN := Mat (N:=RN) 2 2 (fun i j => match i, j with O, O => ow | O, _ => (- ow)%R | _, O => @nzero RN | _, _ => ow end).
Lemma ojacobian : jacobian_at (lib RN) oheap [0; 1; 2]%nat [of1; of2] ojac.
Proof.
  exists [[diagm (N:=RN) 1 ow]; [diagm (N:=RN) 1 (nneg ow); diagm 1 ow; mempty]]. split; [constructor; [reflexivity|constructor; [reflexivity|constructor]]|].
  split; [reflexivity|]. split; [reflexivity|]. intros k f js m a r c Hk Hj Hm Hr Hc.
  destruct k as [|[|k]]; [| |destruct k; discriminate]; injection Hk as <-; injection Hj as <-; cbn in Hr; assert (r = 0%nat) by lia; subst r;
    (destruct m as [|[|[|m]]]; [| | |destruct m; discriminate]; injection Hm as <-; cbn in Hc; try lia; assert (c = 0%nat) by lia; subst c; reflexivity).
Qed.
Lemma ojacobian' : jacobian_at (lib RN) oheap [2; 1; 0]%nat [of2; of1] ojac'.
Proof.
  exists [[diagm (N:=RN) 1 (nneg ow); diagm 1 ow; mempty]; [diagm (N:=RN) 1 ow]]. split; [constructor; [reflexivity|constructor; [reflexivity|constructor]]|].
  split; [reflexivity|]. split; [reflexivity|]. intros k f js m a r c Hk Hj Hm Hr Hc.
  destruct k as [|[|k]]; [| |destruct k; discriminate]; injection Hk as <-; injection Hj as <-; cbn in Hr; assert (r = 0%nat) by lia; subst r;
    (destruct m as [|[|[|m]]]; [| | |destruct m; discriminate]; injection Hm as <-; cbn in Hc; try lia; assert (c = 0%nat) by lia; subst c; reflexivity).
Qed.
Lemma ow1 : ow = 1%R. Proof. unfold ow, nunit. cbn. rewrite q1. lra. Qed.
Lemma o_posed : ~ ill_posed 0 ojac.
Proof.
  intros (x & i & L & Hi & X1 & X2). cbn in Hi, L. destruct x as [|a [|b [|? ?]]]; try discriminate L. rewrite damped_zero in X2. unfold image_sq, column_sq in X2. cbn in X2. rewrite ?ow1, ?q0 in X2.
  pose proof (pow2_ge_0 a) as A. pose proof (pow2_ge_0 (b - a)) as B. pose proof (pow2_ge_0 (a - 1/2)) as C.
  assert (K : (1 / 2 <= a * a + (b - a) * (b - a))%R) by (destruct i as [|[|i]]; [| |lia]; cbn in X1; subst; nra).
  destruct X2 as [X2|(c & Hc & X2)]; [nra|]. destruct c as [|[|c]]; [| |lia]; cbn in X2; rewrite ?ow1, ?q0 in X2; nra.
Qed.
Lemma o_posed' : ~ ill_posed 0 ojac'.
Proof.
  intros (x & i & L & Hi & X1 & X2). cbn in Hi, L. destruct x as [|a [|b [|? ?]]]; try discriminate L. rewrite damped_zero in X2. unfold image_sq, column_sq in X2. cbn in X2. rewrite ?ow1, ?q0 in X2.
  pose proof (pow2_ge_0 b) as A. pose proof (pow2_ge_0 (a - b)) as B. pose proof (pow2_ge_0 (b - 1/2)) as C.
  assert (K : (1 / 2 <= b * b + (a - b) * (a - b))%R) by (destruct i as [|[|i]]; [| |lia]; cbn in X1; subst; nra).
  destruct X2 as [X2|(c & Hc & X2)]; [nra|]. destruct c as [|[|c]]; [| |lia]; cbn in X2; rewrite ?ow1, ?q0 in X2; nra.
Qed.
Lemma o_never : Forall (fun f => exists lf, f = build lf /\ well_used oheap lf /\ ~ may_refuse lf) [of1; of2].
Proof.
  apply Forall_cons; [exists (LGenericPrior 10 0%nat [3%R] 1%R)|apply Forall_cons; [exists (LGenericBetween 11 0%nat 1%nat 2%nat 1%nat 1%R)|apply Forall_nil]]; (split; [reflexivity|]);
    (split; [|exact (fun H => H)]); cbn [well_used]; unfold var_at, of_size; repeat split; (eexists; split; [reflexivity|split; reflexivity]).
Qed.
Lemma o_run SV l (p : lstate) J : factorising_solver SV -> sized_solver SV -> ohist SV l p -> p_set p = lset GaussNewton 1 -> p_hvalid p = false -> p_hasgraph p = true ->
  Forall (fun f => exists lf, f = build lf /\ well_used (p_heap p) lf /\ ~ may_refuse lf) (get_all_factors (p_graph p)) ->
  jacobian_at (lib RN) (p_heap p) (get_all_variables (p_graph p)) (get_all_factors (p_graph p)) J -> ~ ill_posed 0 J ->
  exists p', optimize (lib RN) SV EV0 p = (p', Ok tt) /\ p_caught p' = false /\ ~ failure (ss_status (p_cur p')).
Proof.
  intros HFs HZ (A & B & C & D & E) Hs Hv Hg NR HJ HI.
  destruct (lib_optimize_answers SV EV0 EV0_ok _ _ _ _ p HZ A C I Hv B D E NR Hg) as (p' & R1 & R2). exists p'. split; [exact R1|]. split; [exact R2|].
  destruct (lib_history _ _ _ _ _ _ A C I) as (G1 & G2).
  exact (gn_well_posed (lib RN) SV EV0 lib_ok EV0_ok HFs _ _ _ _ p p' J A B D E G1 G2 ltac:(rewrite Hs; reflexivity) ltac:(rewrite Hs; reflexivity) HJ HI R1 R2).
Qed.
Lemma ostart_run : exists p', optimize (lib RN) RS EV0 ostart = (p', Ok tt) /\ p_caught p' = false /\ ~ failure (ss_status (p_cur p')).
Proof. apply (o_run RS oops ostart ojac RS_factorising backwards_sized ostart_hist eq_refl eq_refl eq_refl o_never ojacobian o_posed). Qed.
Lemma ostart_run' : exists p', optimize (lib RN) LS EV0 ostart' = (p', Ok tt) /\ p_caught p' = false /\ ~ failure (ss_status (p_cur p')).
Proof.
  apply (o_run LS oops' ostart' ojac' LS_factorising natural_sized ostart_hist' eq_refl eq_refl eq_refl); [|exact ojacobian'|exact o_posed'].
  pose proof o_never as X. inversion X as [|? ? X1 X2]; subst. inversion X2 as [|? ? X3 _]; subst. constructor; [exact X3|constructor; [exact X1|constructor]].
Qed.
Lemma o_lists : get_all_variables (p_graph ostart) = [0; 1; 2]%nat /\ get_all_variables (p_graph ostart') = [2; 1; 0]%nat /\
  get_all_factors (p_graph ostart) = [of1; of2] /\ get_all_factors (p_graph ostart') = [of2; of1] /\ p_heap ostart = p_heap ostart' /\ p_set ostart = p_set ostart' /\ st_method (p_set ostart) = GaussNewton.
Proof.
  split; [reflexivity|]. split; [reflexivity|]. split; [reflexivity|]. split; [reflexivity|]. split; [exact (eq_trans (y:=oheap) eq_refl eq_refl)|].
  split; [transitivity (lset GaussNewton 1); reflexivity|reflexivity].
Qed.
