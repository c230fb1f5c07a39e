(** Two variables x = 7 and y = 1, each measured against a fixed one, as one graph and x alone. *)
From Coq Require Import List Arith ZArith QArith Bool Reals Lra Lia Qreals Permutation.
From Verif Require Import Base Sparse Graph SpecGraph SpecOpt Geom Vars VarsLemmas FactorsLin FactorsLinFacts Optimizer OptLemmas Real SpecSolver OptToy Ldlt LdltSolver OptReal LdltCase FactorLib SpecShape FactorSafe SpecSteps RSum OptStepsLib SpecDefined OptDefined OptVerdict Gram OptWork OptFacts OptRun SpecEnds OptEnds OrderCase SpecPart.
Import ListNotations.
Set Bullet Behavior "Strict Subproofs".

Definition pf1 : factor (N:=RN) (V:=lvar RN) := generic_between (lib RN) 10 2%nat 0%nat 2%nat 1%nat 1%R.
Definition pf2 : factor (N:=RN) (V:=lvar RN) := generic_between (lib RN) 11 2%nat 1%nat 2%nat 1%nat 1%R.
Definition pops : list (op (N:=RN) (V:=lvar RN)) :=
  onew ++ [ OAddVar (Some 0%nat); OAddVar (Some 1%nat); OAddVar (Some 2%nat); OAddFactor (Some pf1); OAddFactor (Some pf2) ].
Definition pops' : list (op (N:=RN) (V:=lvar RN)) := onew ++ [ OAddVar (Some 2%nat); OAddVar (Some 0%nat); OAddFactor (Some pf1) ].
Definition whole : lstate := start (lib RN) RS env0 empty_ldlt (lset GaussNewton 1) pops.
Definition alone : lstate := start (lib RN) LS env0 empty_ldlt (lset GaussNewton 1) pops'.
Lemma p_used : (exists lf, pf1 = build lf /\ well_used oheap lf) /\ (exists lf, pf2 = build lf /\ well_used oheap lf).
Proof.
  split; [exists (LGenericBetween 10 2%nat 0%nat 2%nat 1%nat 1%R)|exists (LGenericBetween 11 2%nat 1%nat 2%nat 1%nat 1%R)]; (split; [reflexivity|]); cbn [well_used]; unfold var_at, of_size;
    repeat split; (eexists; split; [reflexivity|split; reflexivity]).
Qed.
Lemma p_never f : f = pf1 \/ f = pf2 -> exists lf, f = build lf /\ well_used oheap lf /\ ~ may_refuse lf.
Proof.
  intros [->| ->]; [exists (LGenericBetween 10 2%nat 0%nat 2%nat 1%nat 1%R)|exists (LGenericBetween 11 2%nat 1%nat 2%nat 1%nat 1%R)]; (split; [reflexivity|]);
    (split; [|exact (fun H => H)]); cbn [well_used]; unfold var_at, of_size; repeat split; (eexists; split; [reflexivity|split; reflexivity]).
Qed.
Lemma p_wf vs f : (forall a, In a vs -> In a [0; 1; 2]%nat) -> In 2%nat vs -> (f = pf1 /\ In 0%nat vs) \/ (f = pf2 /\ In 1%nat vs) -> factor_wf (lib RN) oheap vs f.
Proof.
  intros M Two. assert (K : forall b, In b vs -> b = 0%nat \/ b = 1%nat \/ b = 2%nat) by (intros b Hb; apply M in Hb; cbn in Hb; intuition).
  intros [(-> & Hx)|(-> & Hx)]; (split; [cbn; lia|]); (split; [|cbn; repeat (apply NoDup_cons; [cbn; intuition discriminate|]); apply NoDup_nil]);
    intros q [<-|[<-|[<-|[]]]]; (eexists _, _; split; [reflexivity|]; split; [reflexivity|]);
    (split; [intros Hc; first [discriminate Hc|(split; [assumption|cbn; lia])]|]); intros b Hb; destruct (K b Hb) as [ -> | [ -> | -> ]]; cbn; intros; congruence.
Qed.
Lemma whole_hist : ohist RS pops whole.
Proof.
  unfold ohist. cbn zeta. split; [unfold on_ops, whole; apply start_finalized; rc; reflexivity|]. change (get_all_variables (p_graph whole)) with [0; 1; 2]%nat. change (get_all_factors (p_graph whole)) with [pf1; pf2]. change (p_heap whole) with oheap.
  split; [repeat (split; [discriminate|]); exact I|]. destruct p_used as (U1 & U2).
  split; [|split; [constructor; [apply p_wf; cbn; tauto|constructor; [apply p_wf; cbn; tauto|constructor]]|exists pf1, 0%nat, (LVar (N:=RN) 1 false (KGeneric [7%R])); cbn; auto]].
  do 6 (split; [first [exact I|reflexivity]|]). split; [exact U1|]. split; [exact U2|exact I].
Qed.
Lemma alone_hist : ohist LS pops' alone.
Proof.
  unfold ohist. cbn zeta. split; [unfold on_ops, alone; apply start_finalized; rc; reflexivity|]. change (get_all_variables (p_graph alone)) with [2; 0]%nat. change (get_all_factors (p_graph alone)) with [pf1]. change (p_heap alone) with oheap.
  split; [repeat (split; [discriminate|]); exact I|]. destruct p_used as (U1 & U2).
  split; [|split; [constructor; [apply p_wf; cbn; intuition|constructor]|exists pf1, 0%nat, (LVar (N:=RN) 1 false (KGeneric [7%R])); cbn; auto]].
  do 5 (split; [first [exact I|reflexivity]|]). split; [exact U1|exact I].
Qed.
Definition pjac (n : nat) : mat RN := Mat (N:=RN) n n (fun i j => if (i =? j)%nat then ow else @nzero RN).
Lemma whole_jac : jacobian_at (lib RN) oheap [0; 1; 2]%nat [pf1; pf2] (pjac 2).
Proof.
  exists [[mempty; diagm (N:=RN) 1 ow; mempty]; [mempty; diagm (N:=RN) 1 ow; mempty]]. split; [constructor; [reflexivity|constructor; [reflexivity|constructor]]|].
  split; [reflexivity|]. split; [reflexivity|]. intros k f js m a r c Hk Hj Hm Hr Hc.
  destruct k as [|[|k]]; [| |destruct k; discriminate]; injection Hk as <-; injection Hj as <-; cbn in Hr; assert (r = 0%nat) by lia; subst r;
    (destruct m as [|[|[|m]]]; [| | |destruct m; discriminate]; injection Hm as <-; cbn in Hc; try lia; assert (c = 0%nat) by lia; subst c; reflexivity).
Qed.
Lemma alone_jac : jacobian_at (lib RN) oheap [2; 0]%nat [pf1] (pjac 1).
Proof.
  exists [[mempty; diagm (N:=RN) 1 ow; mempty]]. split; [constructor; [reflexivity|constructor]|].
  split; [reflexivity|]. split; [reflexivity|]. intros k f js m a r c Hk Hj Hm Hr Hc.
  destruct k as [|k]; [|destruct k; discriminate]; injection Hk as <-; injection Hj as <-; cbn in Hr; assert (r = 0%nat) by lia; subst r;
    (destruct m as [|[|m]]; [| |destruct m; discriminate]; injection Hm as <-; cbn in Hc; try lia; assert (c = 0%nat) by lia; subst c; reflexivity).
Qed.
Lemma whole_posed : ~ ill_posed 0 (pjac 2).
Proof.
  intros (x & i & L & Hi & X1 & X2). cbn in Hi, L. destruct x as [|a [|b [|? ?]]]; try discriminate L. rewrite damped_zero in X2. unfold image_sq, column_sq in X2. cbn in X2. rewrite ?ow1, ?q0 in X2.
  pose proof (pow2_ge_0 a) as A. pose proof (pow2_ge_0 b) as B.
  assert (K : (1 <= a * a + b * b)%R) by (destruct i as [|[|i]]; [| |lia]; cbn in X1; subst; nra).
  destruct X2 as [X2|(c & Hc & X2)]; [nra|]. destruct c as [|[|c]]; [| |lia]; cbn in X2; rewrite ?ow1, ?q0 in X2; nra.
Qed.
Lemma alone_posed : ~ ill_posed 0 (pjac 1).
Proof.
  intros (x & i & L & Hi & X1 & X2). cbn in Hi, L. destruct x as [|a [|? ?]]; try discriminate L. rewrite damped_zero in X2. unfold image_sq, column_sq in X2. cbn in X2. rewrite ?ow1, ?q0 in X2.
  assert (i = 0%nat) by lia. subst i. cbn in X1. subst a.
  destruct X2 as [X2|(c & Hc & X2)]; [lra|]. assert (c = 0%nat) by lia. subst c. cbn in X2. rewrite ?ow1, ?q0 in X2. lra.
Qed.
Lemma one_iteration {S} (SV : solver RN S) EV (HE : forall n, env_ok (EV n)) p p' : optimize (lib RN) SV EV p = (p', Ok tt) -> p_caught p' = false -> ~ failure (ss_status (p_cur p')) ->
  st_max_iter (p_set p) = 1%nat -> ss_iter (p_cur p') = 1%nat.
Proof.
  intros E Hc Nf Hn. assert (St : ss_status (p_cur p') = SUCCESS \/ ss_status (p_cur p') = DIVERGED).
  { destruct (status_facts (lib RN) SV EV p p' E) as (A & _). unfold failure in Nf. destruct (ss_status (p_cur p')); auto; exfalso; [apply A; reflexivity|apply Nf; auto..]. }
  destruct (run_ends (lib RN) SV EV HE p p' E Hc St) as (A & _ & _ & [(B & _)|(j & q & B & _)]); lia.
Qed.
Lemma whole_run : exists p', optimize (lib RN) RS EV0 whole = (p', Ok tt) /\ p_caught p' = false /\ ss_iter (p_cur p') = 1%nat.
Proof.
  destruct (o_run RS pops whole (pjac 2) RS_factorising backwards_sized whole_hist eq_refl eq_refl eq_refl) as (p' & A & B & C); [|exact whole_jac|exact whole_posed|].
  - constructor; [apply p_never; auto|constructor; [apply p_never; auto|constructor]].
  - exists p'. split; [exact A|]. split; [exact B|]. exact (one_iteration RS EV0 EV0_ok whole p' A B C eq_refl).
Qed.
Lemma alone_run : exists p', optimize (lib RN) LS EV0 alone = (p', Ok tt) /\ p_caught p' = false /\ ss_iter (p_cur p') = 1%nat.
Proof.
  destruct (o_run LS pops' alone (pjac 1) LS_factorising natural_sized alone_hist eq_refl eq_refl eq_refl) as (p' & A & B & C); [|exact alone_jac|exact alone_posed|].
  - constructor; [apply p_never; auto|constructor].
  - exists p'. split; [exact A|]. split; [exact B|]. exact (one_iteration LS EV0 EV0_ok alone p' A B C eq_refl).
Qed.
Lemma p_part : part_of_graph (lib RN) oheap [0; 1; 2]%nat [2; 0]%nat [pf1; pf2] [pf1].
Proof.
  split; [intros a [<-|[<-|[]]]; cbn; auto|]. exists [pf2]. split; [reflexivity|]. intros f a v [<-|[]] Ha Hv Ev. cbn in Ha. destruct Ha as [E|[E|[E|[]]]]; injection E as <-; cbn in *; try (injection Ev as <-; reflexivity).
  destruct Hv as [Hv|[Hv|[]]]; discriminate.
Qed.
