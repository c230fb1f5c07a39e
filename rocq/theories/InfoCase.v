(** The problem of OrderCase with the measurement of x repeated: once with 5/3 and once with 5/4 of the standard deviation.
    The constant is not in the graph, and a measurement of the constant has been added. *)
From Coq Require Import List Arith ZArith QArith Bool Reals Lra Lia Qreals Permutation.
From Verif Require Import Base Sparse Graph SpecGraph SpecOpt Geom Vars VarsLemmas FactorsLin FactorsLinFacts Optimizer OptLemmas Real SpecSolver OptToy Ldlt LdltSolver OptReal LdltCase FactorLib SpecShape FactorSafe SpecSteps RSum OptStepsLib SpecDefined OptDefined OptVerdict Gram OptWork OrderCase PartCase SpecBlocks SpecInfo.
Import ListNotations.
Set Bullet Behavior "Strict Subproofs".

Definition xf : lib_factor RN := LGenericPrior 10 0%nat [3%R] 1%R.
Definition nf1 : factor (N:=RN) (V:=lvar RN) := build (reissued 20 (5 / 3) xf).
Definition nf2 : factor (N:=RN) (V:=lvar RN) := build (reissued 21 (5 / 4) xf).
Definition nf3 : factor (N:=RN) (V:=lvar RN) := build (LGenericPrior (N:=RN) 22 2%nat [9%R] 1%R).
Definition nops : list (op (N:=RN) (V:=lvar RN)) :=
  onew ++ [ OAddVar (Some 1%nat); OAddVar (Some 0%nat); OAddFactor (Some of2); OAddFactor (Some nf1); OAddFactor (Some nf3); OAddFactor (Some nf2) ].
Definition nstart : lstate := start (lib RN) LS env0 empty_ldlt (lset GaussNewton 1) nops.
Definition nused (f : factor (N:=RN) (V:=lvar RN)) : Prop := exists lf, f = build lf /\ well_used oheap lf /\ ~ may_refuse lf.
Lemma n_never f : In f [of2; nf1; nf3; nf2] -> nused f.
Proof.
  intros [<-|[<-|[<-|[<-|[]]]]]; [exists (LGenericBetween 11 0%nat 1%nat 2%nat 1%nat 1%R)|exists (reissued 20 (5/3) xf)|exists (LGenericPrior (N:=RN) 22 2%nat [9%R] 1%R)|exists (reissued 21 (5/4) xf)]; (split; [reflexivity|]);
    (split; [|exact (fun H => H)]); cbn [well_used reissued xf]; unfold var_at, of_size; repeat split; (eexists; split; [reflexivity|split; reflexivity]).
Qed.
Lemma n_used f : In f [of2; nf1; nf3; nf2] -> exists lf, f = build lf /\ well_used oheap lf.
Proof. intros H. destruct (n_never f H) as (lf & A & B & _). eauto. Qed.
Lemma n_wf f : In f [of2; nf1; nf3; nf2] -> factor_wf (lib RN) oheap [1; 0]%nat f.
Proof.
  assert (K : forall b, In b [1; 0]%nat -> b = 0%nat \/ b = 1%nat) by (intros b Hb; cbn in Hb; intuition).
  intros [<-|[<-|[<-|[<-|[]]]]]; (split; [cbn; lia|]); (split; [|cbn; repeat (apply NoDup_cons; [cbn; intuition discriminate|]); apply NoDup_nil]);
    intros q Hq; cbn in Hq; repeat (destruct Hq as [<-|Hq]; [|]); try contradiction Hq; (eexists _, _; split; [reflexivity|]; split; [reflexivity|]);
    (split; [intros Hc; first [discriminate Hc|(split; [cbn; tauto|cbn; lia])]|]); intros b Hb; destruct (K b Hb) as [ -> | -> ]; cbn; intros; congruence.
Qed.
Lemma nstart_hist : ohist LS nops nstart.
Proof.
  unfold ohist. cbn zeta. split; [unfold on_ops, nstart; apply start_finalized; rc; reflexivity|]. change (get_all_variables (p_graph nstart)) with [1; 0]%nat. change (get_all_factors (p_graph nstart)) with [of2; nf1; nf3; nf2]. change (p_heap nstart) with oheap.
  split; [repeat (split; [discriminate|]); exact I|].
  split; [|split; [apply Forall_forall; exact n_wf|exists nf1, 0%nat, (LVar (N:=RN) 1 false (KGeneric [7%R])); cbn; auto]].
  do 5 (split; [first [exact I|reflexivity]|]). split; [apply n_used; cbn; tauto|]. split; [apply n_used; cbn; tauto|]. split; [apply n_used; cbn; tauto|]. split; [apply n_used; cbn; tauto|exact I].
Qed.
Definition nw (s : R) : R := ndiv (n:=RN) nunit (s * 1)%R.
Lemma nw1 : nw (5 / 3) = (3 / 5)%R /\ nw (5 / 4) = (4 / 5)%R. Proof. unfold nw, nunit. cbn. rewrite q1. split; field. Qed.
Definition njac : mat RN := Mat (N:=RN) 4 2 (fun i j => match i, j with O, O => ow | O, _ => (- ow)%R | 1%nat, S _ => nw (5 / 3) | 3%nat, S _ => nw (5 / 4) | _, _ => @nzero RN end).
Lemma njacobian : jacobian_at (lib RN) oheap [1; 0]%nat [of2; nf1; nf3; nf2] njac.
Proof.
  exists [[diagm (N:=RN) 1 (nneg ow); diagm 1 ow; mempty]; [diagm (N:=RN) 1 (nw (5 / 3))]; [mempty; mempty]; [diagm (N:=RN) 1 (nw (5 / 4))]]. split; [repeat (constructor; [reflexivity|]); constructor|].
  split; [reflexivity|]. split; [reflexivity|]. intros k f js m a r c Hk Hj Hm Hr Hc.
  destruct k as [|[|[|[|k]]]]; [| | | |destruct k; discriminate]; injection Hk as <-; injection Hj as <-; cbn in Hr; assert (r = 0%nat) by lia; subst r;
    (destruct m as [|[|m]]; [| |destruct m; discriminate]; injection Hm as <-; cbn in Hc; try lia; assert (c = 0%nat) by lia; subst c; reflexivity).
Qed.
Lemma n_posed : ~ ill_posed 0 njac.
Proof.
  destruct nw1 as (W1 & W2). intros (x & i & L & Hi & X1 & X2). cbn in Hi, L. destruct x as [|a [|b [|? ?]]]; try discriminate L. rewrite damped_zero in X2. unfold image_sq, column_sq in X2. cbn in X2. rewrite ?ow1, ?q0, ?W1, ?W2 in X2.
  pose proof (pow2_ge_0 b) as A. pose proof (pow2_ge_0 (a - b)) as B. pose proof (pow2_ge_0 (b - 1/2)) as C.
  assert (K : (1 / 2 <= b * b + (a - b) * (a - b))%R) by (destruct i as [|[|i]]; [| |lia]; cbn in X1; subst; nra).
  destruct X2 as [X2|(c & Hc & X2)]; [nra|]. destruct c as [|[|c]]; [| |lia]; cbn in X2; rewrite ?ow1, ?q0, ?W1, ?W2 in X2; nra.
Qed.
Lemma nstart_run : exists p', optimize (lib RN) LS EV0 nstart = (p', Ok tt) /\ p_caught p' = false /\ ss_iter (p_cur p') = 1%nat /\ ~ failure (ss_status (p_cur p')).
Proof.
  destruct (o_run LS nops nstart njac LS_factorising natural_sized nstart_hist eq_refl eq_refl eq_refl) as (p' & A & B & C); [|exact njacobian|exact n_posed|].
  - apply Forall_forall. exact n_never.
  - exists p'. split; [exact A|]. split; [exact B|]. split; [exact (one_iteration LS EV0 EV0_ok nstart p' A B C eq_refl)|exact C].
Qed.
Lemma n_restated : restated oheap [of1; of2] [of2; nf1; nf3; nf2].
Proof.
  exists [of1; of2], [[nf1; nf2]; [of2]], [], [nf3]. split; [reflexivity|]. split; [|split; [|split]].
  - cbn. transitivity [nf1; of2; nf3; nf2]; [apply perm_swap|]. apply perm_skip. transitivity [of2; nf2; nf3]; [apply perm_skip, perm_swap|apply perm_swap].
  - constructor; [|constructor; [|constructor]].
    + exists xf, [(20%Z, 5 / 3); (21%Z, 5 / 4)]%R. split; [reflexivity|]. split; [reflexivity|]. split; [constructor; [cbn; lra|constructor; [cbn; lra|constructor]]|]. cbn. field.
    + exists (LGenericBetween 11 0%nat 1%nat 2%nat 1%nat 1%R), [(11%Z, 1%R)]. split; [reflexivity|]. split; [|split; [constructor; [cbn; lra|constructor]|cbn; field]].
      cbn [map fst snd reissued]. rewrite Rmult_1_l. reflexivity.
  - constructor.
  - constructor; [|constructor]. intros a v [E|[]] Ev. injection E as <-. injection Ev as <-. reflexivity.
Qed.
