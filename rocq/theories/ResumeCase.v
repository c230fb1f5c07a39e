(** A variable at 7 with priors 3 and 5: one iteration and then another, and two iterations at once. *)
From Coq Require Import List Arith ZArith QArith Bool Reals Lra Lia Qreals Permutation.
From Verif Require Import Base Sparse Graph SpecGraph SpecOpt Geom Vars VarsLemmas FactorsLin FactorsLinFacts FactorsGeo Optimizer OptLemmas Real SpecSolver OptToy Ldlt LdltSolver OptReal LdltCase FactorLib SpecShape FactorSafe SpecSteps RSum OptStepsLib SpecDefined OptDefined OptVerdict OptMore SpecEnds OptEnds OptFacts Gram OptWork OrderCase PartCase RestCase MarginalRun Info OptOrderRun OptRun GraphFin OptSteps SpecLength OptLength ResumeRun.
Import ListNotations.
Local Open Scope nat_scope.
Set Bullet Behavior "Strict Subproofs".

Definition aops : list (op (N:=RN) (V:=lvar RN)) := [ ONew (LVar 1 false (KGeneric [7%R])); OAddVar (Some 0); OAddFactor (Some tf1); OAddFactor (Some tf2) ].
Definition at_ (y : R) : @heap (lvar RN) := [LVar (N:=RN) 1 false (KGeneric [y])].
Definition astart : lstate := start (lib RN) LS env0 empty_ldlt (lset GaussNewton 1) aops.
Lemma a_used y : Forall (fun f => exists lf, f = build lf /\ well_used (at_ y) lf /\ ~ may_refuse lf) [tf1; tf2].
Proof.
  apply Forall_cons; [exists (LGenericPrior (N:=RN) 10 0 [3%R] 1%R)|apply Forall_cons; [exists (LGenericPrior (N:=RN) 11 0 [5%R] 1%R)|apply Forall_nil]]; (split; [reflexivity|]); (split; [|exact (fun H => H)]);
    (eexists; split; [reflexivity|split; reflexivity]).
Qed.
Lemma a_wf y : Forall (factor_wf (lib RN) (at_ y) [0]) [tf1; tf2].
Proof.
  apply Forall_cons; [|apply Forall_cons; [|apply Forall_nil]]; (split; [cbn; lia|]); (split; [|cbn; repeat constructor; cbn; intuition discriminate]); intros q [<-|[]]; (eexists _, _; split; [reflexivity|]; split; [reflexivity|]);
    (split; [intros _; split; [cbn; tauto|cbn; lia]|]); intros b [<-|[]]; cbn; intros; congruence.
Qed.
Lemma a_active y : some_active (lib RN) (at_ y) [tf1; tf2].
Proof. exists tf1, 0, (LVar (N:=RN) 1 false (KGeneric [y])); cbn; auto. Qed.
Lemma astart_hist : ohist LS aops astart.
Proof.
  unfold ohist. cbn zeta. split; [unfold on_ops, astart; apply start_finalized; rc; reflexivity|]. change (get_all_variables (p_graph astart)) with [0]. change (get_all_factors (p_graph astart)) with [tf1; tf2]. change (p_heap astart) with (at_ 7).
  split; [repeat (split; [discriminate|]); exact I|]. split; [|split; [apply a_wf|apply a_active]].
  pose proof (a_used 7) as U. inversion U as [|? ? (lf & U1 & U2 & _) U']; subst. inversion U' as [|? ? (lg & U3 & U4 & _) _]; subst.
  do 2 (split; [first [exact I|reflexivity]|]). split; [exists lf; split; [exact U1|exact U2]|]. split; [exists lg; split; [exact U3|exact U4]|exact I].
Qed.
Lemma a_jacobian y : jacobian_at (lib RN) (at_ y) [0] [tf1; tf2] tjac.
Proof.
  exists [[diagm (N:=RN) 1 ow]; [diagm (N:=RN) 1 ow]]. split; [constructor; [reflexivity|constructor; [reflexivity|constructor]]|].
  split; [reflexivity|]. split; [reflexivity|]. intros k f js m a r c Hk Hj Hm Hr Hc.
  destruct k as [|[|k]]; [| |destruct k; discriminate]; injection Hk as <-; injection Hj as <-; cbn in Hr;
    (destruct m as [|m]; [|destruct m; discriminate]; injection Hm as <-; cbn in Hc; try lia; destruct r as [|r]; try lia; destruct c as [|c]; try lia; reflexivity).
Qed.
Lemma a_residual y : stacked (at_ y) [tf1; tf2] [(ow * (y - 3))%R; (ow * (y - 5))%R].
Proof. exists [[(ow * (y - 3))%R]; [(ow * (y - 5))%R]]. split; [|reflexivity]. constructor; [split; reflexivity|constructor; [split; reflexivity|constructor]]. Qed.
Lemma a_moved y h : revalued (lib RN) (at_ y) h -> exists z, h = at_ z.
Proof.
  intros Rv. remember (at_ y) as h0 eqn:E0. revert E0. induction Rv as [|h1 h2 a v v' d Rv IH A B C D E]; intros E0; [exists y; exact E0|].
  destruct (IH E0) as (z & ->). assert (a = 0) by (destruct a as [|a]; [reflexivity|destruct a; discriminate A]). subst a. injection A as <-.
  destruct h2 as [|w [|? ?]]; try discriminate D. injection C as ->. cbn in B.
  destruct d as [|x [|? ?]]; try discriminate B. injection B as <-. exists (z + x)%R. reflexivity.
Qed.
Lemma a_step y h : OptPart.firm (lib RN) 1 [0] [tf1; tf2] (at_ y) h -> h = at_ 4.
Proof.
  intros (s & s1 & r & J & x & r2 & A & B & _ & C & U & _). pose proof (stacked_fun _ _ _ _ A (a_residual y)) as ->.
  destruct (jacobian_unique (lib RN) _ _ _ _ _ B (a_jacobian y)) as (E1 & E2 & E3). cbn in E1, E2.
  destruct C as (L & C). rewrite E2 in L. destruct x as [|x [|? ?]]; try discriminate L.
  destruct U as (U1 & U2 & _). destruct (U2 0 0 _ eq_refl eq_refl eq_refl) as (v' & Ev & Hv). cbn in Ev. destruct h as [|w [|? ?]]; try discriminate U1. injection Hv as ->.
  specialize (C 0 ltac:(lia)). rewrite E2 in C. rewrite E1 in C. cbn [rsum] in C. rewrite !E3 in C by lia. unfold tjac in C. cbn -[ow Rplus Rmult Ropp Rminus] in C. rewrite !ow1 in C.
  injection Ev as <-. unfold at_. do 4 f_equal. change (@eq R (y + x * 1)%R 4%R). lra.
Qed.
Lemma a_steps k : forall y h, moves (OptPart.firm (lib RN) 1 [0] [tf1; tf2]) k (at_ y) h -> exists z, h = at_ z /\ (0 < k -> z = 4%R) /\ (k = 0 -> z = y).
Proof.
  induction k; intros y h M; inversion M; subst; [exists y; split; [reflexivity|split; [lia|reflexivity]]|].
  match goal with A : moves _ k _ ?b |- _ => destruct (IHk _ _ A) as (z & -> & _) end.
  exists 4%R. split; [eapply a_step; eassumption|]. split; [reflexivity|lia].
Qed.
Section Run.
Context (l1 l2 : list (env (N:=RN) (V:=lvar RN) * op (N:=RN) (V:=lvar RN))) (h1 : @heap (lvar RN)) (g1 : graph (N:=RN) (V:=lvar RN)) (p : lstate) (y : R).
Hypothesis A : finalized_history (lib RN) l1 l2 h1 (p_heap p) g1 (p_graph p).
Hypothesis B : unfinalized (lib RN) ([], empty_graph) l1.
Hypothesis Ev : get_all_variables (p_graph p) = [0].
Hypothesis Ef : get_all_factors (p_graph p) = [tf1; tf2].
Hypothesis Eh : p_heap p = at_ y.
Hypothesis Sh : shape_contract (lib RN) (at_ y) [tf1; tf2].
Hypothesis Hg : p_hasgraph p = true.
Hypothesis Hv : p_hvalid p = false.
Hypothesis Hm : st_method (p_set p) = GaussNewton.
Hypothesis Hr : st_rate (p_set p) = 1%R.
Lemma a_buf : Forall (buf_indep (N:=RN) (V:=lvar RN)) [tf1; tf2].
Proof. apply Forall_cons; [apply lib_buf_indep|apply Forall_cons; [apply lib_buf_indep|apply Forall_nil]]. Qed.
Lemma a_answers : exists p', optimize (lib RN) LS EV0 p = (p', Ok tt) /\ p_caught p' = false.
Proof.
  apply (optimize_answers (lib RN) LS EV0 lib_ok EV0_ok (steady [tf1; tf2]) l1 l2 h1 g1 p natural_sized A B); rewrite ?Ev, ?Ef, ?Eh; auto using a_wf, a_active, a_buf, steady_workable, lib_answering.
  split; [|apply a_used]. intros a v Hv'. destruct a as [|a]; [injection Hv' as <-; reflexivity|destruct a; discriminate].
Qed.
Lemma a_run p' : optimize (lib RN) LS EV0 p = (p', Ok tt) -> p_caught p' = false -> ~ failure (ss_status (p_cur p')) /\
  exists z, p_heap p' = at_ z /\ (0 < ss_iter (p_cur p') -> z = 4%R) /\ (ss_iter (p_cur p') = 0 -> z = y).
Proof.
  intros E Hc.
  assert (M : moves (OptPart.firm (lib RN) (st_rate (p_set p)) (get_all_variables (p_graph p)) (get_all_factors (p_graph p))) (ss_iter (p_cur p')) (p_heap p) (p_heap p')).
  { apply (gn_firm (lib RN) LS EV0 lib_ok EV0_ok LS_factorising l1 l2 h1 g1 p p'); rewrite ?Ev, ?Ef, ?Eh; auto using a_wf, a_active, a_buf; rewrite <- Eh; assumption. }
  rewrite Hr, Ev, Ef, Eh in M. pose proof (a_steps _ _ _ M) as Z. split; [|exact Z]. destruct Z as (z & Z & _). intros Fa.
  destruct (gn_failure_codes (lib RN) LS EV0 lib_ok EV0_ok LS_factorising l1 l2 h1 g1 p p' A B) as (J & J1 & J2); rewrite ?Ev, ?Ef, ?Eh; auto using a_wf, a_active, a_buf.
  rewrite Z, Ev, Ef in J1. destruct (jacobian_unique (lib RN) _ _ _ _ _ J1 (a_jacobian z)) as (E1 & E2 & E3).
  exact (t_posed (ill_posed_same _ _ 0 E1 E2 E3 (verdict_ill _ _ Fa J2))).
Qed.
End Run.
Lemma a_contract : shape_contract (lib RN) (at_ 7) [tf1; tf2].
Proof. destruct astart_hist as (A & B & C & D & F). exact (proj2 (lib_history _ _ _ _ _ _ A C I)). Qed.
Lemma a_norm y : vnorm (N:=RN) [(ow * (y - 3))%R; (ow * (y - 5))%R] = sqrt ((y - 3) * (y - 3) + (y - 5) * (y - 5)).
Proof. cbn -[ow]. rewrite ?q0, ow1. f_equal. ring. Qed.
Lemma a_ended (p p' : lstate) : optimize (lib RN) LS EV0 p = (p', Ok tt) -> ~ failure (ss_status (p_cur p')) -> ss_status (p_cur p') = SUCCESS \/ ss_status (p_cur p') = DIVERGED.
Proof.
  intros E Nf. destruct (status_facts (lib RN) LS EV0 p p' E) as (A & _). unfold failure in Nf. destruct (ss_status (p_cur p')); auto; exfalso; [apply A; reflexivity|apply Nf; auto..].
Qed.
Lemma a_two : exists w', optimize (lib RN) LS EV0 (limit 2 astart) = (w', Ok tt) /\ p_caught w' = false /\ ss_iter (p_cur w') = 2 /\ p_heap w' = at_ 4.
Proof.
  destruct astart_hist as (A & B & C & D & F). pose proof a_contract as Sh.
  destruct (a_answers _ _ _ _ (limit 2 astart) 7 A B eq_refl eq_refl eq_refl eq_refl eq_refl) as (w' & E & Hc). exists w'. split; [exact E|]. split; [exact Hc|].
  destruct (a_run _ _ _ _ (limit 2 astart) 7 A B eq_refl eq_refl eq_refl Sh eq_refl eq_refl w' E Hc) as (Nf & z & Hz & Z1 & Z2).
  destruct (run_ends (lib RN) LS EV0 EV0_ok (limit 2 astart) w' E Hc (a_ended _ _ E Nf)) as (K & _ & _ & En).
  assert (Ei : ss_iter (p_cur w') = 2).
  { destruct En as [(X & _)|(j & q & X & Eq & St)]; [exact X|]. cbn in K. destruct j as [|[|j]]; [|exact X|lia]. exfalso.
    change (limit 0 (limit 2 astart)) with (limit 0 astart) in Eq.
    destruct (a_answers _ _ _ _ (limit 0 astart) 7 A B eq_refl eq_refl eq_refl eq_refl eq_refl) as (q1 & Eq1 & Hq). rewrite Eq in Eq1. injection Eq1 as <-.
    destruct (a_run _ _ _ _ (limit 0 astart) 7 A B eq_refl eq_refl eq_refl Sh eq_refl eq_refl q Eq Hq) as (_ & zq & Hzq & _ & Z0).
    pose proof (proj2 (optimize_bounded (lib RN) LS EV0 (limit 0 astart) q (Ok tt) eq_refl Eq)) as Iq. cbn in Iq. rewrite (Z0 ltac:(lia)) in Hzq. rewrite (Z1 ltac:(lia)) in Hz. clear Z0 Z1 Z2.
    destruct (stats_gn (lib RN) LS EV0 lib_ok EV0_ok _ _ _ _ (limit 2 astart) w' A eq_refl E Hc) as (r0 & r1 & S0 & S1 & _ & N0 & _ & N1).
    destruct (stats_gn (lib RN) LS EV0 lib_ok EV0_ok _ _ _ _ (limit 0 astart) q A eq_refl Eq Hq) as (r2 & r3 & _ & S3 & _ & _ & _ & N3).
    change (get_all_factors (p_graph (limit 2 astart))) with [tf1; tf2] in *. change (get_all_factors (p_graph (limit 0 astart))) with [tf1; tf2] in *. change (p_heap (limit 2 astart)) with (at_ 7) in *.
    rewrite Hz in S1. rewrite Hzq in S3. rewrite (stacked_fun _ _ _ _ S0 (a_residual 7)), a_norm in N0. rewrite (stacked_fun _ _ _ _ S1 (a_residual 4)), a_norm in N1. rewrite (stacked_fun _ _ _ _ S3 (a_residual 7)), a_norm in N3.
    pose proof (gn_length (lib RN) LS EV0 lib_ok EV0_ok _ _ _ _ (limit 2 astart) w' (factorising_exact LS LS_factorising) A B D F a_buf Sh eq_refl E Hc) as G. rewrite X in G. destruct G as (hh & _ & rr & JJ & xx & dd & _ & _ & _ & _ & _ & Ld).
    assert (P0 : (0 <= ss_delta (p_cur w'))%R) by (rewrite Ld; apply sqrt_pos).
    assert (P1 : (ss_resnorm (p_cur w') <= ss_resnorm (p_cur q))%R) by (rewrite N1, N3; apply sqrt_le_1_alt; lra).
    assert (P2 : (ss_resnorm (p_cur w') <= 10 * ss_resnorm (p_init w'))%R).
    { rewrite <- N3 in N0. rewrite N0. pose proof (sqrt_pos ((7 - 3) * (7 - 3) + (7 - 5) * (7 - 5))) as Q. rewrite <- N3 in Q. change (car RN) with R in *. lra. }
    clear -St P0 P1 P2. change (st_step_tol (p_set (limit 2 astart))) with 0%R in St. change (st_res_tol (p_set (limit 2 astart))) with 0%R in St.
    destruct St as [H|H0 H|H _|H _|H]; unfold decrease in *; cbn -[Rltb] in H; rewrite ?q0 in H; apply Rltb_true in H; try lra. }
  split; [exact Ei|]. rewrite Hz, Z1 by lia. reflexivity.
Qed.
(** a second run of at most one iteration, after setup *)
Lemma a_again (p' : lstate) : optimize (lib RN) LS EV0 astart = (p', Ok tt) -> p_caught p' = false ->
  exists q', optimize (lib RN) LS EV0 (fst (setup true (lset GaussNewton 1) p')) = (q', Ok tt) /\ p_caught q' = false /\ ss_iter (p_cur q') = 1 /\ p_heap q' = at_ 4.
Proof.
  intros E Hc. destruct astart_hist as (A & B & C & D & F). pose proof a_contract as Sh.
  destruct (a_run _ _ _ _ astart 7 A B eq_refl eq_refl eq_refl Sh eq_refl eq_refl p' E Hc) as (Nf & z & Hz & _).
  destruct (optimize_history (lib RN) LS EV0 EV0_ok _ _ _ _ _ _ _ A E) as (l2' & A2).
  destruct (finalized_facts (lib RN) lib_ok _ _ _ _ _ _ A2) as (_ & Hf & Hp & R2 & _). destruct (finalized_facts (lib RN) lib_ok _ _ _ _ _ _ A) as (_ & _ & _ & R1 & _).
  assert (Ev : get_all_variables (p_graph p') = [0]) by (unfold get_all_variables; rewrite R2, <- R1; reflexivity).
  assert (Ef : get_all_factors (p_graph p') = [tf1; tf2]) by (unfold get_all_factors; rewrite R2, <- R1; reflexivity).
  assert (Shz : shape_contract (lib RN) (at_ z) [tf1; tf2]).
  { pose proof (gn_firm (lib RN) LS EV0 lib_ok EV0_ok LS_factorising _ _ _ _ astart p' A B D F a_buf Sh eq_refl E Hc) as M. rewrite <- Hz. eapply contract_revalued; [exact (moves_revalued _ _ _ _ _ _ _ M)|exact Sh]. }
  set (q := fst (setup true (lset GaussNewton 1) p')).
  assert (A3 : finalized_history (lib RN) (on_ops aops) l2' (fst (run (lib RN) ([], empty_graph) (on_ops aops))) (p_heap q)
    (fst (finalize_structure (lib RN) (fst (run (lib RN) ([], empty_graph) (on_ops aops))) (snd (run (lib RN) ([], empty_graph) (on_ops aops))))) (p_graph q)) by exact A2.
  destruct (a_answers _ _ _ _ q z A3 B Ev Ef Hz eq_refl eq_refl) as (q' & Eq & Hq). exists q'. split; [exact Eq|]. split; [exact Hq|].
  destruct (a_run _ _ _ _ q z A3 B Ev Ef Hz Shz eq_refl eq_refl q' Eq Hq) as (Nq & z' & Hz' & Z1 & _).
  pose proof (one_iteration LS EV0 EV0_ok q q' Eq Hq Nq eq_refl) as Hi. split; [exact Hi|]. rewrite Hz', Z1 by lia. reflexivity.
Qed.
Lemma a_once : exists p', optimize (lib RN) LS EV0 astart = (p', Ok tt) /\ p_caught p' = false /\ ss_iter (p_cur p') = 1.
Proof.
  destruct astart_hist as (A & B & C & D & F).
  destruct (a_answers _ _ _ _ astart 7 A B eq_refl eq_refl eq_refl eq_refl eq_refl) as (p' & E & Hc). exists p'. split; [exact E|]. split; [exact Hc|].
  destruct (a_run _ _ _ _ astart 7 A B eq_refl eq_refl eq_refl a_contract eq_refl eq_refl p' E Hc) as (Nf & _). exact (one_iteration LS EV0 EV0_ok astart p' E Hc Nf eq_refl).
Qed.
