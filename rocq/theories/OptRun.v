(** Whole runs of the optimiser: statistics, cost, rollback, constants. *)
From Coq Require Import List Arith ZArith QArith Bool Lia Permutation.
From Verif Require Import Base Sparse Graph SpecGraph SpecOpt ListLemmas GraphLayout GraphFin GraphBasic GraphVec Optimizer OptLemmas OptWork OptLM.
Import ListNotations.
Local Open Scope nat_scope.

Section Run.
Context {N : num} {V : Type} (VC : vclass N V) {S : Type} (SV : solver N S).
Notation graph := (graph (N:=N) (V:=V)).
Notation env := (env (N:=N) (V:=V)).
Notation pstate := (pstate (N:=N) (V:=V) (S:=S)).
Notation M := (M (N:=N) (V:=V) (S:=S)).
Context (EV : nat -> env).
Hypothesis Hok : vclass_ok VC.
Hypothesis HE : forall n, env_ok (EV n).

Definition pfin (p : pstate) : Prop := fin VC (p_heap p) (p_graph p).
Definition facs (p : pstate) := get_all_factors (p_graph p).

Lemma traced_keeps s s' : traced VC s s' -> fin VC (fst s) (snd s) ->
  fin VC (fst s') (snd s') /\ hpres VC true (fst s) (fst s') /\ g_reg (snd s') = g_reg (snd s) /\ g_lay (snd s') = g_lay (snd s).
Proof. intros (l & Hl & <-) Hf. apply run_value; auto. Qed.
Lemma frame_keeps p p' : same_frame VC p p' -> pfin p ->
  pfin p' /\ hpres VC true (p_heap p) (p_heap p') /\ facs p' = facs p /\ get_all_variables (p_graph p') = get_all_variables (p_graph p).
Proof.
  intros (T & _) Hf. destruct (traced_keeps _ _ T Hf) as (A & B & C & _). simpl in *. split; auto. split; auto.
  unfold facs, get_all_factors, get_all_variables. rewrite C. auto.
Qed.

(** the recorded statistics are those of the current variable values *)
Definition described (p : pstate) : Prop :=
  exists r, stacked (p_heap p) (facs p) r /\ ss_chi2 (p_cur p) = sqnorm r /\ ss_resnorm (p_cur p) = vnorm r.

Ltac bind H := let p1 := fresh "p" in let a := fresh "a" in let E := fresh "E" in
  apply bind_ok in H; destruct H as (p1 & a & E & H).

(** parts of the state fixed by the initial phase of a step *)
Lemma residual1_ok p p' : pfin p -> m_residual1 EV p = (p', Ok tt) ->
  pfin p' /\ p_heap p' = p_heap p /\ p_graph p' = p_graph p /\ p_cur p' = p_cur p /\ p_set p' = p_set p /\ p_init p' = p_init p /\
  stacked (p_heap p) (facs p) (p_r1 p').
Proof.
  intros Hf E. unfold m_residual1 in E. destruct (compute_residual_into _ _ _ _) as [b o] eqn:C. inversion E; subst.
  unfold pfin, facs. simpl. split; auto. split; auto. split; auto. split; auto. split; auto. split; auto. eapply residual_into_inv; eauto.
Qed.
Lemma residual2_ok p p' : pfin p -> m_residual2 EV p = (p', Ok tt) ->
  pfin p' /\ p_heap p' = p_heap p /\ p_graph p' = p_graph p /\ p_cur p' = p_cur p /\ p_set p' = p_set p /\ p_init p' = p_init p /\
  stacked (p_heap p) (facs p) (p_r2 p').
Proof.
  intros Hf E. unfold m_residual2 in E. destruct (compute_residual_into _ _ _ _) as [b o] eqn:C. inversion E; subst.
  unfold pfin, facs. simpl. split; auto. split; auto. split; auto. split; auto. split; auto. split; auto. eapply residual_into_inv; eauto.
Qed.
Lemma sparse_ok p p' r : pfin p -> m_sparse VC p = (p', r) ->
  pfin p' /\ p_heap p' = p_heap p /\ facs p' = facs p /\ p_cur p' = p_cur p /\ p_set p' = p_set p /\ p_init p' = p_init p /\ p_r1 p' = p_r1 p.
Proof.
  intros Hf E. pose proof (frames_sparse VC EV HE p p' r E) as F. apply frame_keeps in F; auto. destruct F as (F1 & _ & F2 & _).
  unfold m_sparse in E. destruct (compute_sparse _ _ _) as [g o]. inversion E; subst. auto 10.
Qed.

Definition silent {A} (m : M A) : Prop := forall p p' r, m p = (p', r) ->
  p_heap p' = p_heap p /\ p_graph p' = p_graph p /\ p_cur p' = p_cur p /\ p_set p' = p_set p /\ p_init p' = p_init p /\ p_r1 p' = p_r1 p.
Lemma silent_factorize H : silent (m_factorize SV H). Proof. intros p p' r E. inversion E; subst. auto 10. Qed.
Lemma silent_solve b : silent (m_solve SV b).
Proof. intros p p' r E. unfold m_solve in E. destruct (sv_solve _ _ _). inversion E; subst. auto 10. Qed.
Lemma silent_get {A} (f : pstate -> A) : silent (get f). Proof. intros p p' r E. inversion E; subst. auto 10. Qed.
Lemma silent_lift {A} (o : outcome A) : silent (lift o). Proof. intros p p' r E. inversion E; subst. auto 10. Qed.
Lemma silent_state p p' : p_heap p' = p_heap p /\ p_graph p' = p_graph p /\ p_cur p' = p_cur p /\ p_set p' = p_set p /\ p_init p' = p_init p /\ p_r1 p' = p_r1 p ->
  (pfin p -> pfin p') /\ facs p' = facs p.
Proof. unfold pfin, facs. intros (-> & -> & _). auto. Qed.

Lemma gn_step_spec p p' : pfin p -> described p -> gn_step VC SV EV p = (p', Ok tt) -> described p'.
Proof.
  intros Hf Hd H. pose proof (frames_gn VC SV EV HE p p' _ H) as F. apply frame_keeps in F; auto. destruct F as (Hf' & _ & Hfs & _).
  unfold gn_step in H.
  bind H. destruct a. apply residual1_ok in E; auto. destruct E as (A0 & A1 & A2 & A3 & _ & _ & _).
  bind H. apply sparse_ok in E; auto. destruct E as (B0 & B1 & _ & B3 & _).
  bind H. apply silent_get in E. bind H. apply silent_lift in E0. bind H. apply silent_factorize in E1.
  assert (C : p_heap p4 = p_heap p /\ p_cur p4 = p_cur p /\ pfin p4).
  { destruct E as (q1 & b1 & c1 & _), E0 as (q2 & b2 & c2 & _), E1 as (q3 & b3 & c3 & _).
    split; [congruence|]. split; [congruence|]. unfold pfin in *. rewrite q3, q2, q1, b3, b2, b1. exact B0. }
  clear E E0 E1. destruct C as (C1 & C2 & C3).
  assert (Fail : forall q st, p_heap q = p_heap p -> p_cur q = p_cur p -> m_fail st q = (p', Ok tt) -> described p').
  { intros q st Q1 Q2 Q. inversion Q; subst p'. destruct Hd as (r & D1 & D2 & D3). exists r. rewrite Hfs. simpl. rewrite Q1, Q2. auto. }
  destruct (negb _); [eapply Fail; eauto|].
  bind H. apply silent_get in E. bind H. apply silent_lift in E0. bind H. apply silent_lift in E1.
  assert (D : p_heap p7 = p_heap p /\ p_cur p7 = p_cur p /\ pfin p7).
  { destruct E as (q1 & b1 & c1 & _), E0 as (q2 & b2 & c2 & _), E1 as (q3 & b3 & c3 & _).
    split; [congruence|]. split; [congruence|]. unfold pfin in *. rewrite q3, q2, q1, b3, b2, b1. exact C3. }
  clear E E0 E1. destruct D as (D1 & D2 & D3).
  destruct (nltb _ _); [eapply Fail; eauto|].
  destruct (nltb _ _); [eapply Fail; eauto|].
  bind H. apply silent_solve in E. destruct E as (e1 & e2 & e3 & _).
  destruct (negb _); [eapply Fail; [| |eauto]; congruence|].
  bind H. apply silent_get in E. destruct E as (f1 & f2 & f3 & _).
  assert (Hf9 : pfin p9) by (unfold pfin in *; rewrite f1, f2, e1, e2; exact D3).
  bind H. apply (frames_apply VC EV HE) in E. apply frame_keeps in E; auto. destruct E as (G1 & _ & G2 & _).
  bind H. repeat match goal with u : unit |- _ => destruct u end. apply residual2_ok in E; auto. destruct E as (K0 & K1 & K2 & K3 & _ & _ & K4).
  bind H. inversion E; subst. inversion H; subst p'. exists (p_r2 p12). split; [|simpl; auto].
  assert (X : facs p12 = facs p10) by (unfold facs; congruence).
  change (stacked (p_heap p12) (facs p12) (p_r2 p12)). rewrite X, K1. exact K4.
Qed.
Lemma described_iff p q : p_heap q = p_heap p -> facs q = facs p -> ss_chi2 (p_cur q) = ss_chi2 (p_cur p) ->
  ss_resnorm (p_cur q) = ss_resnorm (p_cur p) -> described p -> described q.
Proof. intros A B C D (r & H1 & H2 & H3). exists r. rewrite A, B, C, D. auto. Qed.

Ltac bindn H p1 a E := apply bind_ok in H; destruct H as (p1 & a & E & H).
Section Rollback.
Context (I : V -> Prop).
Hypothesis HI : undoable VC I.

(** one Levenberg-Marquardt step: accepted with a lower cost, or the variables are as before *)
Lemma lm_step_spec p p' : pfin p -> heldI I (p_heap p) -> lm_step VC SV EV p = (p', Ok tt) ->
  heldI I (p_heap p') /\ described p' /\ p_set p' = p_set p /\ p_init p' = p_init p /\
  exists r1 r2, stacked (p_heap p) (facs p) r1 /\ stacked (p_heap p') (facs p) r2 /\ ss_chi2 (p_cur p') = sqnorm r2 /\
   ss_resnorm (p_cur p') = vnorm r2 /\ ss_iter (p_cur p') = Datatypes.S (ss_iter (p_cur p)) /\
   ((p_heap p' = p_heap p /\ r2 = r1 /\
      (nltb (nmul (nlit (1#2)) (sqnorm r1)) (nmul (ss_chi2 (p_init p)) (nlit (1#2))) = true /\ ss_valid (p_cur p') = true /\ ss_status (p_cur p') = SUCCESS \/
       failed (p_cur p')))
    \/ nltb (nmul (nlit (1#2)) (sqnorm r2)) (nmul (nlit (1#2)) (sqnorm r1)) = true /\
       ss_valid (p_cur p') = ss_valid (p_cur p) /\ ss_status (p_cur p') = ss_status (p_cur p)).
Proof.
  intros Hf Hh H. pose proof (frames_lm VC SV EV HE p p' _ H) as F. pose proof F as (_ & FS & FI & _).
  apply frame_keeps in F; auto. destruct F as (Hf' & _ & Hfs & _).
  unfold lm_step in H.
  bindn H q1 a1 E. destruct a1. apply residual1_ok in E; auto. destruct E as (A0 & A1 & A2 & A3 & A4 & A5 & A6).
  bindn H q2 J E. apply sparse_ok in E; auto. destruct E as (B0 & B1 & B2 & B3 & B4 & B5 & B6).
  bindn H q3 x3 E. unfold get in E. injection E as <- <-.
  bindn H q4 x4 E. unfold get in E. injection E as <- <-.
  bindn H q5 x5 E. unfold get in E. injection E as <- <-.
  bindn H q6 x6 E.
  assert (C : p_heap q6 = p_heap p /\ facs q6 = facs p /\ pfin q6 /\ p_init q6 = p_init p /\ p_r1 q6 = p_r1 q1 /\ lam_eq (p_cur p) (p_cur q6)).
  { assert (X : facs q1 = facs p) by (unfold facs; congruence).
    match type of E with (if ?b then _ else _) _ = _ => destruct b end; inversion E; subst; simpl.
    - split; [congruence|]. split; [unfold facs in *; simpl; congruence|]. split; [exact B0|]. split; [congruence|]. split; [congruence|].
      unfold lam_eq. simpl. rewrite B3, A3. repeat split.
    - split; [congruence|]. split; [congruence|]. split; [exact B0|]. split; [congruence|]. split; [congruence|].
      rewrite B3, A3. apply lam_eq_refl. }
  clear E. destruct C as (C1 & C2 & C3 & C4 & C5 & C6). rewrite B6 in H.
  bindn H q7 res E. destruct res as [acc dx']. pose proof (frames_lm_loop VC SV EV HE _ _ _ _ _ _ _ E) as FL. apply frame_keeps in FL; auto. destruct FL as (D0 & _ & D1 & _).
  assert (Hh2 : heldI I (p_heap q6)) by (rewrite C1; auto).
  destruct (lm_loop_spec VC SV EV Hok HE I HI _ _ _ _ _ _ _ _ C3 Hh2 E) as (D2 & D3 & D4). clear E.
  change (get_all_factors (p_graph q6)) with (facs q6) in D4. rewrite C2 in D1, D4.
  destruct D3 as (_ & _ & D5 & D6 & D7). pose proof (lam_eq_trans _ _ _ C6 D7) as L. clear D7.
  simpl in H. destruct acc.
  - bindn H q8 x8 E. unfold get in E. injection E as <- <-. destruct D4 as (D4 & D4').
    injection H as <-. split; auto.
    split; [exists (p_r2 q7); split; [rewrite Hfs; exact D4|simpl; auto]|]. split; auto. split; auto.
    exists (p_r1 q1), (p_r2 q7). split; auto. split; auto. split; auto. split; auto. simpl. destruct L as (L1 & L2 & _ & _ & _ & L6). split; [congruence|].
    right. split; auto.
  - bindn H q8 x8 E. unfold get in E. injection E as <- <-. bindn H q9 x9 E. unfold get in E. injection E as <- <-.
    bindn H q10 x10 E. bindn H q11 x11 E1. unfold mupd in E1. injection E1 as <- <-. injection H as <-.
    assert (X : p_heap q10 = p_heap q7 /\ ss_iter (p_cur q10) = ss_iter (p_cur q7) /\
       (nltb (nmul (nlit (1 # 2)) (sqnorm (p_r1 q1))) (nmul (ss_chi2 (p_init q7)) (nlit (1#2))) = true /\ ss_valid (p_cur q10) = true /\ ss_status (p_cur q10) = SUCCESS \/
       failed (p_cur q10))).
    { destruct (nltb _ _) eqn:En; injection E as <- <-; simpl.
      - split; auto.
      - split; auto. split; auto. right. split; auto. simpl. destruct (nleb _ _); unfold failure; tauto. }
    destruct X as (X1 & X2 & X3). clear E.
    assert (Hsame : p_heap q10 = p_heap p) by congruence.
    split; [simpl; rewrite Hsame; auto|].
    split; [exists (p_r1 q1); split; [rewrite Hfs; simpl; rewrite Hsame; exact A6|simpl; auto]|]. split; auto. split; auto.
    exists (p_r1 q1), (p_r1 q1). split; auto. split; [simpl; rewrite Hsame; auto|]. split; auto. split; auto. destruct L as (_ & _ & _ & _ & _ & L6).
    split; [simpl; congruence|].
    left. split; [exact Hsame|]. split; auto. rewrite <- C4, <- D5. exact X3.
Qed.
End Rollback.

(** ** Invariants of the iteration *)
Lemma opt_loop_inv (P : pstate -> Prop) n :
  (forall p p', P p -> one_step VC SV EV p = (p', Ok tt) -> P p') ->
  (forall p st, P p -> P (fst (m_status st p)) /\ P (fst (m_fail st p))) ->
  forall p p', P p -> opt_loop VC SV EV n p = (p', Ok tt) -> p_caught p' = false -> P p'.
Proof.
  intros H1 H2. induction n; intros p p' Hp E Hc; cbn [opt_loop] in E; [inversion E; subst; auto|].
  destruct (one_step VC SV EV p) as [p1 [[]|e|u]] eqn:E1; [|inversion E; subst; discriminate|discriminate].
  pose proof (H1 _ _ Hp E1) as Hp1.
  destruct (ss_status (p_cur p1)); try (inversion E; subst; auto; fail).
  all: repeat match type of E with (if ?b then _ else _) = _ => destruct b end;
    try (eapply IHn; eauto; fail);
    match type of E with m_status ?st ?q = _ => pose proof (proj1 (H2 q st Hp1)) as X | m_fail ?st ?q = _ => pose proof (proj2 (H2 q st Hp1)) as X end;
    rewrite E in X; exact X.
Qed.
(** the exception handler is the only way to set the ghost flag, and it reports FAILED *)
Lemma opt_loop_caught n : forall p p', p_caught p = false -> opt_loop VC SV EV n p = (p', Ok tt) -> p_caught p' = true ->
  ss_status (p_cur p') = FAILED /\ ss_valid (p_cur p') = false.
Proof.
  induction n; intros p p' Hp E Hc; cbn [opt_loop] in E; [inversion E; subst; congruence|].
  destruct (one_step VC SV EV p) as [p1 [[]|e|u]] eqn:E1; [|inversion E; subst; auto|discriminate].
  apply (frames_one VC SV EV HE) in E1. destruct E1 as (_ & _ & _ & _ & _ & _ & _ & X). rewrite Hp in X.
  destruct (ss_status (p_cur p1)); try (inversion E; subst; congruence).
  all: repeat match type of E with (if ?b then _ else _) = _ => destruct b end;
    try (eapply IHn; eauto; fail); inversion E; subst; simpl in *; congruence.
Qed.
Lemma compute_residual_inv E h (g g' : graph) r : env_ok E -> fin VC h g -> compute_residual E h g = (g', Ok r) ->
  stacked h (get_all_factors g) r /\ g_reg g' = g_reg g.
Proof.
  intros He Hf H. unfold compute_residual in H. destruct (negb _); [discriminate|].
  destruct (compute_residual_into E h g _) as [b [[]|e|u]] eqn:C; inversion H; subst. split; auto. eapply residual_into_inv; eauto.
Qed.
Lemma optimize_inv p p' : pfin p -> optimize VC SV EV p = (p', Ok tt) ->
  exists p1 p2 r, stacked (p_heap p) (facs p) r /\ pfin p1 /\ p_heap p1 = p_heap p /\ facs p1 = facs p /\ p_set p1 = p_set p /\ p_caught p1 = false /\
    p_cur p1 = Stats true RUNNING (sqnorm r) (ss_delta stats0) (vnorm r) 0 (ss_lambda stats0) /\ p_init p1 = p_cur p1 /\
    opt_loop VC SV EV (st_max_iter (p_set p)) p1 = (p2, Ok tt) /\ 
    (p' = w_complete true p2 \/ ss_status (p_cur p2) = RUNNING /\ p' = w_complete true (fst (m_status SUCCESS p2))).
Proof.
  intros Hf E. unfold optimize in E. destruct (negb _); [discriminate|].
  destruct (compute_residual _ _ _) as [g [r0|e|u]] eqn:C; [|inversion E..].
  match type of E with context [opt_loop _ _ _ ?n ?q] => destruct (opt_loop VC SV EV n q) as [p2 o] eqn:E2; exists q end.
  destruct o as [[]|e|u]; inversion E; subst; clear E. simpl in C.
  assert (Hf' : fin VC (p_heap p) g).
  { assert (T : traced VC (p_heap p, p_graph p) (p_heap p, g)).
    { eapply (traced_one VC (EV (p_tick p)) _ OResidual); simpl; auto. rewrite C. reflexivity. }
    apply traced_keeps in T; auto. apply T. }
  apply compute_residual_inv in C; auto. destruct C as (C1 & C2).
  exists p2, r0. split; auto. split; [exact Hf'|]. split; auto. split; [unfold facs, get_all_factors; simpl; rewrite C2; auto|].
  split; auto. split; auto. split; auto. split; auto. split; [exact E2|]. destruct (ss_status (p_cur p2)); auto.
Qed.
Lemma optimize_caught p p' : pfin p -> optimize VC SV EV p = (p', Ok tt) -> p_caught p' = true ->
  ss_status (p_cur p') = FAILED /\ ss_valid (p_cur p') = false.
Proof.
  intros Hf E Hc. destruct (optimize_inv _ _ Hf E) as (p1 & p2 & r & _ & _ & _ & _ & _ & B & _ & _ & L & D).
  assert (Hc2 : p_caught p2 = true) by (destruct D as [->|[_ ->]]; simpl in Hc; auto).
  destruct (opt_loop_caught _ _ _ B L Hc2) as (X & Y). destruct D as [->|[D _]]; auto. congruence.
Qed.

(** the history of the graph extends through an optimisation *)
Lemma frames_opt_loop n : forall p p' r, opt_loop VC SV EV n p = (p', r) -> traced VC (p_heap p, p_graph p) (p_heap p', p_graph p').
Proof.
  induction n; intros p p' r E; cbn [opt_loop] in E; [inversion E; subst; apply traced_refl|].
  destruct (one_step VC SV EV p) as [p1 o] eqn:E1. apply (frames_one VC SV EV HE) in E1. destruct E1 as (T & _).
  destruct o as [[]|e|u]; try (inversion E; subst; exact T).
  destruct (ss_status (p_cur p1)); try (inversion E; subst; exact T);
  repeat match type of E with (if ?b then _ else _) = _ => destruct b end; try (inversion E; subst; exact T).
  all: eapply traced_trans; eauto.
Qed.
Lemma optimize_traced p p' r : optimize VC SV EV p = (p', r) -> traced VC (p_heap p, p_graph p) (p_heap p', p_graph p').
Proof.
  intros E. unfold optimize in E. destruct (negb _); [inversion E; subst; apply traced_refl|].
  destruct (compute_residual _ _ _) as [g o] eqn:C. simpl in C.
  assert (T : traced VC (p_heap p, p_graph p) (p_heap p, g)).
  { eapply (traced_one VC (EV (p_tick p)) _ OResidual); simpl; auto. rewrite C. reflexivity. }
  destruct o as [r0|e|u]; try (inversion E; subst; exact T).
  match type of E with context [opt_loop _ _ _ ?n ?q] => destruct (opt_loop VC SV EV n q) as [p2 o] eqn:E2 end.
  apply frames_opt_loop in E2. eapply traced_trans; [exact T|].
  destruct o as [[]|e|u]; inversion E; subst; try exact E2. destruct (ss_status (p_cur p2)); exact E2.
Qed.
Theorem optimize_history l1 l2 h1 (g1 : graph) p p' r : finalized_history VC l1 l2 h1 (p_heap p) g1 (p_graph p) ->
  optimize VC SV EV p = (p', r) -> exists l2', finalized_history VC l1 l2' h1 (p_heap p') g1 (p_graph p').
Proof.
  intros (g0 & A & B & C & D) E. apply optimize_traced in E. destruct E as (l & Hl & Hr).
  exists (l2 ++ l). exists g0. split; auto. split; auto. split; [apply Forall_app; auto|]. rewrite (run_app VC). rewrite D. exact Hr.
Qed.

(** ** C21 *)
Theorem optimize_described_gn p p' : pfin p -> st_method (p_set p) = GaussNewton -> optimize VC SV EV p = (p', Ok tt) -> p_caught p' = false ->
  described p' /\ exists r, stacked (p_heap p) (facs p) r /\ ss_chi2 (p_init p') = sqnorm r /\ ss_resnorm (p_init p') = vnorm r.
Proof.
  intros Hf Hm E Hc. destruct (optimize_inv _ _ Hf E) as (p1 & p2 & r & A1 & A2 & A3 & A4 & A5 & A6 & A7 & A8 & L & D).
  set (P := fun q => pfin q /\ described q /\ p_set q = p_set p /\ p_init q = p_init p1).
  assert (HP : P p2).
  { eapply (opt_loop_inv P); [| | |exact L|].
    - intros q q' (B1 & B2 & B3 & B4) Eq. pose proof (frames_one VC SV EV HE _ _ _ Eq) as F. pose proof F as (_ & F1 & F2 & _).
      apply frame_keeps in F; auto. split; [apply F|]. split; [|split; congruence].
      unfold one_step in Eq. rewrite B3, Hm in Eq. eapply gn_step_spec; eauto.
    - intros q st (B1 & B2 & B3 & B4). split; (split; [exact B1|split; [|auto]]); eapply described_iff; eauto; reflexivity.
    - split; auto. split; auto. exists r. rewrite A3, A4, A7. auto.
    - destruct D as [->|[_ ->]]; exact Hc. }
  destruct HP as (B1 & B2 & B3 & B4).
  assert (X : described p' /\ p_init p' = p_init p2).
  { destruct D as [->|[_ ->]]; simpl; split; auto; eapply described_iff; try exact B2; reflexivity. }
  destruct X as (X1 & X2). split; auto. exists r. rewrite X2, B4, A8, A7. auto.
Qed.

(** ** C19, C20, C21 for Levenberg-Marquardt *)
Section Rollback2.
Context (I : V -> Prop).
Hypothesis HI : undoable VC I.
Theorem optimize_lm p p' : cost_order (N:=N) -> pfin p -> heldI I (p_heap p) -> st_method (p_set p) = LevenbergMarquardt ->
  optimize VC SV EV p = (p', Ok tt) -> p_caught p' = false ->
  exists r0 r1, stacked (p_heap p) (facs p) r0 /\ stacked (p_heap p') (facs p') r1 /\
    ss_chi2 (p_init p') = sqnorm r0 /\ ss_resnorm (p_init p') = vnorm r0 /\ ss_chi2 (p_cur p') = sqnorm r1 /\ ss_resnorm (p_cur p') = vnorm r1 /\
    (p_heap p' = p_heap p \/ nltb (sqnorm r1) (sqnorm r0) = true).
Proof.
  intros HO Hf Hh Hm E Hc. destruct (optimize_inv _ _ Hf E) as (p1 & p2 & r & A1 & A2 & A3 & A4 & A5 & A6 & A7 & A8 & L & D).
  set (P := fun q => pfin q /\ heldI I (p_heap q) /\ facs q = facs p /\ p_set q = p_set p /\ p_init q = p_init p1 /\
    exists r1, stacked (p_heap q) (facs p) r1 /\ ss_chi2 (p_cur q) = sqnorm r1 /\ ss_resnorm (p_cur q) = vnorm r1 /\
      (p_heap q = p_heap p \/ nltb (sqnorm r1) (sqnorm r) = true)).
  assert (HP : P p2).
  { eapply (opt_loop_inv P); [| | |exact L|].
    - intros q q' (B1 & B2 & B3 & B4 & B5 & r1 & B6 & B7 & B8 & B9) Eq. pose proof (frames_one VC SV EV HE _ _ _ Eq) as F. pose proof F as (_ & F1 & F2 & _).
      apply frame_keeps in F; auto. destruct F as (F3 & _ & F4 & _).
      unfold one_step in Eq. rewrite B4, Hm in Eq. destruct (lm_step_spec I HI _ _ B1 B2 Eq) as (C1 & C2 & _ & _ & s1 & s2 & C3 & C4 & C5 & C6 & _ & C7).
      split; auto. split; auto. split; [congruence|]. split; [congruence|]. split; [congruence|].
      rewrite B3 in *. assert (s1 = r1) by (eapply stacked_fun; eauto). subst s1.
      exists s2. split; auto. split; auto. split; auto. destruct C7 as [(C7 & -> & _)|(C7 & _)].
      + rewrite C7. auto.
      + apply (co_half HO) in C7. right. destruct B9 as [B9|B9]; [|eapply (co_trans HO); eauto].
        rewrite B9 in B6. assert (r1 = r) by (exact (stacked_fun _ _ _ _ B6 A1)). congruence.
    - intros q st H. split; exact H.
    - split; auto. split; [rewrite A3; auto|]. split; auto. split; auto. split; auto. exists r. rewrite A3, A7. auto 10.
    - destruct D as [->|[_ ->]]; exact Hc. }
  destruct HP as (B1 & B2 & B3 & B4 & B5 & r1 & B6 & B7 & B8 & B9).
  assert (X : p_heap p' = p_heap p2 /\ facs p' = facs p2 /\ p_init p' = p_init p2 /\ ss_chi2 (p_cur p') = ss_chi2 (p_cur p2) /\ ss_resnorm (p_cur p') = ss_resnorm (p_cur p2)).
  { destruct D as [->|[_ ->]]; simpl; auto 10. }
  destruct X as (X1 & X2 & X3 & X4 & X5). exists r, r1. rewrite X1, X2, X3, X4, X5, B3, B5, A8, A7. simpl. auto 10.
Qed.
End Rollback2.

(** ** C13: constants *)
Definition consts_restore (h : @heap V) : Prop := forall a v, nth_error h a = Some v -> vconst VC v = true -> restores VC v.
Definition CR (h h' : @heap V) : Prop := const_kept VC h h' /\ hpres VC true h h' /\ length h' = length h.
Lemma CR_refl h : CR h h. Proof. split; [apply const_kept_refl|]. split; auto. apply hpres_refl. Qed.
Lemma CR_trans h1 h2 h3 : CR h1 h2 -> CR h2 h3 -> CR h1 h3.
Proof. intros (A & B & C) (D & E & F). split; [eapply const_kept_trans; eauto|]. split; [eapply hpres_trans; eauto|congruence]. Qed.
Lemma CR_consts h h' : CR h h' -> consts_restore h -> consts_restore h'.
Proof.
  intros (A & B & L) H a v Ha C. destruct (nth_error h a) as [w|] eqn:Hw; [|apply nth_error_None in Hw; assert (a < length h') by (apply nth_error_Some; congruence); lia].
  destruct (B a w Hw) as (v' & Hv' & (_ & _ & Hc)). assert (v' = v) by congruence. subst v'. specialize (Hc eq_refl).
  assert (Hcw : vconst VC w = true) by congruence. pose proof (A a w Hw Hcw) as X. assert (w = v) by congruence. subst. eauto.
Qed.
Lemma hupd_length (h : @heap V) a f h' r : hupd h a f = (h', r) -> length h' = length h.
Proof. unfold hupd. destruct (hget h a) as [v| |]; [destruct (f v)|..]; intros E; inversion E; subst; auto. apply lupd_length. Qed.
Lemma inc_length ck h (g : graph) vs dx h' r : inc_loop VC ck h g vs dx = (h', r) -> length h' = length h.
Proof.
  revert h. induction vs as [|a t IH]; simpl; intros h E; [inversion E; auto|].
  destruct (hget h a) as [v| |]; try (inversion E; subst; auto; fail).
  destruct (vconst VC v); [auto|]. destruct (variable_placement g (vid VC v)); [|auto].
  destruct (ck && _); [inversion E; subst; auto|].
  destruct (segment _ _ dx) as [s|e|u]; try (inversion E; subst; auto; fail).
  destruct (hupd h a _) as [h1 o] eqn:U. apply hupd_length in U. destruct o as [[]|e|u]; [apply IH in E; congruence|inversion E; subst; auto..].
Qed.
Lemma inc_CR ck h (g : graph) vs dx h' r : inc_loop VC ck h g vs dx = (h', r) -> CR h h'.
Proof. intros E. split; [eapply inc_loop_const; eauto|]. split; [eapply inc_loop_pres; eauto|eapply inc_length; eauto]. Qed.
Lemma restore_CR h h1 vs xs h2 r : consts_restore h -> values_of VC h vs = Ok xs -> CR h h1 -> restore_loop VC h1 vs xs = (h2, r) -> CR h h2.
Proof.
  intros Hc. revert h1 xs. induction vs as [|a t IH]; simpl; intros h1 xs Ev HC E; [inversion E; subst; auto|].
  unfold hget in Ev. destruct (nth_error h a) as [v|] eqn:Ha; [|discriminate]. simpl in Ev.
  destruct (values_of VC h t) as [xt| |] eqn:Et; inversion Ev; subst.
  assert (Step : forall h3 o, hupd h1 a (fun w => vset VC w (vval VC v)) = (h3, o) -> CR h h3).
  { intros h3 o U. destruct HC as (A & B & C). split; [|split].
    - intros b w Hb Hw. pose proof (A b w Hb Hw) as A1. unfold hupd, hget in U. destruct (nth_error h1 a) as [v1|] eqn:E1; [|inversion U; subst; auto].
      destruct (vset VC v1 (vval VC v)) as [v2| |] eqn:Es; inversion U; subst; auto.
      rewrite lupd_nth. destruct (Nat.eqb_spec a b); simpl; auto. subst b. rewrite (proj2 (Nat.ltb_lt _ _)) by (apply nth_error_Some; congruence).
      assert (w = v) by congruence. subst w. assert (v1 = v) by congruence. subst v1.
      pose proof (Hc a v Ha Hw) as R. unfold restores in R. congruence.
    - eapply hpres_trans; [exact B|]. eapply hupd_pres; [|exact U]. intros w w' Hw. destruct (ok_set _ Hok _ _ _ Hw) as (?&?&?). unfold same_obj; auto.
    - apply hupd_length in U. congruence. }
  destruct (hupd h1 a _) as [h3 o] eqn:U. pose proof (Step _ _ eq_refl) as C3.
  destruct o as [[]|e|u]; [eapply IH; eauto|inversion E; subst; auto..].
Qed.
Lemma lm_loop_CR n : forall J cost dx p p' r, consts_restore (p_heap p) -> lm_loop VC SV EV n J cost dx p = (p', r) -> CR (p_heap p) (p_heap p').
Proof.
  induction n; intros J cost dx p p' r Hc E; [inversion E; subst; apply CR_refl|].
  apply lm_attempt in E. destruct E as [B A1|p1 dx1 A1 A2 A3|dx1 o A1 B|dx1 k buf A1 A2 A3 A4 A5|dx1 h1 h2 xs o A1 A2 A3 A4 A5].
  - rewrite A1. apply CR_refl.
  - rewrite <- A1 in *. eauto.
  - eapply inc_CR; eauto.
  - eapply inc_CR; eauto.
  - pose proof (restore_CR _ _ _ _ _ _ Hc A1 (inc_CR _ _ _ _ _ _ _ A2) A3) as X.
    destruct o as [[]|e|u]; [|destruct A4 as (_ & ->); [discriminate|exact X]..].
    destruct (A5 eq_refl) as (p1 & C1 & C2 & [(-> & _)|C3]); [rewrite C1; auto|].
    eapply CR_trans; [exact X|]. rewrite <- C1. eapply IHn; [|exact C3]. rewrite C1. eapply CR_consts; eauto.
Qed.
(** a step keeps constants; for Levenberg-Marquardt this needs constants that restore exactly *)
Definition keeps {A} (m : M A) : Prop := forall p p' r, m p = (p', r) -> consts_restore (p_heap p) -> CR (p_heap p) (p_heap p').
Lemma keeps_bind {A B} (m : M A) (f : A -> M B) : keeps m -> (forall a, keeps (f a)) -> keeps (mbind m f).
Proof.
  intros Hm Hf p p' r E Hc. unfold mbind in E. destruct (m p) as [p1 [a|e|u]] eqn:Em; pose proof (Hm _ _ _ Em Hc) as C1.
  - eapply CR_trans; [exact C1|]. eapply Hf; eauto. eapply CR_consts; eauto.
  - inversion E; subst; auto.
  - inversion E; subst; auto.
Qed.
Lemma keeps_id {A} (m : M A) : (forall p, p_heap (fst (m p)) = p_heap p) -> keeps m.
Proof. intros H p p' r E _. specialize (H p). rewrite E in H. simpl in H. rewrite H. apply CR_refl. Qed.
Lemma keeps_residual1 : keeps (m_residual1 EV). Proof. apply keeps_id. intros p. unfold m_residual1. destruct (compute_residual_into _ _ _ _); auto. Qed.
Lemma keeps_sparse : keeps (m_sparse VC). Proof. apply keeps_id. intros p. unfold m_sparse. destruct (compute_sparse _ _ _); auto. Qed.
Lemma keeps_lm : keeps (lm_step VC SV EV).
Proof.
  unfold lm_step. apply keeps_bind; [apply keeps_residual1|intros ?]. apply keeps_bind; [apply keeps_sparse|intros ?].
  do 3 (apply keeps_bind; [apply keeps_id; auto|intros ?]). apply keeps_bind; [destruct (_ =? _); apply keeps_id; auto|intros ?].
  apply keeps_bind; [intros p p' r E Hc; eapply lm_loop_CR; eauto|intros res]. destruct (fst res).
  - apply keeps_bind; [apply keeps_id; auto|intros ?]. apply keeps_id; auto.
  - do 2 (apply keeps_bind; [apply keeps_id; auto|intros ?]).
    apply keeps_bind; [destruct (nltb _ _); apply keeps_id; auto|intros ?].
    apply keeps_bind; [apply keeps_id; auto|intros ?]. apply keeps_id; auto.
Qed.
Definition heap_const (p p' : pstate) : Prop := const_kept VC (p_heap p) (p_heap p').
Lemma heap_const_trans p1 p2 p3 : heap_const p1 p2 -> heap_const p2 p3 -> heap_const p1 p3.
Proof. apply const_kept_trans. Qed.
Lemma hc_id {A} (m : M A) : (forall p, p_heap (fst (m p)) = p_heap p) -> resp heap_const m.
Proof. intros H p p' r E. specialize (H p). rewrite E in H. simpl in H. unfold heap_const. rewrite H. apply const_kept_refl. Qed.
Lemma hc_apply dx : resp heap_const (m_apply VC dx).
Proof. intros p p' r E. unfold m_apply in E. destruct (inc_loop _ _ _ _ _ _) as [h o] eqn:C. inversion E; subst. eapply inc_loop_const; eauto. Qed.
Lemma gn_const : resp heap_const (gn_step VC SV EV).
Proof.
  unfold gn_step. repeat first [ apply (resp_bind heap_const heap_const_trans); [|intros ?]
    | match goal with |- resp heap_const (if ?b then _ else _) => destruct b end | apply hc_apply ]; apply hc_id; intros q; auto.
  - unfold m_residual1. destruct (compute_residual_into _ _ _ _); auto.
  - unfold m_sparse. destruct (compute_sparse _ _ _); auto.
  - unfold m_solve. destruct (sv_solve _ _ _); auto.
  - unfold m_residual2. destruct (compute_residual_into _ _ _ _); auto.
Qed.
Lemma opt_loop_rel (R : @heap V -> @heap V -> Prop) (Q : pstate -> Prop) n : (forall h, R h h) -> (forall a b c, R a b -> R b c -> R a c) ->
  (forall p p' r, Q p -> one_step VC SV EV p = (p', r) -> R (p_heap p) (p_heap p') /\ Q p') ->
  forall p p' r, Q p -> opt_loop VC SV EV n p = (p', r) -> R (p_heap p) (p_heap p').
Proof.
  intros R0 R1 H1. induction n; intros p p' r Hq E; cbn [opt_loop] in E; [inversion E; subst; auto|].
  destruct (one_step VC SV EV p) as [p1 o] eqn:E1. destruct (H1 _ _ _ Hq E1) as (A & B).
  destruct o as [[]|e|u]; try (inversion E; subst; exact A).
  destruct (ss_status (p_cur p1)); try (inversion E; subst; exact A);
  repeat match type of E with (if ?b then _ else _) = _ => destruct b end; try (inversion E; subst; exact A);
  eapply R1; eauto.
Qed.
Theorem optimize_const p p' r : (st_method (p_set p) = LevenbergMarquardt -> consts_restore (p_heap p)) ->
  optimize VC SV EV p = (p', r) -> const_kept VC (p_heap p) (p_heap p').
Proof.
  intros Hc E. unfold optimize in E. destruct (negb _); [inversion E; subst; apply const_kept_refl|].
  destruct (compute_residual _ _ _) as [g o] eqn:C. destruct o as [r0|e|u]; try (inversion E; subst; apply const_kept_refl).
  match type of E with context [opt_loop _ _ _ ?n ?q] => destruct (opt_loop VC SV EV n q) as [p2 o] eqn:E2; set (p1 := q) in * end.
  assert (X : const_kept VC (p_heap p) (p_heap p2)).
  { change (p_heap p) with (p_heap p1). destruct (st_method (p_set p)) eqn:Em.
    - eapply (opt_loop_rel (const_kept VC) (fun q => st_method (p_set q) = GaussNewton)); [apply const_kept_refl|apply const_kept_trans| | |exact E2]; [|exact Em].
      intros q q' r' Hq Eq. pose proof (frames_one VC SV EV HE _ _ _ Eq) as (_ & F & _). unfold one_step in Eq. rewrite Hq in Eq. split; [|congruence].
      eapply gn_const; eauto.
    - assert (Y : CR (p_heap p1) (p_heap p2)); [|apply Y].
      eapply (opt_loop_rel CR (fun q => st_method (p_set q) = LevenbergMarquardt /\ consts_restore (p_heap q))); [apply CR_refl|apply CR_trans| | |exact E2]; [|split; [exact Em|apply (Hc eq_refl)]].
      intros q q' r' (Hq & Hc') Eq. pose proof (frames_one VC SV EV HE _ _ _ Eq) as (_ & F & _). unfold one_step in Eq. rewrite Hq in Eq.
      pose proof (keeps_lm _ _ _ Eq Hc') as K. split; auto. split; [congruence|]. eapply CR_consts; eauto. }
  destruct o as [[]|e|u]; inversion E; subst; auto. destruct (ss_status (p_cur p2)); exact X.
Qed.
End Run.
