(** How optimize() ends: which test of the loop stopped it, and that no earlier iteration met one (C57). *)
From Coq Require Import List Arith ZArith QArith Bool Lia.
From Verif Require Import Base Sparse Graph SpecGraph SpecOpt SpecEnds Optimizer OptLemmas OptWork OptRun OptMore.
Import ListNotations.
Local Open Scope nat_scope.

Section Ends.
Context {N : num} {V : Type} (VC : vclass N V) {S : Type} (SV : solver N S).
Notation graph := (graph (N:=N) (V:=V)).
Notation env := (env (N:=N) (V:=V)).
Notation pstate := (pstate (N:=N) (V:=V) (S:=S)).
Notation M := (M (N:=N) (V:=V) (S:=S)).
Context (EV : nat -> env).
Hypothesis HE : forall n, env_ok (EV n).
Ltac bindn H p1 a E := apply bind_ok in H; destruct H as (p1 & a & E & H).

(** ** Each Levenberg-Marquardt step counts one iteration *)
Definition keeps {A} (m : M A) : Prop := forall p p' a, m p = (p', Ok a) -> ss_iter (p_cur p') = ss_iter (p_cur p).
Lemma keeps_bind {A B} (m : M A) (f : A -> M B) : keeps m -> (forall a, keeps (f a)) -> keeps (mbind m f).
Proof. intros H1 H2 p p' b H. bindn H q a E. rewrite (H2 _ _ _ _ H). eauto. Qed.
Ltac keep1 := intros ?p ?q ?a ?H; inversion H; subst; reflexivity.
Lemma keeps_residual1 : keeps (m_residual1 EV).
Proof. intros p p' a H. unfold m_residual1 in H. destruct (compute_residual_into _ _ _ _); inversion H; reflexivity. Qed.
Lemma keeps_residual2 : keeps (m_residual2 EV).
Proof. intros p p' a H. unfold m_residual2 in H. destruct (compute_residual_into _ _ _ _); inversion H; reflexivity. Qed.
Lemma keeps_sparse : keeps (m_sparse VC).
Proof. intros p p' a H. unfold m_sparse in H. destruct (compute_sparse _ _ _); inversion H; reflexivity. Qed.
Lemma keeps_solve b : keeps (m_solve SV b).
Proof. intros p p' a H. unfold m_solve in H. destruct (sv_solve _ _ _); inversion H; reflexivity. Qed.
Lemma keeps_apply dx : keeps (m_apply VC dx).
Proof. intros p p' a H. unfold m_apply in H. destruct (inc_loop _ _ _ _ _ _); inversion H; reflexivity. Qed.
Lemma keeps_restore xs : keeps (m_restore VC xs).
Proof. intros p p' a H. unfold m_restore in H. destruct (restore_loop _ _ _ _); inversion H; reflexivity. Qed.
Ltac kp := repeat match goal with
  | |- keeps (mbind _ _) => apply keeps_bind; [|intros ?a]
  | |- keeps (if ?b then _ else _) => destruct b
  | |- keeps (m_residual1 _) => apply keeps_residual1
  | |- keeps (m_residual2 _) => apply keeps_residual2
  | |- keeps (m_sparse _) => apply keeps_sparse
  | |- keeps (m_solve _ _) => apply keeps_solve
  | |- keeps (m_apply _ _) => apply keeps_apply
  | |- keeps (m_restore _ _) => apply keeps_restore
  | |- keeps (lm_loop _ _ _ _ _ _ _) => fail 1
  | |- keeps _ => solve [keep1]
  end.
Lemma keeps_lm_loop n : forall J c dx, keeps (lm_loop VC SV EV n J c dx).
Proof. induction n; intros J c dx; cbn [lm_loop]; kp; apply IHn. Qed.
Lemma lm_iter p p' : lm_step VC SV EV p = (p', Ok tt) -> ss_iter (p_cur p') = Datatypes.S (ss_iter (p_cur p)).
Proof.
  intros H. unfold lm_step in H. revert H. generalize 5%nat. intros n5 H.
  bindn H q1 a1 Q1. apply keeps_residual1 in Q1. bindn H q2 a2 Q2. apply keeps_sparse in Q2. bindn H q3 a3 Q3. injection Q3 as <- <-.
  bindn H q4 a4 Q4. injection Q4 as <- <-. bindn H q5 a5 Q5. injection Q5 as <- <-.
  bindn H q6 a6 Q6. assert (ss_iter (p_cur q6) = ss_iter (p_cur q2)) as X6 by (destruct (_ =? 0); inversion Q6; reflexivity). clear Q6.
  bindn H q7 a7 Q7. apply keeps_lm_loop in Q7.
  destruct (fst a7).
  - bindn H q8 a8 Q8. injection Q8 as <- <-. inversion H; subst. simpl. congruence.
  - bindn H q8 a8 Q8. injection Q8 as <- <-. bindn H q9 a9 Q9. injection Q9 as <- <-.
    bindn H q10 a10 Q10. assert (ss_iter (p_cur q10) = ss_iter (p_cur q7)) as X10 by (destruct (nltb _ _); inversion Q10; reflexivity). clear Q10.
    bindn H q11 a11 Q11. injection Q11 as <- _. inversion H; subst. simpl. congruence.
Qed.
Lemma step_iter p p' : one_step VC SV EV p = (p', Ok tt) -> healthy (p_cur p') -> ss_iter (p_cur p') = Datatypes.S (ss_iter (p_cur p)).
Proof.
  unfold one_step. destruct (st_method (p_set p)); intros H Hh; [eapply (gn_iter VC SV EV); eauto|eapply lm_iter; eauto].
Qed.

(** ** The loop *)
Definition at_iteration (p : pstate) (j : nat) (q : pstate) : Prop :=
  opt_loop VC SV EV j p = (q, Ok tt) /\ healthy (p_cur q) /\ ss_iter (p_cur q) = ss_iter (p_cur p) + j /\ p_set q = p_set p /\ p_init q = p_init p.
Lemma loop_ends n : forall p p', healthy (p_cur p) -> p_caught p = false ->
  opt_loop VC SV EV n p = (p', Ok tt) -> p_caught p' = false -> ~ failure (ss_status (p_cur p')) ->
  exists k, ss_iter (p_cur p') = ss_iter (p_cur p) + k /\ k <= n /\ p_set p' = p_set p /\ p_init p' = p_init p /\
    (forall j, j < k -> exists q, at_iteration p j q) /\
    (forall j q q', Datatypes.S j < k -> at_iteration p j q -> at_iteration p (Datatypes.S j) q' ->
       goes_on (st_step_tol (p_set p)) (st_res_tol (p_set p)) (p_init p) (p_cur q) (p_cur q')) /\
    ((k = n /\ healthy (p_cur p') /\ forall j q, k = Datatypes.S j -> at_iteration p j q ->
        goes_on (st_step_tol (p_set p)) (st_res_tol (p_set p)) (p_init p) (p_cur q) (p_cur p')) \/
     exists j q, k = Datatypes.S j /\ at_iteration p j q /\
       stops (st_step_tol (p_set p)) (st_res_tol (p_set p)) (p_init p) (p_cur q) (p_cur p') (ss_status (p_cur p'))).
Proof.
  induction n; intros p p' Hp Hc0 E Hc Hf.
  - cbn [opt_loop] in E. inversion E; subst. exists 0. split; [lia|]. split; [lia|]. split; auto. split; auto. split; [intros j Hj; lia|]. split; [intros j q q' Hj; lia|].
    left. split; auto. split; auto. discriminate.
  - cbn [opt_loop] in E. destruct (one_step VC SV EV p) as [p1 [[]|e|u]] eqn:E1; [|inversion E; subst; discriminate|discriminate].
    pose proof (frames_one VC SV EV HE _ _ _ E1) as (_ & F1 & F4 & _ & _ & _ & _ & F2). pose proof (hf_one VC SV EV _ _ _ E1 Hp) as H1.
    destruct (ss_status (p_cur p1)) eqn:Es; try (exfalso; inversion E; subst; apply Hf; rewrite Es; unfold failure; tauto).
    3: { exfalso. destruct H1 as [[_ [?|?]]|[_ [?|[?|?]]]]; congruence. }
    all: assert (Hh : healthy (p_cur p1)) by (destruct H1 as [H1|[_ [?|[?|?]]]]; auto; congruence).
    all: pose proof (step_iter _ _ E1 Hh) as Hi.
    all: assert (A0 : at_iteration p 0 p) by (split; [reflexivity|]; split; [exact Hp|]; split; [lia|]; auto).
    all: assert (A0' : forall q, at_iteration p 0 q -> q = p) by (intros q (Q & _); cbn [opt_loop] in Q; inversion Q; reflexivity).
    all: set (T1 := st_step_tol (p_set p)) in *; set (T2 := st_res_tol (p_set p)) in *; rewrite F1 in E; fold T1 T2 in E; rewrite F4 in E.
    all: fold (decrease (p_cur p) (p_cur p1)) in E.
    all: assert (Stop : forall v, stops T1 T2 (p_init p) (p_cur p) (p_cur p1) v -> ss_status (p_cur p') = v ->
        p_set p' = p_set p1 -> p_init p' = p_init p1 -> ss_iter (p_cur p') = ss_iter (p_cur p1) ->
        ss_delta (p_cur p') = ss_delta (p_cur p1) -> ss_resnorm (p_cur p') = ss_resnorm (p_cur p1) ->
        exists k, ss_iter (p_cur p') = ss_iter (p_cur p) + k /\ k <= Datatypes.S n /\ p_set p' = p_set p /\ p_init p' = p_init p /\
          (forall j, j < k -> exists q, at_iteration p j q) /\
          (forall j q q', Datatypes.S j < k -> at_iteration p j q -> at_iteration p (Datatypes.S j) q' ->
             goes_on T1 T2 (p_init p) (p_cur q) (p_cur q')) /\
          ((k = Datatypes.S n /\ healthy (p_cur p') /\ forall j q, k = Datatypes.S j -> at_iteration p j q ->
              goes_on T1 T2 (p_init p) (p_cur q) (p_cur p')) \/
           exists j q, k = Datatypes.S j /\ at_iteration p j q /\ stops T1 T2 (p_init p) (p_cur q) (p_cur p') (ss_status (p_cur p')))).
    1,3: intros v Hst Hv B1 B2 B3 B4 B5; exists 1; rewrite B3, Hi; split; [lia|]; split; [lia|]; split; [congruence|]; split; [congruence|];
      split; [intros j Hj; exists p; replace j with 0 by lia; exact A0|]; split; [intros; lia|];
      right; exists 0, p; split; auto; split; auto; rewrite Hv;
      destruct Hst; [apply stop_step|apply stop_flat|apply stop_rose|apply stop_above|apply stop_far]; unfold decrease in *; rewrite ?B4, ?B5; auto.
    all: destruct (nltb (ss_delta (p_cur p1)) T1) eqn:C1; [inversion E; subst p'; apply (Stop SUCCESS); auto; apply stop_step; auto|].
    all: destruct (nltb (decrease (p_cur p) (p_cur p1)) nzero) eqn:C2;
      [inversion E; subst p'; destruct (nleb (ss_resnorm (p_init p)) (ss_resnorm (p_cur p1))) eqn:C3;
        [apply (Stop DIVERGED); auto; apply stop_above; auto|apply (Stop SUCCESS); auto; apply stop_rose; auto]|].
    all: destruct (nltb (decrease (p_cur p) (p_cur p1)) T2) eqn:C3; [inversion E; subst p'; apply (Stop SUCCESS); auto; apply stop_flat; auto|].
    all: destruct (nltb (nmul (nlit 10) (ss_resnorm (p_init p))) (ss_resnorm (p_cur p1))) eqn:C4;
      [inversion E; subst p'; apply (Stop DIVERGED); auto; apply stop_far; auto|].
    all: clear Stop.
    all: assert (G : goes_on T1 T2 (p_init p) (p_cur p) (p_cur p1)) by (repeat split; assumption).
    all: assert (Next : forall j, opt_loop VC SV EV (Datatypes.S j) p = opt_loop VC SV EV j p1)
      by (intros j; cbn [opt_loop]; rewrite E1, Es, F1, F4; fold T1 T2; fold (decrease (p_cur p) (p_cur p1)); rewrite C1, C2, C3, C4; reflexivity).
    all: assert (At : forall j q, at_iteration p (Datatypes.S j) q <-> at_iteration p1 j q)
      by (intros j q; unfold at_iteration; rewrite Next, Hi, F1, F4, <- plus_n_Sm; simpl plus; tauto).
    all: destruct (IHn p1 p') as (k & K1 & K2 & K3 & K4 & K5 & K6 & K7); auto; [congruence|].
    all: rewrite F1, F4 in K6, K7; fold T1 T2 in K6, K7.
    all: exists (Datatypes.S k); split; [lia|]; split; [lia|]; split; [congruence|]; split; [congruence|]; split.
    1,3: intros [|j] Hj; [eauto|]; destruct (K5 j) as (q & Q); [lia|]; exists q; apply At; auto.
    all: assert (First : forall q, at_iteration p 1 q -> q = p1) by (intros q Q; apply At in Q; destruct Q as (Q & _); cbn [opt_loop] in Q; inversion Q; reflexivity).
    all: split.
    1,3: intros [|j] q q' Hj Q Q'; [rewrite (A0' _ Q), (First _ Q'); exact G|]; apply At in Q, Q'; eapply K6; [|eauto|eauto]; lia.
    all: destruct K7 as [(K7 & K8 & K9)|(j & q & K7 & K8 & K9)].
    1,3: left; split; [lia|]; split; auto; intros j q Hj Q; injection Hj as <-; destruct k as [|k];
      [assert (n = 0) by lia; subst n; cbn [opt_loop] in E; inversion E; subst p'; rewrite (A0' _ Q); exact G|apply At in Q; eapply K9; eauto].
    all: right; exists (Datatypes.S j), q; split; [lia|]; split; auto; apply At; auto.
Qed.

Lemma end_stats (q : pstate) : let c := p_cur (end_run q) in
  ss_delta c = ss_delta (p_cur q) /\ ss_resnorm c = ss_resnorm (p_cur q) /\ ss_iter c = ss_iter (p_cur q) /\
  p_init (end_run q) = p_init q /\ p_caught (end_run q) = p_caught q /\ (healthy (p_cur q) -> ss_status c = SUCCESS).
Proof.
  cbn zeta. unfold end_run. destruct (ss_status (p_cur q)) eqn:Es; repeat split; auto; intros (_ & [X|X]); simpl; congruence.
Qed.
Theorem run_ends p p' : optimize VC SV EV p = (p', Ok tt) -> p_caught p' = false ->
  ss_status (p_cur p') = SUCCESS \/ ss_status (p_cur p') = DIVERGED ->
  let k := ss_iter (p_cur p') in let t1 := st_step_tol (p_set p) in let t2 := st_res_tol (p_set p) in
  k <= st_max_iter (p_set p) /\
  (forall j, j < k -> exists q, optimize VC SV EV (limit j p) = (q, Ok tt) /\ ss_status (p_cur q) = SUCCESS /\ ss_iter (p_cur q) = j) /\
  (forall j q q', Datatypes.S j < k -> optimize VC SV EV (limit j p) = (q, Ok tt) -> optimize VC SV EV (limit (Datatypes.S j) p) = (q', Ok tt) ->
     goes_on t1 t2 (p_init p') (p_cur q) (p_cur q')) /\
  ((k = st_max_iter (p_set p) /\ ss_status (p_cur p') = SUCCESS) \/
   exists j q, k = Datatypes.S j /\ optimize VC SV EV (limit j p) = (q, Ok tt) /\
     stops t1 t2 (p_init p') (p_cur q) (p_cur p') (ss_status (p_cur p'))).
Proof.
  intros E Hc Hs. cbn zeta. apply optimize_ok in E. destruct E as (Hg & g & r & p2 & C & E & ->).
  destruct (end_stats p2) as (D1 & D2 & D3 & D4 & D5 & D6). cbn zeta in *. rewrite D3, D4. rewrite D5 in Hc.
  assert (Hf : ~ failure (ss_status (p_cur p2))).
  { intros X. unfold end_run in Hs. destruct X as [X|[X|X]]; rewrite X in Hs; simpl in Hs; rewrite X in Hs; destruct Hs; discriminate. }
  destruct (loop_ends (st_max_iter (p_set p)) (begin_run g r p) p2) as (k & K1 & K2 & K3 & K4 & K5 & K6 & K7); auto; [split; simpl; auto|].
  simpl ss_iter in K1. rewrite K1. simpl plus.
  assert (Run : forall j q, at_iteration (begin_run g r p) j q -> optimize VC SV EV (limit j p) = (end_run (limit j q), Ok tt)).
  { intros j q (Q & _). apply optimize_ok. split; [exact Hg|]. exists g, r, (limit j q). split; [exact C|]. split; auto.
    change (begin_run g r (limit j p)) with (limit j (begin_run g r p)). change (st_max_iter (p_set (limit j p))) with j.
    rewrite comm_opt_loop, Q. reflexivity. }
  assert (Go : forall a b c c' d, ss_delta b = ss_delta d -> ss_resnorm a = ss_resnorm c -> ss_resnorm b = ss_resnorm d ->
    goes_on (st_step_tol (p_set p)) (st_res_tol (p_set p)) c' c d -> goes_on (st_step_tol (p_set p)) (st_res_tol (p_set p)) c' a b).
  { intros a b c c' d X1 X2 X3. unfold goes_on, decrease. rewrite X1, X2, X3. auto. }
  split; [exact K2|]. split; [|split].
  - intros j Hj. destruct (K5 j Hj) as (q & Q). exists (end_run (limit j q)). split; [apply Run; auto|].
    destruct (end_stats (limit j q)) as (_ & _ & Z3 & _ & _ & Z6). destruct Q as (_ & Qh & Qi & _). split; [apply Z6; exact Qh|]. rewrite Z3. exact Qi.
  - intros j q q' Hj Q Q'. destruct (K5 j) as (w & W); [lia|]. destruct (K5 (Datatypes.S j)) as (w' & W'); [lia|].
    rewrite (Run _ _ W) in Q. rewrite (Run _ _ W') in Q'. injection Q as <-. injection Q' as <-. rewrite K4.
    destruct (end_stats (limit j w)) as (_ & Y2 & _). destruct (end_stats (limit (Datatypes.S j) w')) as (Z1 & Z2 & _).
    eapply Go; [exact Z1|exact Y2|exact Z2|]. exact (K6 _ _ _ Hj W W').
  - destruct K7 as [(K7 & K8 & K9)|(j & q & K7 & K8 & K9)]; [left; auto|right].
    exists j, (end_run (limit j q)). split; auto. split; [apply Run; auto|]. rewrite K4.
    destruct (end_stats (limit j q)) as (_ & Y2 & _).
    assert (Sv : ss_status (p_cur (end_run p2)) = ss_status (p_cur p2)) by (clear - K9; inversion K9 as [X Y|X Z Y|X Z Y|X Z Y|X Y]; unfold end_run; rewrite <- Y; symmetry; exact Y).
    rewrite Sv. destruct K9; [apply stop_step|apply stop_flat|apply stop_rose|apply stop_above|apply stop_far];
      unfold decrease in *; rewrite ?Y2, ?D1, ?D2; auto.
Qed.
End Ends.
