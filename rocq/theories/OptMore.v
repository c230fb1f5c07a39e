(** Further facts about runs: stopping just before a failed step, success of Levenberg-Marquardt, covariances. *)
From Coq Require Import List Arith ZArith QArith Bool Lia Permutation.
From Verif Require Import Base Sparse Graph SpecGraph SpecOpt ListLemmas GraphLayout GraphFin GraphBasic GraphVec Optimizer OptLemmas OptWork OptLM OptRun.
Import ListNotations.
Local Open Scope nat_scope.

Section More.
Context {N : num} {V : Type} (VC : vclass N V) {S : Type} (SV : solver N S).
Notation graph := (graph (N:=N) (V:=V)).
Notation env := (env (N:=N) (V:=V)).
Notation pstate := (pstate (N:=N) (V:=V) (S:=S)).
Notation M := (M (N:=N) (V:=V) (S:=S)).
Context (EV : nat -> env).
Hypothesis Hok : vclass_ok VC.
Hypothesis HE : forall n, env_ok (EV n).
Ltac bindn H p1 a E := apply bind_ok in H; destruct H as (p1 & a & E & H).

(** ** The iteration limit does not influence single steps *)
Definition st_k (k : nat) (s : settings (N:=N)) : settings :=
  Settings (N:=N) (st_method s) k (st_step_tol s) (st_res_tol s) (st_lambda0 s) (st_max_lambda s) (st_up s) (st_down s) (st_rate s).
Definition limit (k : nat) (p : pstate) : pstate :=
  PState (p_heap p) (p_graph p) (st_k k (p_set p)) (p_hasgraph p) (p_init p) (p_cur p) (p_complete p) (p_hvalid p) (p_hess p)
    (p_r1 p) (p_r2 p) (p_solver p) (p_tick p) (p_nfact p) (p_caught p) (p_nbad p).
Definition comm {A} (k : nat) (m m' : M A) : Prop := forall p, m (limit k p) = (limit k (fst (m' p)), snd (m' p)).
Lemma comm_bind {A B} k (m m' : M A) (f f' : A -> M B) : comm k m m' -> (forall a, comm k (f a) (f' a)) -> comm k (mbind m f) (mbind m' f').
Proof. intros H1 H2 p. unfold mbind. rewrite H1. destruct (m' p) as [q [a|e|u]]; simpl; auto. apply H2. Qed.
Lemma comm_get_set {B} k (f f' : settings -> M B) : (forall s, comm k (f (st_k k s)) (f' s)) -> comm k (mbind (get p_set) f) (mbind (get p_set) f').
Proof. intros H p. unfold mbind, get. simpl. apply H. Qed.
Lemma comm_ret {A} k (a : A) : comm k (ret a) (ret a). Proof. intros p. reflexivity. Qed.
Lemma comm_lift {A} k (o : outcome A) : comm k (lift o) (lift o). Proof. intros p. reflexivity. Qed.
Lemma comm_residual1 k : comm k (m_residual1 EV) (m_residual1 EV).
Proof. intros p. unfold m_residual1. simpl. destruct (compute_residual_into _ _ _ _); reflexivity. Qed.
Lemma comm_residual2 k : comm k (m_residual2 EV) (m_residual2 EV).
Proof. intros p. unfold m_residual2. simpl. destruct (compute_residual_into _ _ _ _); reflexivity. Qed.
Lemma comm_sparse k : comm k (m_sparse VC) (m_sparse VC).
Proof. intros p. unfold m_sparse. simpl. destruct (compute_sparse _ _ _); reflexivity. Qed.
Lemma comm_solve k b : comm k (m_solve SV b) (m_solve SV b).
Proof. intros p. unfold m_solve. simpl. destruct (sv_solve _ _ _); reflexivity. Qed.
Lemma comm_apply k dx : comm k (m_apply VC dx) (m_apply VC dx).
Proof. intros p. unfold m_apply. simpl. destruct (inc_loop _ _ _ _ _ _); reflexivity. Qed.
Lemma comm_restore k dx : comm k (m_restore VC dx) (m_restore VC dx).
Proof. intros p. unfold m_restore. simpl. destruct (restore_loop _ _ _ _); reflexivity. Qed.
Lemma comm_factorize k H : comm k (m_factorize SV H) (m_factorize SV H). Proof. intros p. reflexivity. Qed.
Lemma comm_fail k st : comm k (m_fail st) (m_fail st). Proof. intros p. reflexivity. Qed.
Lemma comm_lambda k l : comm k (m_lambda l) (m_lambda l). Proof. intros p. reflexivity. Qed.
Lemma comm_record k d r : comm k (m_record d r) (m_record d r). Proof. intros p. reflexivity. Qed.
Lemma comm_up k : comm k m_up m_up. Proof. intros p. reflexivity. Qed.
Lemma comm_values k : comm k (fun p => (p, values_of VC (p_heap p) (get_all_variables (p_graph p)))) (fun p => (p, values_of VC (p_heap p) (get_all_variables (p_graph p)))).
Proof. intros p. reflexivity. Qed.
Lemma comm_w_r2 k r : comm k (mupd (w_r2 r)) (mupd (w_r2 r)). Proof. intros p. reflexivity. Qed.
Lemma comm_succ k : comm k (mupd (fun p => let c := p_cur p in w_cur (Stats true SUCCESS (ss_chi2 c) (ss_delta c) (ss_resnorm c) (ss_iter c) (ss_lambda c)) p))
  (mupd (fun p => let c := p_cur p in w_cur (Stats true SUCCESS (ss_chi2 c) (ss_delta c) (ss_resnorm c) (ss_iter c) (ss_lambda c)) p)).
Proof. intros p. reflexivity. Qed.
Ltac commget := match goal with |- comm _ (get p_set) _ => fail 1 | |- comm _ (get _) _ => intros ?p; reflexivity end.
Ltac comms := repeat match goal with
  | |- comm _ (mbind (get p_set) _) _ => apply comm_get_set; intros ?s; cbn [st_rate st_up st_down st_max_lambda st_lambda0 st_k]
  | |- comm _ (mbind _ _) _ => apply comm_bind; [|intros ?a]
  | |- comm _ (if ?b then _ else _) _ => destruct b
  | |- comm _ (get _) _ => commget
  | |- comm _ (ret _) _ => apply comm_ret
  | |- comm _ (lift _) _ => apply comm_lift
  | |- comm _ (m_residual1 _) _ => apply comm_residual1
  | |- comm _ (m_residual2 _) _ => apply comm_residual2
  | |- comm _ (m_sparse _) _ => apply comm_sparse
  | |- comm _ (m_solve _ _) _ => apply comm_solve
  | |- comm _ (m_apply _ _) _ => apply comm_apply
  | |- comm _ (m_restore _ _) _ => apply comm_restore
  | |- comm _ (m_factorize _ _) _ => apply comm_factorize
  | |- comm _ (m_fail _) _ => apply comm_fail
  | |- comm _ (m_lambda _) _ => apply comm_lambda
  | |- comm _ (m_record _ _) _ => apply comm_record
  | |- comm _ m_up _ => apply comm_up
  | |- comm _ (mupd (w_r2 _)) _ => apply comm_w_r2
  | |- comm _ (mupd _) _ => apply comm_succ
  | |- comm _ (fun p => _) _ => apply comm_values
  end.
Lemma comm_gn k : comm k (gn_step VC SV EV) (gn_step VC SV EV).
Proof. unfold gn_step. comms. Qed.
Lemma comm_lm_loop k n : forall J c dx, comm k (lm_loop VC SV EV n J c dx) (lm_loop VC SV EV n J c dx).
Proof. induction n; intros J c dx; cbn [lm_loop]; comms; apply IHn. Qed.
Lemma comm_lm k : comm k (lm_step VC SV EV) (lm_step VC SV EV).
Proof. unfold lm_step. comms; apply comm_lm_loop. Qed.
Lemma comm_one k : comm k (one_step VC SV EV) (one_step VC SV EV).
Proof. intros p. unfold one_step. simpl. destruct (st_method _); [apply comm_gn|apply comm_lm]. Qed.
Lemma comm_opt_loop k n : comm k (opt_loop VC SV EV n) (opt_loop VC SV EV n).
Proof.
  induction n; intros p; cbn [opt_loop]; [reflexivity|]. rewrite comm_one.
  destruct (one_step VC SV EV p) as [p1 [[]|e|u]]; cbn [fst snd]; [|reflexivity..].
  change (p_cur (limit k p1)) with (p_cur p1). change (p_init (limit k p1)) with (p_init p1). change (p_cur (limit k p)) with (p_cur p).
  change (st_step_tol (p_set (limit k p1))) with (st_step_tol (p_set p1)). change (st_res_tol (p_set (limit k p1))) with (st_res_tol (p_set p1)).
  destruct (ss_status (p_cur p1)); try reflexivity;
  repeat match goal with |- (if ?b then _ else _) = _ => destruct b end; try reflexivity; apply IHn.
Qed.

(** ** C22: a run that ends with a failed Gauss-Newton step left the variables where the step before had put them *)
Lemma gn_iter p p' : gn_step VC SV EV p = (p', Ok tt) -> healthy (p_cur p') -> ss_iter (p_cur p') = Datatypes.S (ss_iter (p_cur p)).
Proof.
  intros H Hp.
  assert (K : forall {A} (m : M A), (forall p, p_cur (fst (m p)) = p_cur p) -> forall p p' r, m p = (p', r) -> p_cur p' = p_cur p).
  { intros A m Hm q q' r Eq. specialize (Hm q). rewrite Eq in Hm. auto. }
  assert (F : forall st (q q' : pstate), m_fail st q = (q', Ok tt) -> failure st -> healthy (p_cur q') -> False).
  { intros st q q' Eq Hf [Hv _]. inversion Eq; subst. discriminate. }
  unfold gn_step in H.
  bindn H q1 a1 E1. apply K in E1; [|intros q; unfold m_residual1; destruct (compute_residual_into _ _ _ _); auto].
  bindn H q2 a2 E2. apply K in E2; [|intros q; unfold m_sparse; destruct (compute_sparse _ _ _); auto].
  bindn H q3 a3 E3. apply K in E3; [|auto]. bindn H q4 a4 E4. apply K in E4; [|auto]. bindn H q5 a5 E5. apply K in E5; [|auto].
  destruct (negb a5); [exfalso; eapply F; eauto; unfold failure; auto|].
  bindn H q6 a6 E6. apply K in E6; [|auto]. bindn H q7 a7 E7. apply K in E7; [|auto]. bindn H q8 a8 E8. apply K in E8; [|auto].
  destruct (nltb a7 _); [exfalso; eapply F; eauto; unfold failure; auto|].
  destruct (nltb _ _); [exfalso; eapply F; eauto; unfold failure; auto|].
  bindn H q9 a9 E9. apply K in E9; [|intros q; unfold m_solve; destruct (sv_solve _ _ _); auto].
  destruct (negb _); [exfalso; eapply F; eauto; unfold failure; auto|].
  bindn H q10 a10 E10. apply K in E10; [|auto].
  bindn H q11 a11 E11. apply K in E11; [|intros q; unfold m_apply; destruct (inc_loop _ _ _ _ _ _); auto].
  bindn H q12 a12 E12. apply K in E12; [|intros q; unfold m_residual2; destruct (compute_residual_into _ _ _ _); auto].
  bindn H q13 a13 E13. apply K in E13; [|auto].
  inversion H; subst. simpl. congruence.
Qed.
Lemma not_fail (c : stats (N:=N)) : healthy c -> ~ failure (ss_status c).
Proof. intros [_ [X|X]] Y; rewrite X in Y; destruct Y as [?|[?|?]]; discriminate. Qed.
Lemma gn_loop_failed n : forall p p', st_method (p_set p) = GaussNewton -> healthy (p_cur p) -> p_caught p = false ->
  opt_loop VC SV EV n p = (p', Ok tt) -> p_caught p' = false -> failure (ss_status (p_cur p')) ->
  exists k p2, k < n /\ opt_loop VC SV EV k p = (p2, Ok tt) /\ p_heap p' = p_heap p2 /\ healthy (p_cur p2) /\
    ss_iter (p_cur p') = ss_iter (p_cur p) + k /\ ss_iter (p_cur p2) = ss_iter (p_cur p) + k /\
    ss_chi2 (p_cur p') = ss_chi2 (p_cur p2) /\ ss_resnorm (p_cur p') = ss_resnorm (p_cur p2).
Proof.
  induction n; intros p p' Hm Hp Hc0 E Hc Hf.
  - cbn [opt_loop] in E. inversion E; subst. exfalso. eapply not_fail; eauto.
  - cbn [opt_loop] in E. destruct (one_step VC SV EV p) as [p1 [[]|e|u]] eqn:E1; [|inversion E; subst; discriminate|discriminate].
    pose proof (frames_one VC SV EV HE _ _ _ E1) as (_ & F1 & _ & _ & _ & _ & _ & F2). pose proof (hf_one VC SV EV _ _ _ E1 Hp) as H1.
    pose proof E1 as E1'. unfold one_step in E1. rewrite Hm in E1.
    assert (Hstop : p' = p1 -> failure (ss_status (p_cur p1)) ->
      exists k p2, k < Datatypes.S n /\ opt_loop VC SV EV k p = (p2, Ok tt) /\ p_heap p' = p_heap p2 /\ healthy (p_cur p2) /\
        ss_iter (p_cur p') = ss_iter (p_cur p) + k /\ ss_iter (p_cur p2) = ss_iter (p_cur p) + k /\
        ss_chi2 (p_cur p') = ss_chi2 (p_cur p2) /\ ss_resnorm (p_cur p') = ss_resnorm (p_cur p2)).
    { intros -> Hf1. destruct (gn_failed VC SV EV _ _ E1 Hp Hf1) as (A & B & C & D).
      exists 0, p. split; [lia|]. split; [reflexivity|]. rewrite ?Nat.add_0_r; auto 10. }
    destruct (ss_status (p_cur p1)) eqn:Es; try (apply Hstop; [inversion E; auto|unfold failure; tauto]).
    3: { exfalso. destruct H1 as [[_ [?|?]]|[_ [?|[?|?]]]]; congruence. }
    all: assert (Hh : healthy (p_cur p1)) by (destruct H1 as [H1|[_ [?|[?|?]]]]; auto; congruence).
    all: pose proof (gn_iter _ _ E1 Hh) as Hi.
    all: repeat match type of E with (if ?b then _ else _) = _ => destruct b eqn:?B end;
      try (exfalso; inversion E; subst; simpl in Hf; repeat match type of Hf with context [if ?b then _ else _] => destruct b end; destruct Hf as [?|[?|?]]; discriminate).
    all: destruct (IHn p1 p') as (k & p2 & K1 & K2 & K3 & K4 & K5 & K6 & K7 & K8); auto; try congruence.
    all: exists (Datatypes.S k), p2; split; [lia|]; split; [|rewrite K5, K6, Hi; rewrite !Nat.add_succ_r; auto 10].
    all: cbn [opt_loop]; rewrite E1', Es; repeat match goal with B : _ = false |- _ => rewrite B end; exact K2.
Qed.
Definition begin_run (g : graph) (r : list N) (p : pstate) : pstate :=
  let s := Stats (N:=N) true RUNNING (sqnorm r) (ss_delta stats0) (vnorm r) 0 (ss_lambda stats0) in
  w_init s (w_cur s (w_tick (w_graph g (w_caught false (w_cur (Stats true RUNNING (ss_chi2 stats0) (ss_delta stats0) (ss_resnorm stats0) 0 (ss_lambda stats0)) p))))).
Definition end_run (p2 : pstate) : pstate := w_complete true (match ss_status (p_cur p2) with RUNNING => fst (m_status SUCCESS p2) | _ => p2 end).
Lemma optimize_ok p p' : optimize VC SV EV p = (p', Ok tt) <->
  p_hasgraph p = true /\ exists g r p2, compute_residual (EV (p_tick p)) (p_heap p) (p_graph p) = (g, Ok r) /\
    opt_loop VC SV EV (st_max_iter (p_set p)) (begin_run g r p) = (p2, Ok tt) /\ p' = end_run p2.
Proof.
  unfold optimize. destruct (p_hasgraph p); cbn [negb]; [|split; [discriminate|intros (? & _); discriminate]].
  change (p_tick (w_caught _ (w_cur _ p))) with (p_tick p). change (p_heap (w_caught _ (w_cur _ p))) with (p_heap p).
  change (p_graph (w_caught _ (w_cur _ p))) with (p_graph p).
  destruct (compute_residual _ _ _) as [g o]. split.
  - intros E. split; auto. destruct o as [r|e|u]; [|inversion E..]. exists g, r.
    unfold begin_run. match type of E with context [opt_loop _ _ _ ?n ?q] => destruct (opt_loop VC SV EV n q) as [p2 [[]|e|u]] eqn:E2 end; inversion E. exists p2. split; auto.
  - intros (_ & g' & r & p2 & E1 & E2 & ->). inversion E1; subst. unfold begin_run in E2. unfold begin_run. cbv zeta.
    match goal with |- context [opt_loop _ _ _ ?n ?q] => change n with (st_max_iter (p_set p)) end. rewrite E2. reflexivity.
Qed.
Theorem gn_run_failed p p' : pfin VC p -> st_method (p_set p) = GaussNewton -> optimize VC SV EV p = (p', Ok tt) -> p_caught p' = false ->
  failure (ss_status (p_cur p')) ->
  ss_iter (p_cur p') < st_max_iter (p_set p) /\
  exists p2, optimize VC SV EV (limit (ss_iter (p_cur p')) p) = (p2, Ok tt) /\ p_heap p2 = p_heap p' /\
    ss_status (p_cur p2) = SUCCESS /\ ss_iter (p_cur p2) = ss_iter (p_cur p') /\ ss_chi2 (p_cur p2) = ss_chi2 (p_cur p') /\ ss_resnorm (p_cur p2) = ss_resnorm (p_cur p').
Proof.
  intros Hfin Hm E Hc Hf. apply optimize_ok in E. destruct E as (Hg & g & r & p2 & C & E2 & ->).
  assert (X : end_run p2 = w_complete true p2 /\ failure (ss_status (p_cur p2))).
  { unfold end_run in *. destruct (ss_status (p_cur p2)) eqn:Es; simpl in Hf; rewrite ?Es in Hf; try (destruct Hf as [?|[?|?]]; discriminate); unfold failure; auto. }
  destruct X as (X & Hf2). rewrite X in *.
  destruct (gn_loop_failed (st_max_iter (p_set p)) (begin_run g r p) p2 Hm) as (k & p3 & K1 & K2 & K3 & K4 & K5 & K6 & K7 & K8); auto; [split; simpl; auto|].
  simpl in K5, K6. change (ss_iter (p_cur (w_complete true p2))) with (ss_iter (p_cur p2)). rewrite K5. split; [exact K1|].
  exists (end_run (limit k p3)). split.
  - apply optimize_ok. split; [exact Hg|]. exists g, r, (limit k p3). split; [exact C|]. split; auto.
    change (begin_run g r (limit k p)) with (limit k (begin_run g r p)). change (st_max_iter (p_set (limit k p))) with k.
    rewrite comm_opt_loop, K2. reflexivity.
  - unfold end_run. destruct K4 as [_ [K4|K4]]; simpl; rewrite K4; simpl; repeat split; auto; congruence.
Qed.

(** ** C55, Levenberg-Marquardt: success after at least one iteration means a strictly lower cost *)
Section Succeed.
Context (I : V -> Prop).
Hypothesis HI : undoable VC I.
Hypothesis HO : cost_order (N:=N).
Theorem lm_success p p' : pfin VC p -> heldI I (p_heap p) -> st_method (p_set p) = LevenbergMarquardt ->
  optimize VC SV EV p = (p', Ok tt) -> 1 <= st_max_iter (p_set p) -> ss_status (p_cur p') = SUCCESS ->
  exists r0 r1, stacked (p_heap p) (facs p) r0 /\ stacked (p_heap p') (facs p) r1 /\ nltb (sqnorm r1) (sqnorm r0) = true /\
    ss_chi2 (p_init p') = sqnorm r0 /\ ss_chi2 (p_cur p') = sqnorm r1 /\ ss_resnorm (p_init p') = vnorm r0 /\ ss_resnorm (p_cur p') = vnorm r1.
Proof.
  intros Hfin Hh Hm E Hn Hs.
  assert (Hc : p_caught p' = false).
  { destruct (p_caught p') eqn:Hc; auto. destruct (optimize_caught VC SV EV Hok HE _ _ Hfin E Hc). congruence. }
  destruct (optimize_inv VC SV EV Hok HE _ _ Hfin E) as (p1 & p2 & r & A1 & A2 & A3 & A4 & A5 & A6 & A7 & A8 & L & D).
  destruct (st_max_iter (p_set p)) as [|n]; [lia|].
  assert (Hc2 : p_caught p2 = false) by (destruct D as [->|[_ ->]]; exact Hc).
  set (P := fun q : pstate => pfin VC q /\ heldI I (p_heap q) /\ facs q = facs p /\ p_set q = p_set p /\ p_init q = p_init p1 /\
    exists r1, stacked (p_heap q) (facs p) r1 /\ ss_chi2 (p_cur q) = sqnorm r1 /\ ss_resnorm (p_cur q) = vnorm r1 /\ nltb (sqnorm r1) (sqnorm r) = true).
  assert (HPstep : forall q q', P q -> one_step VC SV EV q = (q', Ok tt) -> P q').
  { intros q q' (B1 & B2 & B3 & B4 & B5 & r1 & B6 & B7 & B8 & B9) Eq. pose proof (frames_one VC SV EV HE _ _ _ Eq) as F. pose proof F as (_ & F1 & F2 & _).
    apply (frame_keeps VC Hok) in F; auto. destruct F as (F3 & _ & F4 & _).
    unfold one_step in Eq. rewrite B4, Hm in Eq. destruct (lm_step_spec VC SV EV Hok HE I HI _ _ B1 B2 Eq) as (C1 & C2 & _ & _ & s1 & s2 & C3 & C4 & C5 & C6 & _ & C7).
    split; auto. split; auto. split; [congruence|]. split; [congruence|]. split; [congruence|].
    rewrite B3 in *. assert (s1 = r1) by (exact (stacked_fun _ _ _ _ C3 B6)). subst s1.
    exists s2. split; auto. split; auto. split; auto. destruct C7 as [(C7 & -> & _)|(C7 & _)]; auto.
    apply (co_half HO) in C7. eapply (co_trans HO); eauto. }
  assert (HPst : forall q st, P q -> P (fst (m_status st q)) /\ P (fst (m_fail st q))) by (intros q st H; split; exact H).
  assert (HP : failed (p_cur p2) \/ P p2).
  { cbn [opt_loop] in L. destruct (one_step VC SV EV p1) as [q1 [[]|e|u]] eqn:E1; [|inversion L; subst; discriminate|discriminate].
    assert (HP1 : failed (p_cur q1) \/ P q1).
    { pose proof (frames_one VC SV EV HE _ _ _ E1) as F. pose proof F as (_ & F1 & F2 & _).
      apply (frame_keeps VC Hok) in F; auto. destruct F as (F3 & _ & F4 & _).
      unfold one_step in E1. rewrite A5, Hm in E1.
      assert (Hh1 : heldI I (p_heap p1)) by (rewrite A3; auto).
      destruct (lm_step_spec VC SV EV Hok HE I HI _ _ A2 Hh1 E1) as (C1 & C2 & _ & _ & s1 & s2 & C3 & C4 & C5 & C6 & _ & C7).
      rewrite A4, A3 in *. assert (s1 = r) by (exact (stacked_fun _ _ _ _ C3 A1)). subst s1.
      destruct C7 as [(C7 & -> & [(C8 & _)|C8])|(C7 & _)]; auto.
      - exfalso. rewrite A8, A7 in C8. simpl in C8. rewrite (co_irr HO) in C8. discriminate.
      - right. split; auto. split; auto. split; [congruence|]. split; [congruence|]. split; [congruence|].
        exists s2. split; auto. split; auto. split; auto. apply (co_half HO); auto. }
    destruct HP1 as [HP1|HP1].
    - left. destruct HP1 as (V1 & V2). destruct V2 as [V2|[V2|V2]]; rewrite V2 in L; inversion L; subst; split; auto; unfold failure; auto.
    - right. destruct (ss_status (p_cur q1)); try (inversion L; subst; auto; fail);
      repeat match type of L with (if ?b then _ else _) = _ => destruct b end; try (inversion L; subst; apply HP1; fail);
      try (eapply (opt_loop_inv VC SV EV P); eauto; fail). }
  destruct HP as [HP|HP].
  - exfalso. destruct HP as (_ & HP). destruct D as [->|[D _]]; [|rewrite D in HP; destruct HP as [?|[?|?]]; discriminate].
    simpl in Hs. rewrite Hs in HP. destruct HP as [?|[?|?]]; discriminate.
  - destruct HP as (B1 & B2 & B3 & B4 & B5 & r1 & B6 & B7 & B8 & B9). exists r, r1.
    assert (X : p_heap p' = p_heap p2 /\ p_init p' = p_init p2 /\ ss_chi2 (p_cur p') = ss_chi2 (p_cur p2) /\ ss_resnorm (p_cur p') = ss_resnorm (p_cur p2)).
    { destruct D as [->|[_ ->]]; simpl; auto 10. }
    destruct X as (X1 & X3 & X4 & X5). rewrite X1, X3, X4, X5, B5, A8, A7. simpl. auto 10.
Qed.
End Succeed.
End More.
