(** The damping parameter over the reals. *)
From Coq Require Import List Arith ZArith QArith Bool Lia Permutation Reals Lra.
From Verif Require Import Base Sparse Graph SpecGraph SpecOpt ListLemmas GraphLayout GraphFin GraphBasic GraphVec Optimizer OptLemmas OptWork OptLM OptRun OptMore Real.
Import ListNotations.
Local Open Scope nat_scope.

Section Lambda.
Context {V : Type} (VC : vclass RN V) {S : Type} (SV : solver RN S).
Notation graph := (graph (N:=RN) (V:=V)).
Notation env := (env (N:=RN) (V:=V)).
Notation pstate := (pstate (N:=RN) (V:=V) (S:=S)).
Notation M := (M (N:=RN) (V:=V) (S:=S)).
Context (EV : nat -> env).
Hypothesis Hok : vclass_ok VC.
Hypothesis HE : forall n, env_ok (EV n).

Definition eps : R := nlit (n:=RN) (1#1000000000000).
Lemma eps_pos : (0 < eps)%R. Proof. unfold eps, nlit; simpl; unfold Q2R; simpl. lra. Qed.
Definition sane (st : settings (N:=RN)) : Prop :=
  (0 <= st_lambda0 st /\ 0 <= st_max_lambda st /\ 0 <= st_up st /\ 0 <= st_down st <= 1)%R.
Definition cap (st : settings (N:=RN)) : R := Rmax (Rmax (st_lambda0 st) (st_max_lambda st)) eps.
Definition lam (p : pstate) : R := ss_lambda (p_cur p).

Section Inv.
Context (st0 : settings (N:=RN)) (n0 : nat).
Hypothesis Hst : sane st0.
Definition bnd (k : nat) : R := (cap st0 * Rmax 1 (st_up st0) ^ k)%R.
Definition Q (p : pstate) : Prop := p_set p = st0 /\ n0 <= p_nbad p /\ (0 <= lam p <= bnd (p_nbad p - n0))%R.
Lemma cap_ge : (0 <= cap st0 /\ st_lambda0 st0 <= cap st0 /\ st_max_lambda st0 <= cap st0 /\ eps <= cap st0)%R.
Proof. unfold cap. pose proof eps_pos. pose proof (Rmax_l (Rmax (st_lambda0 st0) (st_max_lambda st0)) eps). pose proof (Rmax_r (Rmax (st_lambda0 st0) (st_max_lambda st0)) eps).
  pose proof (Rmax_l (st_lambda0 st0) (st_max_lambda st0)). pose proof (Rmax_r (st_lambda0 st0) (st_max_lambda st0)). lra. Qed.
Lemma pow_ge1 k : (1 <= Rmax 1 (st_up st0) ^ k)%R.
Proof. apply pow_R1_Rle. apply Rmax_l. Qed.
Lemma bnd_cap k : (cap st0 <= bnd k)%R.
Proof. unfold bnd. pose proof (pow_ge1 k). pose proof cap_ge. rewrite <- (Rmult_1_r (cap st0)) at 1. apply Rmult_le_compat_l; lra. Qed.

Definition pres {A} (m : M A) : Prop := forall p p' r, m p = (p', r) -> Q p -> Q p'.
Lemma pres_bind {A B} (m : M A) (f : A -> M B) : pres m -> (forall a, pres (f a)) -> pres (mbind m f).
Proof. intros H1 H2 p p' r E Hq. unfold mbind in E. destruct (m p) as [q [a|e|u]] eqn:Em; [eapply H2; eauto|inversion E; subst; eapply H1; eauto..]. Qed.
Lemma pres_id {A} (m : M A) : (forall p, p_cur (fst (m p)) = p_cur p /\ p_set (fst (m p)) = p_set p /\ p_nbad (fst (m p)) = p_nbad p) -> pres m.
Proof. intros H p p' r E (Q1 & Q2 & Q3). specialize (H p). rewrite E in H. destruct H as (H1 & H2 & H3). split; [simpl in *; congruence|]. unfold lam in *. simpl in *. rewrite H3, H1. auto. Qed.
Lemma pres_get {A B} (g : pstate -> A) (f : A -> M B) : (forall a, pres (f a)) -> pres (mbind (get g) f).
Proof. intros H p p' r E Hq. unfold mbind, get in E. eapply H; eauto. Qed.
Lemma pres_get_set {B} (f : settings -> M B) : pres (f st0) -> pres (mbind (get p_set) f).
Proof. intros H p p' r E Hq. unfold mbind, get in E. pose proof Hq as (X & _). rewrite X in E. eapply H; eauto. Qed.
Lemma pres_setlam {B} (g : R -> R) (f : R -> M B) :
  (forall l k, (0 <= l <= bnd k)%R -> (0 <= g l <= bnd k)%R) -> (forall l, pres (f l)) ->
  pres (mbind (get (fun p => ss_lambda (p_cur p))) (fun lam1 => mbind (m_lambda (g lam1)) (fun _ => f lam1))).
Proof.
  intros Hg Hf p p' r E (Q1 & Q2 & Q3). unfold mbind, get, m_lambda, mupd in E. eapply Hf; eauto.
  split; auto. split; auto. unfold lam; simpl. apply Hg. exact Q3.
Qed.
Lemma pres_up : pres m_up.
Proof.
  intros p p' r E (Q1 & Q2 & Q3). assert (p' = fst (m_up p)) by (rewrite E; auto). subst p'. clear E.
  split; [exact Q1|]. split; [simpl; lia|].
  change (lam (fst (m_up p))) with (lam p * st_up (p_set p))%R. change (p_nbad (fst (m_up p))) with (Datatypes.S (p_nbad p)). rewrite Q1.
  destruct Hst as (_ & _ & Hu & _). rewrite Nat.sub_succ_l by lia. unfold bnd in *. cbn [pow].
  pose proof (Rmax_l 1 (st_up st0)). pose proof (Rmax_r 1 (st_up st0)). split.
  - apply Rmult_le_pos; lra.
  - replace (cap st0 * (Rmax 1 (st_up st0) * Rmax 1 (st_up st0) ^ (p_nbad p - n0)))%R with
      ((cap st0 * Rmax 1 (st_up st0) ^ (p_nbad p - n0)) * Rmax 1 (st_up st0))%R by ring.
    apply Rmult_le_compat; lra.
Qed.
Lemma pres_residual1 : pres (m_residual1 EV).
Proof. apply pres_id. intros p. unfold m_residual1. destruct (compute_residual_into _ _ _ _); auto. Qed.
Lemma pres_residual2 : pres (m_residual2 EV).
Proof. apply pres_id. intros p. unfold m_residual2. destruct (compute_residual_into _ _ _ _); auto. Qed.
Lemma pres_sparse : pres (m_sparse VC).
Proof. apply pres_id. intros p. unfold m_sparse. destruct (compute_sparse _ _ _); auto. Qed.
Lemma pres_apply dx : pres (m_apply VC dx).
Proof. apply pres_id. intros p. unfold m_apply. destruct (inc_loop _ _ _ _ _ _); auto. Qed.
Lemma pres_restore dx : pres (m_restore VC dx).
Proof. apply pres_id. intros p. unfold m_restore. destruct (restore_loop _ _ _ _); auto. Qed.
Lemma pres_solve b : pres (m_solve SV b).
Proof. apply pres_id. intros p. unfold m_solve. destruct (sv_solve _ _ _); auto. Qed.
Lemma pres_factorize b : pres (m_factorize SV b). Proof. apply pres_id. auto. Qed.
Lemma pres_ret {A} (a : A) : pres (ret a). Proof. apply pres_id. auto. Qed.
Lemma pres_lift {A} (a : outcome A) : pres (lift a). Proof. apply pres_id. auto. Qed.
Lemma pres_read {A} (f : pstate -> outcome A) : pres (fun p => (p, f p)). Proof. apply pres_id. auto. Qed.
Lemma pres_w_r2 r : pres (mupd (w_r2 r)). Proof. apply pres_id. auto. Qed.
Lemma pres_lamkeep (f : pstate -> stats) : (forall p, ss_lambda (f p) = ss_lambda (p_cur p)) -> pres (mupd (fun p => w_cur (f p) p)).
Proof. intros Hf p p' r E (Q1 & Q2 & Q3). inversion E; subst. split; auto. split; auto. unfold lam; simpl. rewrite Hf. auto. Qed.
Lemma pres_fail st : pres (m_fail st). Proof. apply pres_lamkeep. auto. Qed.
Lemma pres_status st : pres (m_status st). Proof. apply pres_lamkeep. auto. Qed.
Lemma pres_record d r : pres (m_record d r). Proof. apply pres_lamkeep. auto. Qed.

Ltac press := repeat match goal with
  | |- pres (mbind (get p_set) _) => apply pres_get_set
  | |- pres (mbind (get _) (fun x => mbind (m_lambda (@?g x)) (@?k x))) => fail 1
  | |- pres (mbind (get _) _) => apply pres_get; intros ?a
  | |- pres (mbind m_up _) => apply pres_bind; [apply pres_up|intros ?a]
  | |- pres (mbind _ _) => apply pres_bind; [|intros ?a]
  | |- pres (if ?b then _ else _) => destruct b
  | |- pres (ret _) => apply pres_ret
  | |- pres (lift _) => apply pres_lift
  | |- pres (m_residual1 _) => apply pres_residual1
  | |- pres (m_residual2 _) => apply pres_residual2
  | |- pres (m_sparse _) => apply pres_sparse
  | |- pres (m_solve _ _) => apply pres_solve
  | |- pres (m_apply _ _) => apply pres_apply
  | |- pres (m_restore _ _) => apply pres_restore
  | |- pres (m_factorize _ _) => apply pres_factorize
  | |- pres (m_fail _) => apply pres_fail
  | |- pres (m_record _ _) => apply pres_record
  | |- pres (mupd (w_r2 _)) => apply pres_w_r2
  | |- pres (fun p => (p, _)) => apply pres_read
  end.
Lemma pres_lm_loop n : forall J c dx, pres (lm_loop VC SV EV n J c dx).
Proof.
  destruct Hst as (H0 & H1 & H2 & H3). pose proof cap_ge as (C0 & C1 & C2 & C3). pose proof eps_pos as Ep.
  induction n; intros J c dx; cbn [lm_loop]; press; try apply IHn.
  - apply (pres_setlam (fun l => nmax (N:=RN) (nmul l (st_down st0)) eps) (fun _ => ret _)); [|intros; apply pres_ret].
    intros l k Hl. rewrite r_nmax. simpl. pose proof (bnd_cap k). split.
    + eapply Rle_trans; [|apply Rmax_r]. lra.
    + apply Rmax_lub; [|lra]. apply Rle_trans with (l * 1)%R; [apply Rmult_le_compat_l; lra|lra].
  - apply (pres_setlam (fun l => nmin (N:=RN) (nmul l (st_up st0)) (st_max_lambda st0))
      (fun l => if nleb (n:=RN) (st_max_lambda st0) (nmin (N:=RN) (nmul l (st_up st0)) (st_max_lambda st0)) then ret _ else lm_loop VC SV EV n J c _)).
    + intros l k Hl. rewrite r_nmin. simpl. pose proof (bnd_cap k). split.
      * apply Rmin_glb; auto. apply Rmult_le_pos; lra.
      * eapply Rle_trans; [apply Rmin_r|]. lra.
    + intros l. press. apply IHn.
Qed.
Lemma pres_init : pres (m_lambda (st_lambda0 st0)).
Proof.
  intros p p' r E (Q1 & Q2 & Q3). inversion E; subst. split; auto. split; auto. unfold lam; simpl.
  pose proof cap_ge as (C0 & C1 & C2 & C3). destruct Hst as (H0 & _). pose proof (bnd_cap (p_nbad p - n0)). lra.
Qed.
(** the first step of a run starts by setting the initial damping *)
Lemma lm_step_first p p' : p_set p = st0 -> p_nbad p = n0 -> ss_iter (p_cur p) = 0 -> lm_step VC SV EV p = (p', Ok tt) -> Q p'.
Proof.
  intros H1 H2 H3 H. unfold lm_step in H.
  assert (K : forall {A} (m : M A), (forall p, p_cur (fst (m p)) = p_cur p /\ p_set (fst (m p)) = p_set p /\ p_nbad (fst (m p)) = p_nbad p) ->
    forall p p' r, m p = (p', r) -> p_cur p' = p_cur p /\ p_set p' = p_set p /\ p_nbad p' = p_nbad p).
  { intros A m Hm q q' r Eq. specialize (Hm q). rewrite Eq in Hm. auto. }
  apply bind_ok in H. destruct H as (q1 & a1 & E1 & H). apply K in E1; [|intros q; unfold m_residual1; destruct (compute_residual_into _ _ _ _); auto].
  apply bind_ok in H. destruct H as (q2 & J & E2 & H). apply K in E2; [|intros q; unfold m_sparse; destruct (compute_sparse _ _ _); auto].
  apply bind_ok in H. destruct H as (q3 & r1 & E3 & H). unfold get in E3. injection E3 as <- <-.
  apply bind_ok in H. destruct H as (q4 & st & E4 & H). unfold get in E4. injection E4 as <- <-.
  apply bind_ok in H. destruct H as (q5 & it & E5 & H). unfold get in E5. injection E5 as <- <-.
  destruct E1 as (A1 & A2 & A3), E2 as (B1 & B2 & B3). rewrite B1, A1, H3 in H. cbn [Nat.eqb] in H. rewrite B2, A2, H1 in H.
  apply bind_ok in H. destruct H as (q6 & u & E6 & H).
  assert (HQ : Q q6).
  { injection E6 as <- _. split; [simpl; congruence|]. split; [simpl; lia|]. unfold lam; simpl.
    pose proof cap_ge as (C0 & C1 & C2 & C3). destruct Hst as (HH & _). pose proof (bnd_cap (p_nbad q2 - n0)). lra. }
  revert H HQ. match goal with |- ?m q6 = _ -> _ => assert (P : pres m) end; [|intros H HQ; eapply P; eauto].
  apply pres_bind; [apply pres_lm_loop|intros res]. press.
  apply pres_lamkeep. auto.
Qed.
Lemma pres_lm p p' r : 0 < ss_iter (p_cur p) -> lm_step VC SV EV p = (p', r) -> Q p -> Q p'.
Proof.
  intros H0. unfold lm_step. intros H HQ.
  assert (P : pres (lm_step VC SV EV)); [|eapply P; eauto].
  clear H HQ. unfold lm_step. apply pres_bind; [apply pres_residual1|intros a1]. apply pres_bind; [apply pres_sparse|intros J]. apply pres_get. intros r1.
  apply pres_get_set. apply pres_get. intros it.
  apply pres_bind; [destruct (Nat.eqb it 0); [apply pres_init|apply pres_ret]|intros u]. apply pres_bind; [apply pres_lm_loop|intros res]. press.
  apply pres_lamkeep. auto.
Qed.
End Inv.
(** accepted step: floor *)
Lemma lm_loop_floor n : forall J c dx p p' dx', lm_loop VC SV EV n J c dx p = (p', Ok (true, dx')) -> (eps <= lam p')%R.
Proof.
  induction n; intros J c dx p p' dx' H; cbn [lm_loop] in H; [inversion H|].
  apply bind_ok in H. destruct H as (q1 & a1 & _ & H). apply bind_ok in H. destruct H as (q2 & a2 & _ & H). apply bind_ok in H. destruct H as (q3 & a3 & _ & H).
  apply bind_ok in H. destruct H as (q4 & a4 & _ & H).
  destruct (negb a4); [apply bind_ok in H; destruct H as (? & ? & _ & H); eauto|].
  apply bind_ok in H. destruct H as (q5 & a5 & _ & H). apply bind_ok in H. destruct H as (q6 & a6 & _ & H). apply bind_ok in H. destruct H as (q7 & a7 & _ & H).
  match type of H with (if ?b then _ else _) _ = _ => destruct b end; [apply bind_ok in H; destruct H as (? & ? & _ & H); eauto|].
  apply bind_ok in H. destruct H as (q8 & a8 & _ & H).
  match type of H with (if ?b then _ else _) _ = _ => destruct b end; [apply bind_ok in H; destruct H as (? & ? & _ & H); eauto|].
  apply bind_ok in H. destruct H as (q9 & st & _ & H). apply bind_ok in H. destruct H as (q10 & a10 & _ & H). apply bind_ok in H. destruct H as (q11 & a11 & _ & H).
  apply bind_ok in H. destruct H as (q12 & a12 & _ & H). apply bind_ok in H. destruct H as (q13 & a13 & _ & H).
  match type of H with (if ?b then _ else _) _ = _ => destruct b end.
  - apply bind_ok in H. destruct H as (q14 & a14 & _ & H). apply bind_ok in H. destruct H as (q15 & a15 & E & H). injection E as <- _. injection H as <- _.
    unfold lam; simpl. rewrite r_nmax. apply Rmax_r.
  - apply bind_ok in H. destruct H as (q14 & a14 & _ & H). apply bind_ok in H. destruct H as (q15 & a15 & _ & H). apply bind_ok in H. destruct H as (q16 & a16 & _ & H).
    match type of H with (if ?b then _ else _) _ = _ => destruct b end; [inversion H|eauto].
Qed.
Theorem lm_step_floor p p' : lm_step VC SV EV p = (p', Ok tt) -> ss_status (p_cur p) = RUNNING -> ss_status (p_cur p') = RUNNING -> (eps <= lam p')%R.
Proof.
  intros H Hs Hs'. unfold lm_step in H.
  do 5 (apply bind_ok in H; destruct H as (? & ? & _ & H)). apply bind_ok in H. destruct H as (q6 & a6 & _ & H).
  apply bind_ok in H. destruct H as (q7 & [acc dx] & E & H). cbn [fst snd] in H. destruct acc.
  - apply bind_ok in H. destruct H as (q8 & r2 & E8 & H). unfold get in E8. injection E8 as <- <-. injection H as <-.
    apply lm_loop_floor in E. exact E.
  - exfalso. apply bind_ok in H. destruct H as (q8 & c0 & E8 & H). unfold get in E8. injection E8 as <- <-.
    apply bind_ok in H. destruct H as (q9 & c1 & E8 & H). unfold get in E8. injection E8 as <- <-.
    apply bind_ok in H. destruct H as (q10 & c2 & E8 & H). apply bind_ok in H. destruct H as (q11 & c3 & E9 & H). injection E9 as <- _. injection H as <-.
    simpl in Hs'. destruct (nltb _ _); injection E8 as <- _; simpl in Hs'; [discriminate|]. match type of Hs' with context [if ?b then _ else _] => destruct b end; discriminate.
Qed.

(** ** whole runs *)
Section Runs.
Context (st0 : settings (N:=RN)) (n0 : nat).
Hypothesis Hst : sane st0.
Hypothesis Hm : st_method st0 = LevenbergMarquardt.
Definition Q1 (p : pstate) : Prop := Q st0 n0 p /\ 0 < ss_iter (p_cur p).
Lemma lm_iter p p' : lm_step VC SV EV p = (p', Ok tt) -> 0 < ss_iter (p_cur p').
Proof.
  intros H. unfold lm_step in H. do 6 (apply bind_ok in H; destruct H as (? & ? & _ & H)).
  apply bind_ok in H. destruct H as (q7 & [acc dx] & _ & H). cbn [fst snd] in H. destruct acc.
  - apply bind_ok in H. destruct H as (q8 & r2 & _ & H). injection H as <-. simpl. lia.
  - do 4 (apply bind_ok in H; destruct H as (? & ? & _ & H)). injection H as <-. simpl. lia.
Qed.
Lemma Q1_step p p' : Q1 p -> one_step VC SV EV p = (p', Ok tt) -> Q1 p'.
Proof.
  intros (A & B) E. unfold one_step in E. pose proof A as (A1 & _). rewrite A1, Hm in E. split; [|eapply lm_iter; eauto].
  eapply pres_lm; eauto.
Qed.
Lemma Q1_status p st : Q1 p -> Q1 (fst (m_status st p)) /\ Q1 (fst (m_fail st p)).
Proof. intros H. split; exact H. Qed.
Lemma opt_loop_lambda n p p' : p_set p = st0 -> p_nbad p = n0 -> ss_iter (p_cur p) = 0 ->
  opt_loop VC SV EV (Datatypes.S n) p = (p', Ok tt) -> p_caught p' = false -> Q1 p'.
Proof.
  intros H1 H2 H3 E Hc. cbn [opt_loop] in E.
  destruct (one_step VC SV EV p) as [p1 [[]|e|u]] eqn:E1; [|inversion E; subst; discriminate|discriminate].
  assert (HP : Q1 p1). { unfold one_step in E1. rewrite H1, Hm in E1. split; [eapply lm_step_first; eauto|eapply lm_iter; eauto]. }
  destruct (ss_status (p_cur p1)); try (inversion E; subst; auto; fail);
  repeat match type of E with (if ?b then _ else _) = _ => destruct b end; try (inversion E; subst; exact HP);
  (eapply (opt_loop_inv VC SV EV Q1); [apply Q1_step|apply Q1_status|exact HP|exact E|exact Hc]).
Qed.
End Runs.
Theorem run_lambda p p' : sane (p_set p) -> st_method (p_set p) = LevenbergMarquardt -> 1 <= st_max_iter (p_set p) ->
  optimize VC SV EV p = (p', Ok tt) -> p_caught p' = false ->
  (0 <= lam p' <= cap (p_set p) * Rmax 1 (st_up (p_set p)) ^ (p_nbad p' - p_nbad p))%R.
Proof.
  intros Hs Hm Hn E Hc. apply optimize_ok in E. destruct E as (_ & g & r & p2 & _ & E & ->).
  destruct (st_max_iter (p_set p)) as [|n]; [lia|].
  assert (X : lam (end_run p2) = lam p2 /\ p_nbad (end_run p2) = p_nbad p2 /\ p_caught (end_run p2) = p_caught p2).
  { unfold end_run. destruct (ss_status (p_cur p2)); auto. }
  destruct X as (X1 & X2 & X3). rewrite X1, X2. rewrite X3 in Hc.
  apply (opt_loop_lambda (p_set p) (p_nbad p) Hs Hm) in E; auto. apply E.
Qed.
End Lambda.
