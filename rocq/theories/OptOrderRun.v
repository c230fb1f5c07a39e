(** Two Gauss-Newton runs over the same objects, with variables and factors added in different orders. *)
From Coq Require Import List Arith ZArith QArith Bool Lia Permutation Reals Lra.
From Verif Require Import Base Sparse Graph SpecGraph SpecOpt ListLemmas GraphLayout GraphFin GraphBasic GraphVec GraphDense GraphSparse Optimizer OptLemmas OptWork OptLM OptRun OptMore Real RSum SpecSolver Gram Pivots OptCov OptExact OptLinear SpecSteps OptSteps OptVerdict SpecBlocks OptOrder.
Import ListNotations.
Local Open Scope nat_scope.

Section Made.
Context {V : Type} (VC : vclass RN V).
Notation factor := (factor (N:=RN) (V:=V)).

(** a step from heap [h] and statistics [s] *)
Definition made (vs : list addr) (fs : list factor) (rate : R) (h : @heap V) (s : stats (N:=RN)) (h' : @heap V) (s' : stats (N:=RN)) : Prop :=
  exists r J x r2, stacked h fs r /\ jacobian_at VC h vs fs J /\ (forall z, ~ unobservable J z) /\ damped_solution 0 J r x /\
    updated VC h h' vs (fun k v => vinc VC v (slice (N:=RN) (col_start VC h vs k) (vsize VC v) (map (fun y => y * rate)%R x))) /\
    stacked h' fs r2 /\
    s' = Stats (ss_valid s) (ss_status s) (sqnorm r2) (vnorm (N:=RN) (map (fun y => y * rate)%R x)) (vnorm r2) (S (ss_iter s)) (ss_lambda s).

Lemma same_norm h (fs fs' : list factor) r r' : Permutation fs fs' -> stacked h fs r -> stacked h fs' r' -> sqnorm (N:=RN) r = sqnorm (N:=RN) r'.
Proof.
  intros P Hr Hr'. rewrite (parts_sq _ _ _ _ (stacked_parts h fs r Hr)), (parts_sq _ _ _ _ (stacked_parts h fs' r' Hr')). apply lsum_perm. exact P.
Qed.
Lemma heap_eq (h h' : @heap V) : (forall a, nth_error h a = nth_error h' a) -> h = h'.
Proof.
  revert h'. induction h as [|v h IH]; intros [|v' h'] H; auto; [specialize (H 0); discriminate..|].
  f_equal; [specialize (H 0); cbn in H; congruence|]. apply IH. intros a. exact (H (S a)).
Qed.
Lemma made_same vs vs' (fs fs' : list factor) rate h s h1 s1 h2 s2 : Permutation vs vs' -> Permutation fs fs' -> NoDup vs ->
  made vs fs rate h s h1 s1 -> made vs' fs' rate h s h2 s2 -> h1 = h2 /\ s1 = s2.
Proof.
  intros Pv Pf Nd (r & J & x & r2 & A1 & A2 & A3 & A4 & (A5 & A6 & A7) & A8 & ->) (r' & J' & x' & r2' & B1 & B2 & B3 & B4 & (B5 & B6 & B7) & B8 & ->).
  destruct (same_solution VC 0 h vs vs' fs fs' J J' r r' x x' Pv Pf Nd A2 B2 A1 B1 (Rle_refl 0) A3 A4 B4) as (d & D & D').
  pose proof (scaled_parts _ _ _ _ rate D) as P. pose proof (scaled_parts _ _ _ _ rate D') as P'.
  assert (Eh : h1 = h2).
  { apply heap_eq. intros a. destruct (nth_error h a) as [v|] eqn:Ev.
    - destruct (vconst VC v) eqn:Ec; [rewrite (A7 a v), (B7 a v); auto|]. destruct (in_dec Nat.eq_dec a vs) as [Ha|Ha].
      + pose proof (Permutation_in a Pv Ha) as Ha'. apply In_nth_error in Ha. apply In_nth_error in Ha'. destruct Ha as (k & Hk). destruct Ha' as (k' & Hk').
        destruct (A6 k a v Hk Ev Ec) as (v1 & U1 & ->). destruct (B6 k' a v Hk' Ev Ec) as (v2 & U2 & ->).
        assert (W : vsize VC v = width VC h a) by (unfold width; rewrite Ev, Ec; reflexivity).
        rewrite W in U1, U2. unfold col_start in U1, U2.
        pose proof (eq_trans (eq_sym (f_equal (vinc VC v) (parts_slice _ _ _ _ k a P Hk))) U1) as W1.
        pose proof (eq_trans (eq_sym (f_equal (vinc VC v) (parts_slice _ _ _ _ k' a P' Hk'))) U2) as W2. congruence.
      + rewrite (A7 a v), (B7 a v); auto. left. intros X. apply Ha. eapply Permutation_in; [apply Permutation_sym; exact Pv|exact X].
    - apply nth_error_None in Ev. transitivity (@None V); [|symmetry]; apply nth_error_None; lia. }
  split; auto. subst h2. pose proof (same_norm _ _ _ _ _ Pf A8 B8) as E2.
  assert (E1 : sqnorm (N:=RN) (map (fun y => y * rate)%R x) = sqnorm (N:=RN) (map (fun y => y * rate)%R x')).
  { etransitivity; [exact (parts_sq _ _ _ _ P)|]. etransitivity; [|exact (eq_sym (parts_sq _ _ _ _ P'))]. apply lsum_perm. exact Pv. }
  unfold vnorm. rewrite E1, E2. reflexivity.
Qed.
End Made.

Section Runs.
Context {V : Type} (VC : vclass RN V) {S : Type} (SV : solver RN S).
Notation factor := (factor (N:=RN) (V:=V)).
Notation graph := (graph (N:=RN) (V:=V)).
Notation env := (env (N:=RN) (V:=V)).
Notation op := (op (N:=RN) (V:=V)).
Notation pstate := (pstate (N:=RN) (V:=V) (S:=S)).
Context (EV : nat -> env).
Hypothesis Hok : vclass_ok VC.
Hypothesis HE : forall n, env_ok (EV n).
Hypothesis HF : factorising_solver SV.
Ltac bindn H p1 a E := apply bind_ok in H; destruct H as (p1 & a & E & H).
Context (l1 : list (env * op)) (h1 : @heap V) (g1 : graph) (h0 : @heap V) (vs : list addr) (fs : list factor).
Hypothesis Hu : unfinalized VC ([], empty_graph) l1.
Hypothesis Hlive : Forall (fun a => a < length h0) vs.
Hypothesis Hwf : Forall (factor_wf VC h0 vs) fs.
Hypothesis Hact : some_active VC h0 fs.
Hypothesis Hbuf : Forall buf_indep fs.
Hypothesis Hshape : shape_contract VC h0 fs.
Notation onrun := (onrun VC l1 h1 g1 h0 vs fs).

(** what a successful step did, with its statistics *)
Lemma gn_step_full (p p' : pstate) : pfin VC p -> pfin VC p' -> facs p' = facs p -> gn_step VC SV EV p = (p', Ok tt) -> ~ failure (ss_status (p_cur p')) ->
  exists r1 g' Mx s2 x r2,
    stacked (p_heap p) (facs p) r1 /\ compute_sparse VC (p_heap p) (p_graph p) = (g', Ok Mx) /\
    sv_solve SV (sv_compute SV (p_solver p) (jtj (sp_dense Mx))) (map (fun y => nmul y (nlit (-1))) (mvmul (mtrans (sp_dense Mx)) r1)) = (s2, x) /\
    sv_ok SV s2 = true /\
    inc_loop VC false (p_heap p) g' (get_all_variables g') (map (fun y => nmul y (st_rate (p_set p))) x) = (p_heap p', Ok tt) /\
    stacked (p_heap p') (facs p) r2 /\
    p_cur p' = Stats (ss_valid (p_cur p)) (ss_status (p_cur p)) (sqnorm r2) (vnorm (map (fun y => nmul y (st_rate (p_set p))) x)) (vnorm r2)
      (Datatypes.S (ss_iter (p_cur p))) (ss_lambda (p_cur p)).
Proof.
  intros Hf Hf' Hfa H Hs. unfold gn_step in H.
  bindn H p0 u0 E0. destruct u0. pose proof E0 as F0. apply (residual1_ok VC EV HE) in F0; auto. destruct F0 as (A0 & A1 & A2 & A3 & A4 & A5 & A6).
  assert (As : p_solver p0 = p_solver p) by (unfold m_residual1 in E0; destruct (compute_residual_into _ _ _ _); inversion E0; reflexivity).
  bindn H p1 J Eq1. pose proof Eq1 as F1. apply (sparse_ok VC EV Hok HE) in F1; auto. destruct F1 as (B0 & B1 & B2 & B3 & B4 & B5 & B6).
  unfold m_sparse in Eq1. destruct (compute_sparse VC (p_heap p0) (p_graph p0)) as [g' o] eqn:Es. injection Eq1 as Ep1 Eo.
  destruct o as [Mx|e|u]; simpl in Eo; try discriminate. injection Eo as Eo.
  rewrite A1, A2 in Es.
  assert (Bs : p_solver p1 = p_solver p0 /\ p_graph p1 = g') by (subst p1; auto).
  clear Ep1. bindn H p2 r1 E2. injection E2 as Ep2 Er1. rewrite <- Ep2 in *. clear Ep2.
  bindn H p3 b0 E3. unfold lift in E3. injection E3 as Ep3 Eb. rewrite <- Ep3 in *. clear Ep3. unfold jtr in Eb.
  destruct (Nat.eqb_spec (mrows J) (length r1)) as [El|]; [|discriminate]. injection Eb as Eb.
  bindn H p4 ok E4. unfold m_factorize in E4. injection E4 as Ep4 Eok.
  assert (C4 : p_heap p4 = p_heap p1 /\ p_graph p4 = g' /\ p_set p4 = p_set p1 /\ p_solver p4 = sv_compute SV (p_solver p1) (jtj J) /\ p_cur p4 = p_cur p1) by (subst p4; destruct Bs; auto).
  clear Ep4. destruct C4 as (C1 & C2 & C3 & C4 & C5).
  assert (NF : forall q st, failure st -> m_fail st q = (p', Ok tt) -> False).
  { intros q st Hst Q. inversion Q; subst p'. apply Hs. exact Hst. }
  destruct ok; cbn [negb] in H; [|exfalso; eapply NF; [|exact H]; left; auto].
  bindn H p5 s E5. injection E5 as Ep5 _. rewrite <- Ep5 in *. clear Ep5.
  bindn H p6 mn E6. unfold lift in E6. injection E6 as Ep6 _. rewrite <- Ep6 in *. clear Ep6.
  bindn H p7 mx E7. unfold lift in E7. injection E7 as Ep7 _. rewrite <- Ep7 in *. clear Ep7.
  destruct (nltb mn _); [exfalso; eapply NF; [|exact H]; right; left; auto|].
  destruct (nltb _ _); [exfalso; eapply NF; [|exact H]; right; right; auto|].
  bindn H p8 xo E8. unfold m_solve in E8. destruct (sv_solve SV (p_solver p4) _) as [s2 x] eqn:Ev. injection E8 as Ep8 Exo. subst xo. simpl fst in H. simpl snd in H.
  assert (D8 : p_heap p8 = p_heap p1 /\ p_graph p8 = g' /\ p_set p8 = p_set p1 /\ p_cur p8 = p_cur p1) by (subst p8; simpl; auto). clear Ep8. destruct D8 as (D1 & D2 & D3 & D4).
  destruct (sv_ok SV s2) eqn:Eok2; cbn [negb] in H; [|exfalso; eapply NF; [|exact H]; left; auto].
  bindn H p9 st E9. injection E9 as Ep9 Est. rewrite <- Ep9 in *. clear Ep9.
  bindn H p10 u10 E10. destruct u10. unfold m_apply in E10. destruct (inc_loop VC false (p_heap p8) (p_graph p8) (get_all_variables (p_graph p8)) _) as [h2 o] eqn:Ei.
  injection E10 as Ep10 Eo10. subst o.
  assert (X10 : p_heap p10 = h2 /\ p_cur p10 = p_cur p8) by (subst p10; auto). clear Ep10. destruct X10 as (X1 & X2).
  bindn H p11 u11 E11. destruct u11.
  assert (H11 : p_heap p11 = p_heap p10 /\ p_graph p11 = p_graph p10 /\ p_cur p11 = p_cur p10) by (unfold m_residual2 in E11; destruct (compute_residual_into _ _ _ _); inversion E11; auto).
  destruct H11 as (Y1 & Y2 & Y3).
  bindn H p12 r2 E12. injection E12 as Ep12 Er2. rewrite <- Ep12 in *. clear Ep12. unfold m_record, mupd in H. injection H as Hp'.
  assert (Z : p_heap p' = p_heap p11 /\ p_graph p' = p_graph p11) by (rewrite <- Hp'; auto). destruct Z as (Z1 & Z2).
  assert (Hf10 : pfin VC p10) by (unfold pfin in *; rewrite Z1, Z2, Y1, Y2 in Hf'; exact Hf').
  apply (residual2_ok VC EV HE) in E11; auto. destruct E11 as (_ & _ & _ & _ & _ & _ & St2).
  assert (Hfa10 : facs p10 = facs p) by (rewrite <- Hfa; unfold facs; rewrite Z2, Y2; reflexivity).
  exists r1, g', Mx, s2, x, r2. destruct Bs as (Bs & Bg).
  assert (Er : r1 = p_r1 p0) by congruence.
  split; [rewrite Er; exact A6|]. split; auto. rewrite Eo.
  split. { rewrite C4, Bs, As in Ev. rewrite <- Eb in Ev. exact Ev. }
  split; auto. split. { rewrite D1, D2, B1, A1, <- Est, D3, B4, A4 in Ei. rewrite Z1, Y1, X1. exact Ei. }
  split; [rewrite <- Hfa10, Z1, Y1, <- Er2; exact St2|].
  rewrite <- Hp'. cbn [w_cur p_cur]. rewrite Y3, X2, D4, B3, A3, <- Est, D3, B4, A4. reflexivity.
Qed.

Lemma gn_made (p p' : pstate) : onrun (p_heap p) (p_graph p) -> healthy (p_cur p) -> gn_step VC SV EV p = (p', Ok tt) -> ~ failure (ss_status (p_cur p')) ->
  made VC vs fs (st_rate (p_set p)) (p_heap p) (p_cur p) (p_heap p') (p_cur p') /\ onrun (p_heap p') (p_graph p').
Proof.
  intros H Hh E Hs. pose proof (onrun_fin VC Hok _ _ _ _ _ _ _ _ H) as Hf.
  destruct (gn_moves VC SV EV Hok HE (factorising_exact SV HF) l1 h1 g1 h0 vs fs Hu Hlive Hwf Hact Hbuf Hshape p p' H E Hs) as (_ & H'). split; auto.
  destruct (gn_verdict VC SV EV Hok HE HF l1 h1 g1 h0 vs fs Hu Hlive Hwf Hact Hbuf Hshape p p' H Hh E) as (J & HJ & _ & Un & _).
  assert (Un' : forall z, ~ unobservable J z) by (apply Un; intros K; apply Hs; left; exact K). clear Un.
  pose proof (onrun_fin VC Hok _ _ _ _ _ _ _ _ H') as Hf'.
  assert (Fp : facs p = fs) by (destruct H as (_ & A & _); exact A). assert (Fp' : facs p' = facs p) by (rewrite Fp; destruct H' as (_ & A & _); exact A).
  destruct (gn_step_full p p' Hf Hf' Fp' E Hs) as (r1 & g' & Mx & s2 & x & r2 & S1 & S2 & S4 & S5 & S6 & S7 & S8).
  rewrite Fp in S1, S7.
  destruct (onrun_jacobian VC EV Hok HE _ _ _ _ _ _ Hu Hlive Hwf Hact Hbuf Hshape _ _ _ _ H S2) as (HJ2 & Hg).
  destruct (factorising_exact SV HF) as (holds & X1 & X2 & X3).
  destruct (X2 _ _ _ _ _ (X1 _ _ (gram_sym _)) S4) as (_ & X4). specialize (X4 S5).
  assert (Hx : damped_solution 0 (sp_dense Mx) r1 x).
  { eapply solves_damped; [| | | |exact X4]; [reflexivity|reflexivity| |].
    + intros i j Hi Hj. etransitivity; [apply jtj_at|]. destruct (i =? j); lra.
    + intros i Hi. etransitivity; [exact (f_equal (fun z : R => nth i (map (fun y : RN => nmul y (nlit (-1))) (mvmul (mtrans (sp_dense Mx)) r1)) z)
          (eq_trans lit_zero (eq_sym (Rmult_0_l (nlit (n:=RN) (-1))))))|].
      etransitivity; [exact (map_nth (fun y : R => (y * nlit (n:=RN) (-1))%R) _ 0%R i)|].
      etransitivity; [exact (f_equal (fun z : R => (nth i (mvmul (mtrans (sp_dense Mx)) r1) z * nlit (n:=RN) (-1))%R) (eq_sym lit_zero))|].
      rewrite (jtr_nth (sp_dense Mx) r1 i Hi). etransitivity; [exact (f_equal2 Rmult eq_refl (lit_int (-1)))|]. lra. }
  exists r1, (sp_dense Mx), x, r2. split; auto. split; auto.
  split; [intros z Z; apply (Un' z); destruct (jacobian_unique VC _ _ _ _ _ HJ2 HJ) as (U1 & U2 & U3); exact (unobservable_same _ _ z U1 U2 U3 Z)|].
  split; auto. split; [|split; auto].
  assert (L : length (map (fun y : RN => nmul y (st_rate (p_set p))) x) = num_values g').
  { rewrite map_length. etransitivity; [exact (proj1 Hx)|]. eapply onrun_columns; eauto. }
  pose proof (inc_updated VC Hok _ _ g' _ _ (onrun_fin VC Hok _ _ _ _ _ _ _ _ Hg) L S6) as U. destruct Hg as (_ & _ & Bv & _). rewrite Bv in U. exact U.
Qed.
End Runs.

Section Two.
Context {V : Type} (VC : vclass RN V) {S S' : Type} (SV : solver RN S) (SV' : solver RN S').
Notation factor := (factor (N:=RN) (V:=V)).
Notation graph := (graph (N:=RN) (V:=V)).
Notation env := (env (N:=RN) (V:=V)).
Notation op := (op (N:=RN) (V:=V)).
Context (EV EV' : nat -> env).
Hypothesis Hok : vclass_ok VC.
Hypothesis HE : forall n, env_ok (EV n).
Hypothesis HE' : forall n, env_ok (EV' n).
Hypothesis HF : factorising_solver SV.
Hypothesis HF' : factorising_solver SV'.
Section Loop.
Context (l1 l1' : list (env * op)) (h1 h1' : @heap V) (g1 g1' : graph) (h0 : @heap V) (vs vs' : list addr) (fs fs' : list factor).
Hypothesis Hu : unfinalized VC ([], empty_graph) l1.
Hypothesis Hu' : unfinalized VC ([], empty_graph) l1'.
Hypothesis Pv : Permutation vs vs'.
Hypothesis Pf : Permutation fs fs'.
Hypothesis Nd : NoDup vs.
Hypothesis Hlive : Forall (fun a => a < length h0) vs.
Hypothesis Hwf : Forall (factor_wf VC h0 vs) fs.
Hypothesis Hact : some_active VC h0 fs.
Hypothesis Hbuf : Forall buf_indep fs.
Hypothesis Hshape : shape_contract VC h0 fs.
Lemma Hlive' : Forall (fun a => a < length h0) vs'.
Proof. eapply Permutation_Forall; eauto. Qed.
Lemma Hwf' : Forall (factor_wf VC h0 vs') fs'.
Proof.
  eapply Permutation_Forall; [exact Pf|]. eapply Forall_impl; [|exact Hwf]. intros f (A & B & C). split; auto. split; auto.
  intros q Hq. destruct (B q Hq) as (a & v & E & Ev & X & Y). exists a, v. split; auto. split; auto. split.
  - intros Hc. destruct (X Hc) as (X1 & X2). split; auto. eapply Permutation_in; eauto.
  - intros b Hb. apply Y. eapply Permutation_in; [apply Permutation_sym; eauto|auto].
Qed.
Lemma Hact' : some_active VC h0 fs'.
Proof. destruct Hact as (f & a & v & A & B). exists f, a, v. split; auto. eapply Permutation_in; eauto. Qed.
Lemma Hbuf' : Forall buf_indep fs'.
Proof. eapply Permutation_Forall; eauto. Qed.
Lemma Hshape' : shape_contract VC h0 fs'.
Proof. intros h f js A B. apply Hshape; auto. eapply Permutation_in; [apply Permutation_sym; eauto|auto]. Qed.

Lemma order_loop n : forall p q p' q', onrun VC l1 h1 g1 h0 vs fs (p_heap p) (p_graph p) -> onrun VC l1' h1' g1' h0 vs' fs' (p_heap q) (p_graph q) ->
  p_heap p = p_heap q -> p_cur p = p_cur q -> p_init p = p_init q -> p_set p = p_set q -> st_method (p_set p) = GaussNewton -> healthy (p_cur p) ->
  opt_loop VC SV EV n p = (p', Ok tt) -> opt_loop VC SV' EV' n q = (q', Ok tt) -> ~ failure (ss_status (p_cur p')) -> ~ failure (ss_status (p_cur q')) ->
  p_heap p' = p_heap q' /\ p_cur p' = p_cur q' /\ p_init p' = p_init q'.
Proof.
  induction n; intros p q p' q' Hp Hq Eh Ec Ei Es Hm Hh E E' Nf Nf'; cbn [opt_loop] in E, E'; [inversion E; inversion E'; subst; auto|].
  destruct (one_step VC SV EV p) as [p1 [[]|e|u]] eqn:E1; [|injection E as <-; exfalso; apply Nf; left; reflexivity|discriminate].
  destruct (one_step VC SV' EV' q) as [q1 [[]|e|u]] eqn:E1'; [|injection E' as <-; exfalso; apply Nf'; left; reflexivity|discriminate].
  pose proof (frames_one VC SV EV HE _ _ _ E1) as (_ & F1 & F2 & F3 & _). pose proof (frames_one VC SV' EV' HE' _ _ _ E1') as (_ & F1' & F2' & F3' & _).
  pose proof (hf_one VC SV EV _ _ _ E1 Hh) as H1. assert (Hh' : healthy (p_cur q)) by (rewrite <- Ec; exact Hh). pose proof (hf_one VC SV' EV' _ _ _ E1' Hh') as H1'.
  unfold one_step in E1, E1'. assert (Hm' : st_method (p_set q) = GaussNewton) by congruence. rewrite Hm in E1. rewrite Hm' in E1'.
  destruct H1 as [H1|(_ & H1)]; [|exfalso; apply Nf; assert (p' = p1) as -> by (destruct H1 as [X|[X|X]]; rewrite X in E; inversion E; auto); exact H1].
  destruct H1' as [H1'|(_ & H1')]; [|exfalso; apply Nf'; assert (q' = q1) as -> by (destruct H1' as [X|[X|X]]; rewrite X in E'; inversion E'; auto); exact H1'].
  destruct (gn_made VC SV EV Hok HE HF l1 h1 g1 h0 vs fs Hu Hlive Hwf Hact Hbuf Hshape p p1 Hp Hh E1 (not_fail _ H1)) as (M1 & Hp1).
  destruct (gn_made VC SV' EV' Hok HE' HF' l1' h1' g1' h0 vs' fs' Hu' Hlive' Hwf' Hact' Hbuf' Hshape' q q1 Hq Hh' E1' (not_fail _ H1')) as (M1' & Hq1).
  rewrite <- Eh, <- Ec, <- Es in M1'. destruct (made_same VC _ _ _ _ _ _ _ _ _ _ _ Pv Pf Nd M1 M1') as (Eh1 & Ec1).
  assert (Es1 : p_set p1 = p_set q1) by congruence.
  assert (Ei1 : p_init p1 = p_init q1) by congruence.
  rewrite <- Ec1, <- Es1, <- Ec, <- Ei1 in E'.
  assert (Stop : p_heap p1 = p_heap q1 /\ p_cur p1 = p_cur q1 /\ p_init p1 = p_init q1) by auto.
  assert (Go : opt_loop VC SV EV n p1 = (p', Ok tt) -> opt_loop VC SV' EV' n q1 = (q', Ok tt) -> p_heap p' = p_heap q' /\ p_cur p' = p_cur q' /\ p_init p' = p_init q')
    by (intros G G'; apply (IHn p1 q1); auto; congruence).
  unfold m_status, m_fail, mupd in E, E'. 
  destruct H1 as (_ & [Hs|Hs]); rewrite Hs in E, E';
  repeat match type of E with (if ?b then _ else _) = _ => destruct b end; try (apply Go; assumption); injection E as <-; injection E' as <-; cbn; rewrite <- Ec1; auto.
Qed.
End Loop.

Theorem order_free l1 l1' l2 l2' h1 h1' g1 g1' (p p' : pstate (S:=S)) (q q' : pstate (S:=S')) :
  finalized_history VC l1 l2 h1 (p_heap p) g1 (p_graph p) -> unfinalized VC ([], empty_graph) l1 ->
  finalized_history VC l1' l2' h1' (p_heap q) g1' (p_graph q) -> unfinalized VC ([], empty_graph) l1' ->
  let vs := get_all_variables (p_graph p) in let fs := get_all_factors (p_graph p) in
  Permutation vs (get_all_variables (p_graph q)) -> Permutation fs (get_all_factors (p_graph q)) -> p_heap p = p_heap q -> p_set p = p_set q ->
  Forall (factor_wf VC (p_heap p) vs) fs -> some_active VC (p_heap p) fs -> Forall buf_indep fs -> shape_contract VC (p_heap p) fs ->
  st_method (p_set p) = GaussNewton -> optimize VC SV EV p = (p', Ok tt) -> optimize VC SV' EV' q = (q', Ok tt) ->
  ~ failure (ss_status (p_cur p')) -> ~ failure (ss_status (p_cur q')) ->
  p_heap p' = p_heap q' /\ p_cur p' = p_cur q' /\ p_init p' = p_init q'.
Proof.
  intros HFp Hu HFq Hu' vs fs Pv Pf Eh Es Hwf Hact Hbuf Hsh Hm E E' Nf Nf'.
  apply optimize_ok in E. destruct E as (Hg & g & r0 & p2 & Cr & L & ->). apply optimize_ok in E'. destruct E' as (Hg' & g' & r0' & q2 & Cr' & L' & ->).
  destruct (begun_on VC EV Hok HE _ _ _ _ p g r0 HFp Cr) as (On & Hl). destruct (begun_on VC EV' Hok HE' _ _ _ _ q g' r0' HFq Cr') as (On' & _).
  destruct (finalized_facts VC Hok _ _ _ _ _ _ HFp) as (_ & Fp & _). destruct (finalized_facts VC Hok _ _ _ _ _ _ HFq) as (_ & Fq & _).
  assert (Sr : sqnorm (N:=RN) r0 = sqnorm (N:=RN) r0').
  { pose proof (compute_residual_inv VC _ _ _ _ _ (HE _) Fp Cr) as (St & _). pose proof (compute_residual_inv VC _ _ _ _ _ (HE' _) Fq Cr') as (St' & _).
    rewrite <- Eh in St'. exact (same_norm _ _ _ _ _ Pf St St'). }
  assert (Nd : NoDup vs) by (eapply vars_nodup; eauto).
  assert (X : forall r : pstate (N:=RN) (V:=V) (S:=S), p_heap (end_run r) = p_heap r /\ (~ failure (ss_status (p_cur (end_run r))) -> ~ failure (ss_status (p_cur r)))).
  { intros r. unfold end_run. destruct (ss_status (p_cur r)) eqn:Z; cbn; try (rewrite Z; auto). split; auto. intros _ [K|[K|K]]; discriminate. }
  assert (X' : forall r : pstate (N:=RN) (V:=V) (S:=S'), p_heap (end_run r) = p_heap r /\ (~ failure (ss_status (p_cur (end_run r))) -> ~ failure (ss_status (p_cur r)))).
  { intros r. unfold end_run. destruct (ss_status (p_cur r)) eqn:Z; cbn; try (rewrite Z; auto). split; auto. intros _ [K|[K|K]]; discriminate. }
  rewrite <- Es in L'. rewrite <- Eh in On'.
  destruct (order_loop l1 l1' h1 h1' g1 g1' (p_heap p) vs _ fs _ Hu Hu' Pv Pf Nd Hl Hwf Hact Hbuf Hsh (st_max_iter (p_set p)) (begin_run g r0 p) (begin_run g' r0' q) p2 q2) as (A & B & C); auto.
  - cbn. rewrite <- Eh. exact On'.
  - cbn. unfold vnorm. rewrite Sr. reflexivity.
  - cbn. unfold vnorm. rewrite Sr. reflexivity.
  - split; cbn; auto.
  - apply X. exact Nf.
  - apply X'. exact Nf'.
  - unfold end_run. rewrite <- B. destruct (ss_status (p_cur p2)); cbn; rewrite <- ?B; auto.
Qed.
End Two.
