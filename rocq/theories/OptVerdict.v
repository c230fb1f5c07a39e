(** What the failure codes of Gauss-Newton mean for the Jacobian; bounded damping. *)
From Coq Require Import List Arith ZArith QArith Bool Lia Permutation Reals Lra.
From Verif Require Import Base Sparse Graph SpecGraph SpecOpt ListLemmas GraphLayout GraphFin GraphBasic GraphVec GraphDense GraphSparse Optimizer OptLemmas OptWork OptLM OptRun OptMore Real RSum SpecSolver Gram Pivots OptCov OptExact OptLinear SpecSteps OptSteps.
Import ListNotations.
Local Open Scope nat_scope.
Set Bullet Behavior "Strict Subproofs".

(** ** The Jacobian is determined by the variables *)
Section Unique.
Context {V : Type} (VC : vclass RN V).
Notation factor := (factor (N:=RN) (V:=V)).
Lemma jacobian_unique h vs (fs : list factor) J J' : jacobian_at VC h vs fs J -> jacobian_at VC h vs fs J' ->
  mrows J = mrows J' /\ mcols J = mcols J' /\ forall i j, i < mrows J -> j < mcols J -> mat_at J i j = mat_at J' i j.
Proof.
  intros (jss & A1 & A2 & A3 & A4) (jss' & B1 & B2 & B3 & B4). split; [congruence|]. split; [congruence|].
  assert (E : jss' = jss).
  { clear -A1 B1. revert jss' B1. induction A1 as [|f js fs jss Hf Hr IH]; intros jss' B; inversion B; subst; auto. f_equal; [|apply IH; auto]. congruence. }
  subst jss'. intros i j Hi Hj. rewrite A2 in Hi. rewrite A3 in Hj.
  destruct (psum_cover _ _ Hi) as (k & r & Hk & Hr). destruct (psum_cover _ _ Hj) as (m & c & Hm & Hc).
  rewrite nth_error_map in Hk, Hm. destruct (nth_error fs k) as [f|] eqn:Ef; [|discriminate]. destruct (nth_error vs m) as [a|] eqn:Ea; [|discriminate].
  cbn in Hk, Hm. injection Hk as <-. injection Hm as <-.
  assert (Ejs : exists js, nth_error jss k = Some js).
  { destruct (nth_error jss k) eqn:Ej; eauto. apply nth_error_None in Ej. assert (Lj : length fs = length jss) by (clear -A1; induction A1; cbn; congruence); rewrite <- Lj in Ej. apply nth_error_None in Ej. congruence. }
  destruct Ejs as (js & Ejs).
  set (r0 := i - row_start fs k). set (c0 := j - col_start VC h vs m).
  change (psum (map f_rsize fs) k) with (row_start fs k) in Hr. change (psum (map (width VC h) vs) m) with (col_start VC h vs m) in Hc.
  replace i with (row_start fs k + r0) by (unfold r0; lia). replace j with (col_start VC h vs m + c0) by (unfold c0; lia).
  rewrite (A4 k f js m a r0 c0), (B4 k f js m a r0 c0) by (auto; unfold r0, c0; lia). reflexivity.
Qed.
Lemma unobservable_same (J J' : mat RN) x : mrows J = mrows J' -> mcols J = mcols J' -> (forall i j, i < mrows J -> j < mcols J -> mat_at J i j = mat_at J' i j) ->
  unobservable J x -> unobservable J' x.
Proof.
  intros Er C E (L & Hx & Z). split; [congruence|]. split; [rewrite <- C; exact Hx|]. intros k Hk. rewrite <- Er in Hk. etransitivity; [|exact (Z k Hk)]. rewrite <- C.
  apply rsum_ext. intros j Hj. exact (f_equal (fun t : R => (t * nth j x 0)%R) (eq_sym (E k j Hk Hj))).
Qed.
Lemma image_same (J J' : mat RN) x : mrows J = mrows J' -> mcols J = mcols J' -> (forall i j, i < mrows J -> j < mcols J -> mat_at J i j = mat_at J' i j) ->
  image_sq J x = image_sq J' x.
Proof.
  intros Er C E. unfold image_sq. rewrite <- Er, <- C. apply rsum_ext. intros k Hk.
  assert (X : rsum (mcols J) (fun j => mat_at J k j * nth j x 0)%R = rsum (mcols J) (fun j => mat_at J' k j * nth j x 0)%R).
  { apply rsum_ext. intros j Hj. exact (f_equal (fun t : R => (t * nth j x 0)%R) (E k j Hk Hj)). }
  exact (f_equal2 Rmult X X).
Qed.
Lemma column_same (J J' : mat RN) c : mrows J = mrows J' -> (forall i, i < mrows J -> mat_at J i c = mat_at J' i c) -> column_sq J c = column_sq J' c.
Proof.
  intros Er E. unfold column_sq. rewrite <- Er. apply rsum_ext. intros k Hk. exact (f_equal2 Rmult (E k Hk) (E k Hk)).
Qed.
Lemma ill_posed_same (J J' : mat RN) l : mrows J = mrows J' -> mcols J = mcols J' -> (forall i j, i < mrows J -> j < mcols J -> mat_at J i j = mat_at J' i j) ->
  ill_posed l J -> ill_posed l J'.
Proof.
  intros Er C E (x & i & L & Hi & X1 & X2). exists x, i. rewrite <- C. split; auto. split; auto. split; auto.
  assert (D : damped_sq l J' x = damped_sq l J x) by (unfold damped_sq; rewrite <- C, (image_same J J' x Er C E); reflexivity).
  rewrite D. destruct X2 as [X2|(c & Hc & X2)]; [left; exact X2|right]. exists c. split; [congruence|]. rewrite <- (column_same J J' c Er); auto.
Qed.
(** every failure code means that the system is ill-posed *)
Lemma verdict_ill st (J : mat RN) : failure st -> verdict st J -> ill_posed 0 J.
Proof.
  intros Hf Hv. assert (Z : forall x, damped_sq 0 J x = image_sq J x) by (intros; apply damped_zero).
  destruct Hf as [ -> | [ -> | -> ]]; cbn in Hv.
  - destruct Hv as (x & L & (i & Hi & Hx) & K). exists (map (fun t => (t / nth i x 0)%R) x), i.
    assert (N : forall j, nth j (map (fun t => (t / nth i x 0)%R) x) 0%R = (nth j x 0 / nth i x 0)%R).
    { intros j. destruct (Nat.lt_ge_cases j (length x)) as [Hj|Hj].
      - rewrite nth_indep with (d' := (0 / nth i x 0)%R) by (rewrite map_length; auto). apply (map_nth (fun t => (t / nth i x 0)%R)).
      - rewrite !nth_overflow by (rewrite ?map_length; auto). unfold Rdiv. symmetry. apply Rmult_0_l. }
    split; [rewrite map_length; auto|]. split; auto. split; [rewrite N; apply Rinv_r; auto|]. left. rewrite Z.
    assert (X : image_sq J (map (fun t => (t / nth i x 0)%R) x) = 0%R); [|rewrite X; lra].
    apply rsum_zero. intros k Hk.
    assert (Y : rsum (mcols J) (fun j => mat_at J k j * nth j (map (fun t => (t / nth i x 0)%R) x) 0)%R = 0%R).
    { transitivity (rsum (mcols J) (fun j => mat_at J k j * nth j x 0)%R * / nth i x 0)%R; [|rewrite (K k Hk); apply Rmult_0_l].
      rewrite <- rsum_scal_r. apply rsum_ext. intros j Hj. rewrite N. unfold Rdiv. apply eq_sym, Rmult_assoc. }
    rewrite Y. apply Rmult_0_l.
  - destruct Hv as (_ & x & i & L & Hi & X1 & X2). exists x, i. rewrite Z. auto.
  - destruct Hv as (_ & x & i & c & L & Hi & X1 & Hc & X2). exists x, i. rewrite Z. split; auto. split; auto. split; auto. right. exists c. split; auto. lra.
Qed.
End Unique.

Section Runs.
Context {V : Type} (VC : vclass RN V) {S : Type} (SV : solver RN S).
Notation factor := (factor (N:=RN) (V:=V)).
Notation graph := (graph (N:=RN) (V:=V)).
Notation env := (env (N:=RN) (V:=V)).
Notation op := (op (N:=RN) (V:=V)).
Notation pstate := (pstate (N:=RN) (V:=V) (S:=S)).
Notation M := (M (N:=RN) (V:=V) (S:=S)).
Context (EV : nat -> env).
Hypothesis Hok : vclass_ok VC.
Hypothesis HE : forall n, env_ok (EV n).
Hypothesis HF : factorising_solver SV.
Ltac bindn H p1 a E := apply bind_ok in H; destruct H as (p1 & a & E & H).

Context (l1 : list (env * op)) (h1 : @heap V) (g1 : graph) (h0 : @heap V) (vs : list addr) (fs : list factor).
Hypothesis Hu : unfinalized VC ([], empty_graph) l1.
Hypothesis Hlive : Forall (fun a => a < length h0) vs.
Hypothesis Hwf : Forall (factor_wf VC h0 vs) fs.
Hypothesis Hact : some_active VC h0 fs.
Hypothesis Hbuf : Forall buf_indep fs.
Hypothesis Hshape : shape_contract VC h0 fs.
Notation onrun := (onrun VC l1 h1 g1 h0 vs fs).

Lemma unob_of (J : mat RN) x i : length x = mcols J -> i < mcols J -> nth i x 0%R = 1%R -> damped_sq 0 J x = 0%R -> unobservable J x.
Proof.
  intros L Hi X1 X2. rewrite damped_zero in X2. split; auto. split; [exists i; split; auto; rewrite X1; lra|]. apply image_zero. exact X2.
Qed.
Lemma gn_verdict (p p' : pstate) : onrun (p_heap p) (p_graph p) -> healthy (p_cur p) -> gn_step VC SV EV p = (p', Ok tt) ->
  exists J, jacobian_at VC (p_heap p) vs fs J /\ verdict (ss_status (p_cur p')) J /\
    (ss_status (p_cur p') <> FAILED -> forall x, ~ unobservable J x) /\ (failure (ss_status (p_cur p')) -> p_heap p' = p_heap p).
Proof.
  intros H Hh E. pose proof (onrun_fin VC Hok _ _ _ _ _ _ _ _ H) as Hf. pose proof E as E0. unfold gn_step in E.
  bindn E q0 u0 F0. destruct u0. pose proof F0 as Fx. apply (residual1_ok VC EV HE) in Fx; auto. destruct Fx as (A0 & A1 & A2 & A3 & A4 & A5 & A6).
  bindn E q1 J F1.
  unfold m_sparse in F1. destruct (compute_sparse VC (p_heap q0) (p_graph q0)) as [g' o] eqn:Es. injection F1 as Ep1 Eo.
  destruct o as [Mx|e1|u]; simpl in Eo; try discriminate. injection Eo as Eo. rewrite A1, A2 in Es.
  destruct (onrun_jacobian VC EV Hok HE _ _ _ _ _ _ Hu Hlive Hwf Hact Hbuf Hshape _ _ _ _ H Es) as (HJ & H'). rewrite Eo in HJ.
  assert (B1 : p_cur q1 = p_cur p) by (subst q1; simpl; congruence). clear Ep1.
  bindn E q2 r1 F2. injection F2 as <- <-. bindn E q3 b0 F3. injection F3 as <- Eb.
  bindn E q4 ok F4. unfold m_factorize in F4. injection F4 as Ep4 Eok.
  assert (C : p_cur q4 = p_cur p /\ p_solver q4 = sv_compute SV (p_solver q1) (jtj J)) by (subst q4; auto).
  destruct C as (C1 & C2). clear Ep4. exists J. split; auto.
  assert (Fail : failure (ss_status (p_cur p')) -> p_heap p' = p_heap p) by (intros K; apply (gn_failed VC SV EV p p' E0 Hh K)).
  destruct ok; cbn [negb] in E.
  2: { injection E as <-. cbn. destruct (refused SV HF _ _ _ _ (fits_gram J) Eok) as (x & i & X1 & X2 & X3 & X4).
       split; [exists x; eapply unob_of; eauto|]. split; [congruence|exact Fail]. }
  assert (Un : forall x, ~ unobservable J x) by (apply definite_observable; exact (accepted SV HF _ _ _ _ (fits_gram J) Eok)).
  bindn E q5 s F5. injection F5 as <- <-. bindn E q6 mn F6. injection F6 as <- Emn. bindn E q7 mx F7. injection F7 as <- Emx.
  rewrite C2 in Emn, Emx.
  destruct (extreme_pivots SV HF _ _ _ _ _ _ (fits_gram J) Eok Emn Emx) as (P1 & P2 & (x & i & P3 & P4 & P5 & P6) & (c & P7 & P8)).
  rewrite damped_zero in P6.
  destruct (nltb mn _) eqn:T1.
  { injection E as <-. cbn. split; [|split; [auto|exact Fail]]. split; auto. exists x, i. rewrite P6. repeat (split; auto). apply tiny_test. exact T1. }
  match type of E with context [nltb ?a ?b] => destruct (nltb a b) eqn:T2 end.
  { injection E as <-. cbn. split; [|split; [auto|exact Fail]]. split; auto. exists x, i, c. rewrite P6. repeat (split; auto).
    apply ratio_test in T2; auto. eapply Rlt_le_trans; [exact T2|]. lra. }
  bindn E q8 xo F8. unfold m_solve in F8. destruct (sv_solve SV (p_solver q4) _) as [s2 y] eqn:Ev. injection F8 as Ep8 Exo. subst xo. simpl fst in E. simpl snd in E.
  rewrite C2 in Ev. pose proof (solving_keeps SV HF _ _ _ _ _ _ _ (fits_gram J) Ev) as K. rewrite Eok in K. rewrite K in E. cbn [negb] in E.
  assert (D1 : p_cur q8 = p_cur p) by (subst q8; auto). clear Ep8.
  bindn E q9 st F9. injection F9 as <- <-. bindn E q10 u10 F10. bindn E q11 u11 F11. bindn E q12 r2 F12. injection F12 as <- <-. injection E as <-.
  assert (D2 : p_cur q11 = p_cur p).
  { unfold m_apply in F10. destruct (inc_loop _ _ _ _ _ _). injection F10 as <- _. unfold m_residual2 in F11. destruct (compute_residual_into _ _ _ _). injection F11 as <- _. exact D1. }
  cbn. cbn in Fail. rewrite D2 in *. split; [|split; [auto|exact Fail]]. destruct Hh as (_ & [Hh|Hh]); rewrite Hh; exact I.
Qed.

Lemma gn_final n : forall p p', onrun (p_heap p) (p_graph p) -> st_method (p_set p) = GaussNewton -> healthy (p_cur p) -> p_caught p = false ->
  opt_loop VC SV EV n p = (p', Ok tt) -> p_caught p' = false -> failure (ss_status (p_cur p')) ->
  exists J, jacobian_at VC (p_heap p') vs fs J /\ verdict (ss_status (p_cur p')) J.
Proof.
  induction n; intros p p' H Hm Hh Hc0 E Hc Hf; cbn [opt_loop] in E.
  - inversion E; subst. exfalso. exact (not_fail _ Hh Hf).
  - destruct (one_step VC SV EV p) as [p1 [[]|e|u]] eqn:E1; [| |discriminate].
    2: { unfold m_fail, mupd in E. injection E as <-. discriminate. }
    pose proof (frames_one VC SV EV HE _ _ _ E1) as (_ & F1 & _ & _ & _ & _ & _ & F2).
    pose proof (hf_one VC SV EV _ _ _ E1 Hh) as H1. unfold one_step in E1. rewrite Hm in E1.
    destruct H1 as [H1|H1].
    + assert (NF : ~ failure (ss_status (p_cur p1))) by (apply not_fail; auto).
      destruct (gn_moves VC SV EV Hok HE (factorising_exact SV HF) _ _ _ _ _ _ Hu Hlive Hwf Hact Hbuf Hshape _ _ H E1 NF) as (St & On).
      assert (Go : opt_loop VC SV EV n p1 = (p', Ok tt) -> exists J, jacobian_at VC (p_heap p') vs fs J /\ verdict (ss_status (p_cur p')) J).
      { intros E2. apply (IHn p1 p'); auto; congruence. }
      destruct (ss_status (p_cur p1)) eqn:Es1; try (exfalso; apply NF; unfold failure; tauto);
      repeat match type of E with (if ?b then _ else _) = _ => destruct b end; try (apply Go; exact E); inversion E; subst p'; cbn in Hf |- *; try rewrite Es1 in Hf;
      exfalso; clear -Hf; unfold failure in Hf; repeat match type of Hf with context [if ?b then _ else _] => destruct b end; destruct Hf as [?|[?|?]]; discriminate.
    + destruct H1 as (_ & H1). destruct (gn_verdict _ _ H Hh E1) as (J & A & B & _ & C).
      assert (p' = p1) by (destruct H1 as [X|[X|X]]; rewrite X in E; inversion E; auto). subst p'.
      exists J. rewrite (C H1). auto.
Qed.
End Runs.

Section Whole.
Context {V : Type} (VC : vclass RN V) {S : Type} (SV : solver RN S).
Notation graph := (graph (N:=RN) (V:=V)).
Notation pstate := (pstate (N:=RN) (V:=V) (S:=S)).
Context (EV : nat -> env (N:=RN) (V:=V)).
Hypothesis Hok : vclass_ok VC.
Hypothesis HE : forall n, env_ok (EV n).
Hypothesis HF : factorising_solver SV.

Theorem gn_failure_codes l1 l2 h1 g1 (p p' : pstate) :
  finalized_history VC l1 l2 h1 (p_heap p) g1 (p_graph p) -> unfinalized VC ([], empty_graph) l1 ->
  let vs := get_all_variables (p_graph p) in let fs := get_all_factors (p_graph p) in
  Forall (factor_wf VC (p_heap p) vs) fs -> some_active VC (p_heap p) fs -> Forall buf_indep fs -> shape_contract VC (p_heap p) fs ->
  st_method (p_set p) = GaussNewton -> optimize VC SV EV p = (p', Ok tt) -> p_caught p' = false -> failure (ss_status (p_cur p')) ->
  exists J, jacobian_at VC (p_heap p') vs fs J /\ verdict (ss_status (p_cur p')) J.
Proof.
  intros HFi Hu vs fs Hwf Hact Hbuf Hsh Hm E Hc Hf. apply optimize_ok in E. destruct E as (Hg & g & r0 & p2 & Cr & L & ->).
  destruct (begun_on VC EV Hok HE l1 l2 h1 g1 p g r0 HFi Cr) as (On & Hl).
  assert (X : p_heap (end_run p2) = p_heap p2 /\ p_caught (end_run p2) = p_caught p2 /\ (failure (ss_status (p_cur (end_run p2))) -> ss_status (p_cur (end_run p2)) = ss_status (p_cur p2))).
  { unfold end_run. destruct (ss_status (p_cur p2)) eqn:Es; cbn; rewrite ?Es; auto. repeat split; auto. intros [?|[?|?]]; discriminate. }
  destruct X as (X1 & X2 & X3). rewrite X1, (X3 Hf). rewrite X2 in Hc. rewrite (X3 Hf) in Hf.
  apply (gn_final VC SV EV Hok HE HF l1 h1 g1 (p_heap p) vs fs Hu Hl Hwf Hact Hbuf Hsh (st_max_iter (p_set p)) (begin_run g r0 p) p2 On Hm); auto.
  split; simpl; auto.
Qed.

(** an unobservable direction at the start: FAILED, and nothing moves *)
Theorem gn_unobservable l1 l2 h1 g1 (p p' : pstate) J x :
  finalized_history VC l1 l2 h1 (p_heap p) g1 (p_graph p) -> unfinalized VC ([], empty_graph) l1 ->
  let vs := get_all_variables (p_graph p) in let fs := get_all_factors (p_graph p) in
  Forall (factor_wf VC (p_heap p) vs) fs -> some_active VC (p_heap p) fs -> Forall buf_indep fs -> shape_contract VC (p_heap p) fs ->
  st_method (p_set p) = GaussNewton -> 1 <= st_max_iter (p_set p) -> jacobian_at VC (p_heap p) vs fs J -> unobservable J x ->
  optimize VC SV EV p = (p', Ok tt) -> p_caught p' = false ->
  ss_status (p_cur p') = FAILED /\ p_heap p' = p_heap p /\ ss_iter (p_cur p') = 0.
Proof.
  intros HFi Hu vs fs Hwf Hact Hbuf Hsh Hm Hn HJ Hx E Hc. apply optimize_ok in E. destruct E as (Hg & g & r0 & p2 & Cr & L & ->).
  destruct (begun_on VC EV Hok HE l1 l2 h1 g1 p g r0 HFi Cr) as (On & Hl).
  destruct (st_max_iter (p_set p)) as [|n] eqn:En; [lia|]. cbn [opt_loop] in L. unfold one_step in L. change (p_set (begin_run g r0 p)) with (p_set p) in L. rewrite Hm in L.
  destruct (gn_step VC SV EV (begin_run g r0 p)) as [p3 [[]|e|u]] eqn:Eg; [| |discriminate].
  2: { unfold m_fail, mupd in L. injection L as <-. unfold end_run in Hc. cbn in Hc. discriminate. }
  assert (Hh : healthy (p_cur (begin_run g r0 p))) by (split; simpl; auto).
  destruct (gn_verdict VC SV EV Hok HE HF l1 h1 g1 (p_heap p) vs fs Hu Hl Hwf Hact Hbuf Hsh (begin_run g r0 p) p3 On Hh Eg) as (J' & A & B & C & D).
  destruct (jacobian_unique VC _ _ _ _ _ HJ A) as (U1 & U2 & U3).
  assert (Es : ss_status (p_cur p3) = FAILED).
  { destruct (ss_status (p_cur p3)) eqn:Es; auto; exfalso; (eapply C; [discriminate|]); eapply unobservable_same; eauto. }
  rewrite Es in L. injection L as <-. unfold end_run. rewrite Es. cbn. split; auto.
  destruct (gn_failed VC SV EV _ _ Eg Hh) as (G1 & G2 & _); [left; exact Es|]. split; [exact G1|exact G2].
Qed.

(** a well-posed problem: the first iteration does not fail *)
Theorem gn_well_posed l1 l2 h1 g1 (p p' : pstate) J :
  finalized_history VC l1 l2 h1 (p_heap p) g1 (p_graph p) -> unfinalized VC ([], empty_graph) l1 ->
  let vs := get_all_variables (p_graph p) in let fs := get_all_factors (p_graph p) in
  Forall (factor_wf VC (p_heap p) vs) fs -> some_active VC (p_heap p) fs -> Forall buf_indep fs -> shape_contract VC (p_heap p) fs ->
  st_method (p_set p) = GaussNewton -> st_max_iter (p_set p) = 1 -> jacobian_at VC (p_heap p) vs fs J -> ~ ill_posed 0 J ->
  optimize VC SV EV p = (p', Ok tt) -> p_caught p' = false -> ~ failure (ss_status (p_cur p')).
Proof.
  intros HFi Hu vs fs Hwf Hact Hbuf Hsh Hm Hn HJ Hx E Hc Hf. apply optimize_ok in E. destruct E as (Hg & g & r0 & p2 & Cr & L & ->).
  destruct (begun_on VC EV Hok HE l1 l2 h1 g1 p g r0 HFi Cr) as (On & Hl).
  rewrite Hn in L. cbn [opt_loop] in L. unfold one_step in L. change (p_set (begin_run g r0 p)) with (p_set p) in L. rewrite Hm in L.
  destruct (gn_step VC SV EV (begin_run g r0 p)) as [p3 [[]|e|u]] eqn:Eg; [| |discriminate].
  2: { unfold m_fail, mupd in L. injection L as <-. unfold end_run in Hc. cbn in Hc. discriminate. }
  assert (Hh : healthy (p_cur (begin_run g r0 p))) by (split; simpl; auto).
  destruct (gn_verdict VC SV EV Hok HE HF l1 h1 g1 (p_heap p) vs fs Hu Hl Hwf Hact Hbuf Hsh (begin_run g r0 p) p3 On Hh Eg) as (J' & A & B & C & D).
  destruct (jacobian_unique VC _ _ _ _ _ HJ A) as (U1 & U2 & U3).
  assert (Eo : one_step VC SV EV (begin_run g r0 p) = (p3, Ok tt)) by (unfold one_step; change (p_set (begin_run g r0 p)) with (p_set p); rewrite Hm; exact Eg).
  destruct (hf_one VC SV EV _ _ _ Eo Hh) as [H1|(_ & H1)].
  - assert (NF : ~ failure (ss_status (p_cur p3))) by (apply not_fail; auto). revert Hf.
    assert (X : ss_status (p_cur p2) = ss_status (p_cur p3) \/ ss_status (p_cur p2) = SUCCESS \/ ss_status (p_cur p2) = DIVERGED).
    { destruct (ss_status (p_cur p3)) eqn:Es; repeat match type of L with (if ?b then _ else _) = _ => destruct b | context [if ?b then _ else _] => destruct b end; inversion L; subst p2; cbn; rewrite ?Es; auto. }
    unfold end_run. intros Hf. assert (failure (ss_status (p_cur p2))) as Hf2.
    { destruct (ss_status (p_cur p2)) eqn:Es2; cbn in Hf; rewrite ?Es2 in Hf; auto. destruct Hf as [K|[K|K]]; discriminate. }
    destruct X as [X|[X|X]]; rewrite X in Hf2; auto; destruct Hf2 as [K|[K|K]]; discriminate.
  - apply Hx. apply (ill_posed_same J' J); [symmetry; exact U1|symmetry; exact U2|intros i j Hi Hj; symmetry; apply U3; congruence|]. eapply verdict_ill; eauto.
Qed.
End Whole.
