(** The recorded length of the last increment. *)
From Coq Require Import List Arith ZArith QArith Bool Lia Permutation Reals Lra.
From Verif Require Import Base Sparse Graph SpecGraph SpecOpt ListLemmas GraphLayout GraphFin GraphBasic GraphVec GraphDense GraphSparse Optimizer OptLemmas OptWork OptLM OptRun OptMore Real RSum SpecSolver Gram Pivots OptCov OptExact OptLinear SpecSteps OptSteps SpecLength.
Import ListNotations.
Local Open Scope nat_scope.

Lemma vnorm_length (x : list RN) : vnorm x = length_of x.
Proof. unfold vnorm, length_of. change (nsqrt (n:=RN) (sqnorm x)) with (sqrt (sqnorm (N:=RN) x)). f_equal. apply sqnorm_rsum. Qed.
Lemma vnorm_zeros {A} (x : list A) : vnorm (N:=RN) (map (fun _ => nzero) x) = 0%R.
Proof.
  rewrite vnorm_length. unfold length_of. transitivity (sqrt 0); [f_equal|apply sqrt_0]. apply rsum_zero. intros i Hi. 
  assert (Z : nth i (map (fun _ : A => nzero (N:=RN)) x) 0%R = 0%R).
  { clear Hi. revert i. induction x as [|a x IH]; intros [|i]; cbn [map nth]; auto. exact lit_zero. }
  change (nth i (map (fun _ : A => nzero (N:=RN)) x) 0 * nth i (map (fun _ : A => nzero (N:=RN)) x) 0 = 0)%R. rewrite Z. apply Rmult_0_l.
Qed.

Section Fail.
Context {N : num} {V : Type} (VC : vclass N V) {S : Type} (SV : solver N S).
Notation env := (env (N:=N) (V:=V)).
Notation pstate := (pstate (N:=N) (V:=V) (S:=S)).
Notation M := (M (N:=N) (V:=V) (S:=S)).
Context (EV : nat -> env).
Ltac bind H := let p1 := fresh "p" in let a := fresh "a" in let E := fresh "E" in
  apply bind_ok in H; destruct H as (p1 & a & E & H).
(** a failed Gauss-Newton step leaves the recorded length *)
Lemma gn_failed_delta (p p' : pstate) : gn_step VC SV EV p = (p', Ok tt) -> healthy (p_cur p) -> failure (ss_status (p_cur p')) -> ss_delta (p_cur p') = ss_delta (p_cur p).
Proof.
  intros H Hp Hf.
  assert (K : forall {A} (m : M A), (forall p, p_heap (fst (m p)) = p_heap p /\ p_cur (fst (m p)) = p_cur p) -> forall p p' r, m p = (p', r) -> p_heap p' = p_heap p /\ p_cur p' = p_cur p).
  { intros A m Hm q q' r Eq. specialize (Hm q). rewrite Eq in Hm. auto. }
  unfold gn_step in H.
  bind H. apply K in E; [|intros q; unfold m_residual1; destruct (compute_residual_into _ _ _ _); auto].
  bind H. apply K in E0; [|intros q; unfold m_sparse; destruct (compute_sparse _ _ _); auto].
  bind H. apply K in E1; [|auto]. bind H. apply K in E2; [|auto]. bind H. apply K in E3; [|auto].
  assert (C : p_heap p4 = p_heap p /\ p_cur p4 = p_cur p) by (split; destruct E, E0, E1, E2, E3; congruence).
  clear E E0 E1 E2 E3. destruct C as (C1 & C2).
  destruct (negb a3); [inversion H; subst; simpl; rewrite C2; auto|].
  bind H. apply K in E; [|auto]. bind H. apply K in E0; [|auto]. bind H. apply K in E1; [|auto].
  assert (D : p_heap p7 = p_heap p /\ p_cur p7 = p_cur p) by (split; destruct E, E0, E1; congruence).
  clear E E0 E1. destruct D as (D1 & D2).
  destruct (nltb a5 _); [inversion H; subst; simpl; rewrite D2; auto|].
  destruct (nltb _ _); [inversion H; subst; simpl; rewrite D2; auto|].
  bind H. apply K in E; [|intros q; unfold m_solve; destruct (sv_solve _ _ _); auto].
  destruct E as (E1 & E2).
  destruct (negb _); [inversion H; subst; simpl; rewrite E2, D2; auto|].
  exfalso. assert (K2 : forall {A} (m : M A), (forall p, p_cur (fst (m p)) = p_cur p) -> forall p p' r, m p = (p', r) -> p_cur p' = p_cur p).
  { intros A m Hm q q' r Eq. specialize (Hm q). rewrite Eq in Hm. auto. }
  bind H. apply K2 in E; [|auto]. bind H. apply K2 in E0; [|intros q; unfold m_apply; destruct (inc_loop _ _ _ _ _ _); auto].
  bind H. apply K2 in E3; [|intros q; unfold m_residual2; destruct (compute_residual_into _ _ _ _); auto]. bind H. apply K2 in E4; [|auto].
  inversion H; subst p'; clear H. cbn [p_cur w_cur ss_status] in Hf. rewrite E4, E3, E0, E, E2, D2 in Hf. destruct Hp as [_ Hs].
  destruct Hs as [Hs|Hs]; rewrite Hs in Hf; destruct Hf as [?|[?|?]]; discriminate.
Qed.
End Fail.
Section Runs.
Context {V : Type} (VC : vclass RN V) {S : Type} (SV : solver RN S).
Notation factor := (factor (N:=RN) (V:=V)).
Notation graph := (graph (N:=RN) (V:=V)).
Notation env := (env (N:=RN) (V:=V)).
Notation op := (op (N:=RN) (V:=V)).
Notation pstate := (pstate (N:=RN) (V:=V) (S:=S)).
Notation M := (M (N:=RN) (V:=V) (S:=S)).
Context (EV : nat -> env).
Hypothesis Hok : vclass_ok VC.
Hypothesis HE : forall n, env_ok (EV n).
Hypothesis HX : exact_solver SV.
Ltac bindn H p1 a E := apply bind_ok in H; destruct H as (p1 & a & E & H).

(** what a successful Gauss-Newton step recorded *)
Lemma gn_recorded (p p' : pstate) : pfin VC p -> gn_step VC SV EV p = (p', Ok tt) -> ~ failure (ss_status (p_cur p')) ->
  exists r1 g' Mx s2 x h2,
    stacked (p_heap p) (get_all_factors (p_graph p)) r1 /\ compute_sparse VC (p_heap p) (p_graph p) = (g', Ok Mx) /\ mrows (sp_dense Mx) = length r1 /\
    sv_solve SV (sv_compute SV (p_solver p) (jtj (sp_dense Mx))) (map (fun y => nmul y (nlit (-1))) (mvmul (mtrans (sp_dense Mx)) r1)) = (s2, x) /\
    sv_ok SV s2 = true /\
    inc_loop VC false (p_heap p) g' (get_all_variables g') (map (fun y => nmul y (st_rate (p_set p))) x) = (h2, Ok tt) /\
    p_heap p' = h2 /\ fin VC (p_heap p) g' /\ ss_delta (p_cur p') = vnorm (map (fun y => nmul y (st_rate (p_set p))) x).
Proof.
  intros Hf H Hs. unfold gn_step in H.
  bindn H p0 u0 E0. destruct u0. pose proof E0 as F0. apply (residual1_ok VC EV HE) in F0; auto. destruct F0 as (A0 & A1 & A2 & A3 & A4 & A5 & A6).
  assert (As : p_solver p0 = p_solver p) by (unfold m_residual1 in E0; destruct (compute_residual_into _ _ _ _); inversion E0; reflexivity).
  bindn H p1 J Eq1. pose proof Eq1 as F1. apply (sparse_ok VC EV Hok HE) in F1; auto. destruct F1 as (B0 & B1 & B2 & B3 & B4 & B5 & B6).
  unfold m_sparse in Eq1. destruct (compute_sparse VC (p_heap p0) (p_graph p0)) as [g' o] eqn:Es. injection Eq1 as Ep1 Eo.
  destruct o as [Mx|e|u]; simpl in Eo; try discriminate. injection Eo as Eo.
  rewrite A1, A2 in Es.
  assert (Bs : p_solver p1 = p_solver p0 /\ p_graph p1 = g') by (subst p1; auto).
  clear Ep1. bindn H p2 r1 E2. injection E2 as Ep2 Er1. rewrite <- Ep2 in *. clear Ep2.
  bindn H p3 b0 E3. unfold lift in E3. injection E3 as Ep3 Eb. rewrite <- Ep3 in *. clear Ep3. unfold jtr in Eb.
  destruct (Nat.eqb_spec (mrows J) (length r1)) as [El|]; [|discriminate]. injection Eb as Eb.
  bindn H p4 ok E4. unfold m_factorize in E4. injection E4 as Ep4 Eok.
  assert (C4 : p_heap p4 = p_heap p1 /\ p_graph p4 = g' /\ p_set p4 = p_set p1 /\ p_solver p4 = sv_compute SV (p_solver p1) (jtj J)) by (subst p4; destruct Bs; auto).
  clear Ep4. destruct C4 as (C1 & C2 & C3 & C4).
  assert (NF : forall q st, failure st -> m_fail st q = (p', Ok tt) -> False).
  { intros q st Hst Q. inversion Q; subst p'. apply Hs. exact Hst. }
  destruct ok; cbn [negb] in H; [|exfalso; eapply NF; [|exact H]; left; auto].
  bindn H p5 s E5. injection E5 as Ep5 _. rewrite <- Ep5 in *. clear Ep5.
  bindn H p6 mn E6. unfold lift in E6. injection E6 as Ep6 _. rewrite <- Ep6 in *. clear Ep6.
  bindn H p7 mx E7. unfold lift in E7. injection E7 as Ep7 _. rewrite <- Ep7 in *. clear Ep7.
  destruct (nltb mn _); [exfalso; eapply NF; [|exact H]; right; left; auto|].
  destruct (nltb _ _); [exfalso; eapply NF; [|exact H]; right; right; auto|].
  bindn H p8 xo E8. unfold m_solve in E8. destruct (sv_solve SV (p_solver p4) _) as [s2 x] eqn:Ev. injection E8 as Ep8 Exo. subst xo. simpl fst in H. simpl snd in H.
  assert (D8 : p_heap p8 = p_heap p1 /\ p_graph p8 = g' /\ p_set p8 = p_set p1) by (subst p8; simpl; auto). clear Ep8. destruct D8 as (D1 & D2 & D3).
  destruct (sv_ok SV s2) eqn:Eok2; cbn [negb] in H; [|exfalso; eapply NF; [|exact H]; left; auto].
  bindn H p9 st E9. injection E9 as Ep9 Est. rewrite <- Ep9 in *. clear Ep9.
  bindn H p10 u10 E10. destruct u10. unfold m_apply in E10. destruct (inc_loop VC false (p_heap p8) (p_graph p8) (get_all_variables (p_graph p8)) _) as [h2 o] eqn:Ei.
  injection E10 as Ep10 Eo10. subst o.
  bindn H p11 u11 E11. destruct u11.
  assert (H11 : p_heap p11 = h2) by (unfold m_residual2 in E11; destruct (compute_residual_into _ _ _ _); inversion E11; subst p10; auto).
  bindn H p12 r2 E12. injection E12 as Ep12 _. rewrite <- Ep12 in *. clear Ep12. unfold m_record, mupd in H. injection H as Hp'.
  exists r1, g', Mx, s2, x, h2. destruct Bs as (Bs & Bg).
  assert (Er : r1 = p_r1 p0) by congruence.
  split; [rewrite Er; exact A6|]. split; auto. split; [rewrite Eo; exact El|]. rewrite Eo.
  split. { rewrite C4, Bs, As in Ev. rewrite <- Eb in Ev. exact Ev. }
  split; auto. split. { rewrite D1, D2, B1, A1, <- Est, D3, B4, A4 in Ei. exact Ei. }
  split; [rewrite <- Hp'; exact H11|]. split; [unfold pfin in B0; rewrite B1, A1, Bg in B0; exact B0|].
  rewrite <- Hp', <- Est, D3, B4, A4. reflexivity.
Qed.

Context (l1 : list (env * op)) (h1 : @heap V) (g1 : graph) (h0 : @heap V) (vs : list addr) (fs : list factor).
Hypothesis Hu : unfinalized VC ([], empty_graph) l1.
Hypothesis Hlive : Forall (fun a => a < length h0) vs.
Hypothesis Hwf : Forall (factor_wf VC h0 vs) fs.
Hypothesis Hact : some_active VC h0 fs.
Hypothesis Hbuf : Forall buf_indep fs.
Hypothesis Hshape : shape_contract VC h0 fs.
Notation onrun := (onrun VC l1 h1 g1 h0 vs fs).
Notation sized_step := (step_of_length VC vs fs).

Lemma sized_made h g (J : mat RN) l (r x : list RN) rate ck h' : onrun h g -> stacked h fs r -> jacobian_at VC h vs fs J -> damped_solution l J r x ->
  inc_loop VC ck h g (get_all_variables g) (map (fun y => nmul y rate) x) = (h', Ok tt) -> sized_step rate l (vnorm (N:=RN) (map (fun y => nmul y rate) x)) h h'.
Proof.
  intros H Hr HJ Hx E. exists r, J, x. eexists. split; auto. split; auto. split; auto. split; [reflexivity|].
  assert (L : length (map (fun y : RN => nmul y rate) x) = num_values g).
  { rewrite map_length. etransitivity; [exact (proj1 Hx)|]. eapply onrun_columns; eauto. }
  pose proof (inc_updated VC Hok ck h g _ h' (onrun_fin VC Hok _ _ _ _ _ _ _ _ H) L E) as U. destruct H as (_ & _ & B & _). rewrite B in U. split; [exact U|]. apply vnorm_length.
Qed.
Lemma gn_sized (p p' : pstate) : onrun (p_heap p) (p_graph p) -> gn_step VC SV EV p = (p', Ok tt) -> ~ failure (ss_status (p_cur p')) ->
  sized_step (st_rate (p_set p)) 0 (ss_delta (p_cur p')) (p_heap p) (p_heap p').
Proof.
  intros H E Hs. destruct HX as (holds & X1 & X2 & X3).
  destruct (gn_recorded p p' (onrun_fin VC Hok _ _ _ _ _ _ _ _ H) E Hs) as (r1 & g' & Mx & s2 & x & h2 & S1 & S2 & S3 & S4 & S5 & S6 & S7 & S8 & S9).
  destruct (onrun_jacobian VC EV Hok HE _ _ _ _ _ _ Hu Hlive Hwf Hact Hbuf Hshape _ _ _ _ H S2) as (HJ & H').
  assert (Hr : stacked (p_heap p) fs r1) by (destruct H as (_ & A & _); rewrite <- A; exact S1).
  destruct (X2 _ _ _ _ _ (X1 _ _ (gram_sym _)) S4) as (_ & X4). specialize (X4 S5).
  rewrite S7, S9. eapply sized_made; [exact H'|exact Hr|exact HJ| |exact S6].
  eapply solves_damped; [| | | |exact X4]; [reflexivity|reflexivity| |].
  - intros i j Hi Hj. etransitivity; [apply jtj_at|]. destruct (i =? j); lra.
  - intros i Hi. etransitivity; [exact (f_equal (fun z : R => nth i (map (fun y : RN => nmul y (nlit (-1))) (mvmul (mtrans (sp_dense Mx)) r1)) z)
        (eq_trans lit_zero (eq_sym (Rmult_0_l (nlit (n:=RN) (-1))))))|].
    etransitivity; [exact (map_nth (fun y : R => (y * nlit (n:=RN) (-1))%R) _ 0%R i)|].
    etransitivity; [exact (f_equal (fun z : R => (nth i (mvmul (mtrans (sp_dense Mx)) r1) z * nlit (n:=RN) (-1))%R) (eq_sym lit_zero))|].
    rewrite (jtr_nth (sp_dense Mx) r1 i Hi). etransitivity; [exact (f_equal2 Rmult eq_refl (lit_int (-1)))|]. lra.
Qed.

(** after [k] iterations from [ha] the variables are at [hb] and the last iteration moved them by the recorded length; [d0] was recorded before *)
Definition gn_last (rate d0 : R) (k : nat) (ha hb : @heap V) (d : R) : Prop :=
  match k with 0 => hb = ha /\ d = d0 | Datatypes.S j => exists h, moves (newton_step VC vs fs rate 0) j ha h /\ sized_step rate 0 d h hb end.
Lemma gn_last_run n : forall (p p' : pstate), onrun (p_heap p) (p_graph p) -> st_method (p_set p) = GaussNewton -> healthy (p_cur p) ->
  opt_loop VC SV EV n p = (p', Ok tt) -> p_caught p' = false ->
  exists k, ss_iter (p_cur p') = ss_iter (p_cur p) + k /\ gn_last (st_rate (p_set p)) (ss_delta (p_cur p)) k (p_heap p) (p_heap p') (ss_delta (p_cur p')).
Proof.
  induction n; intros p p' H Hm Hh E Hc; cbn [opt_loop] in E.
  - inversion E; subst. exists 0. split; [lia|]. split; reflexivity.
  - destruct (one_step VC SV EV p) as [p1 [[]|e|u]] eqn:E1; [| |discriminate].
    2: { unfold m_fail, mupd in E. injection E as <-. discriminate. }
    pose proof (frames_one VC SV EV HE _ _ _ E1) as (_ & F1 & _ & _ & _ & _ & _ & F2).
    pose proof (hf_one VC SV EV _ _ _ E1 Hh) as H1. unfold one_step in E1. rewrite Hm in E1.
    destruct H1 as [H1|H1].
    + assert (NF : ~ failure (ss_status (p_cur p1))) by (apply not_fail; auto).
      destruct (gn_moves VC SV EV Hok HE HX _ _ _ _ _ _ Hu Hlive Hwf Hact Hbuf Hshape _ _ H E1 NF) as (St & On). pose proof (gn_sized _ _ H E1 NF) as Sz. pose proof (gn_iter VC SV EV _ _ E1 H1) as Hi.
      assert (Stop : p_heap p' = p_heap p1 -> ss_iter (p_cur p') = ss_iter (p_cur p1) -> ss_delta (p_cur p') = ss_delta (p_cur p1) ->
        exists k, ss_iter (p_cur p') = ss_iter (p_cur p) + k /\ gn_last (st_rate (p_set p)) (ss_delta (p_cur p)) k (p_heap p) (p_heap p') (ss_delta (p_cur p'))).
      { intros A B D. exists 1. rewrite A, B, D, Hi. split; [lia|]. exists (p_heap p). split; [constructor|exact Sz]. }
      assert (Go : opt_loop VC SV EV n p1 = (p', Ok tt) ->
        exists k, ss_iter (p_cur p') = ss_iter (p_cur p) + k /\ gn_last (st_rate (p_set p)) (ss_delta (p_cur p)) k (p_heap p) (p_heap p') (ss_delta (p_cur p'))).
      { intros E2. destruct (IHn p1 p') as (k & A & B); auto; [congruence|]. exists (Datatypes.S k). split; [rewrite A, Hi; lia|]. rewrite F1 in B.
        destruct k as [|k]; cbn [gn_last] in B |- *.
        - destruct B as (-> & ->). exists (p_heap p). split; [constructor|exact Sz].
        - destruct B as (h & B1 & B2). exists h. split; [|exact B2]. exact (moves_app _ 1 k _ _ _ (moves_one _ _ _ St) B1). }
      destruct (ss_status (p_cur p1)); try (inversion E; subst; apply Stop; reflexivity);
      repeat match type of E with (if ?b then _ else _) = _ => destruct b end; try (apply Go; exact E); inversion E; subst; apply Stop; reflexivity.
    + destruct H1 as (_ & H1). destruct (gn_failed VC SV EV _ _ E1 Hh H1) as (A & B & _). pose proof (gn_failed_delta VC SV EV _ _ E1 Hh H1) as D.
      assert (p' = p1) by (destruct H1 as [X|[X|X]]; rewrite X in E; inversion E; auto). subst p'.
      exists 0. split; [lia|]. split; [exact A|exact D].
Qed.

(** ** Levenberg-Marquardt *)
Section Rollback.
Context (I : V -> Prop).
Hypothesis HI : undoable VC I.
Hypothesis HFz : factorising_solver SV.
Context (rate up down top : R).
Notation same_settings := (same_settings rate up down top).
Notation lm_ready := (lm_ready VC l1 h1 g1 h0 vs fs I rate up down top).
Notation attempt := (attempt VC vs fs rate up top).
Notation lam p := (ss_lambda (p_cur p)).

(** the result of at most [n] attempts from [p] *)
Definition tried (n : nat) (p p' : pstate) (acc : bool) (dx' : list RN) : Prop :=
  exists k l, moves (attempt (p_heap p)) k (lam p) l /\
    if acc then k < n /\ sized_step rate l (vnorm (N:=RN) dx') (p_heap p) (p_heap p') /\ (exists r r', stacked (p_heap p) fs r /\ stacked (p_heap p') fs r' /\ (cost_of r' < cost_of r)%R) /\ lam p' = Rmax (l * down) (1 / 1000000000000)
    else p_heap p' = p_heap p /\ (k = n /\ lam p' = l \/ k < n /\ no_better VC vs fs rate (p_heap p) l /\ (top <= l * up)%R /\ lam p' = top).
Lemma lm_loop_tried n : forall J cost dx p p' acc dx', lm_ready J cost p -> lm_loop VC SV EV n J cost dx p = (p', Ok (acc, dx')) -> tried n p p' acc dx'.
Proof.
  induction n; intros J cost dx p p' acc dx' HR E.
  - inversion E; subst. exists 0, (lam p'). split; [constructor|]. split; auto.
  - cbn [lm_loop] in E. unfold mbind at 1, get at 1 in E. unfold mbind at 1, get at 1 in E. unfold mbind at 1, lift at 1 in E.
    destruct (jtr _ _) as [b0|e|u] eqn:Eb; [|discriminate..].
    unfold mbind at 1, m_factorize at 1 in E.
    assert (Retry : forall p1 dx1, lm_loop VC SV EV n J cost dx1 p1 = (p', Ok (acc, dx')) -> p_heap p1 = p_heap p -> p_graph p1 = p_graph p ->
       p_set p1 = p_set p -> p_r1 p1 = p_r1 p -> attempt (p_heap p) (lam p) (lam p1) -> tried (Datatypes.S n) p p' acc dx').
    { intros p1 dx1 E1 A1 A2 A3 A4 A6. destruct (IHn _ _ _ _ _ _ _ (ready_lam VC _ _ _ _ _ _ _ _ _ _ _ _ _ _ _ HR A1 A2 A3 A4) E1) as (k & l & B1 & B2).
      rewrite A1 in B1, B2. exists (1 + k), l. split; [exact (moves_app _ 1 k _ _ _ (moves_one _ _ _ A6) B1)|]. destruct acc.
      - destruct B2 as (B2 & B3). split; [lia|exact B3].
      - destruct B2 as (B2 & B3). split; [exact B2|]. destruct B3 as [(-> & B3)|(B3 & B4)]; [left; split; [lia|exact B3]|right; split; [lia|exact B4]]. }
    assert (Up : forall p1 dx1, mbind m_up (fun _ => lm_loop VC SV EV n J cost dx1) p1 = (p', Ok (acc, dx')) -> p_heap p1 = p_heap p -> p_graph p1 = p_graph p ->
       p_set p1 = p_set p -> p_r1 p1 = p_r1 p -> p_cur p1 = p_cur p -> (lam p < 0)%R \/ ill_posed (lam p) J -> tried (Datatypes.S n) p p' acc dx').
    { intros p1 dx1 E1 A1 A2 A3 A4 A6 A7. unfold mbind, m_up, m_lambda, mupd in E1. cbn beta iota in E1.
      eapply Retry; [exact E1|..]; auto. simpl. rewrite A6, A3. destruct (lr_set _ _ _ _ _ _ _ _ _ _ _ _ _ _ _ HR) as (_ & -> & _). eapply at_unsolved; [exact (lr_jac _ _ _ _ _ _ _ _ _ _ _ _ _ _ _ HR)|exact A7]. }
    set (lm := ss_lambda (p_cur p)) in *.
    assert (Posed : forall P : Prop, ((0 <= lm)%R -> P) -> (lm < 0)%R \/ P).
    { intros P HP. destruct (Rlt_le_dec lm 0); auto. }
    match type of E with context [negb ?b] => destruct b eqn:Ok1 end; cbn [negb] in E;
      [|eapply Up; [exact E|..]; try reflexivity; apply Posed; intros Hl; exact (refused_posed SV HFz _ _ _ _ (fits_damped lm J Hl) Ok1)].
    unfold mbind at 1, get at 1 in E. unfold mbind at 1, lift at 1 in E.
    match type of E with context [vmin ?d] => destruct (vmin d) as [mn|e|u] eqn:Emn end; [|discriminate..].
    unfold mbind at 1, lift at 1 in E.
    match type of E with context [vmax ?d] => destruct (vmax d) as [mx|e|u] eqn:Emx end; [|discriminate..].
    match type of E with context [if ?b then _ else _] => destruct b eqn:Et end;
      [eapply Up; [exact E|..]; try reflexivity; apply Posed; intros Hl; exact (tested_posed SV HFz _ _ _ _ _ _ (fits_damped lm J Hl) Ok1 Emn Emx Et)|].
    unfold mbind at 1, m_solve at 1 in E. destruct (sv_solve SV _ _) as [s x] eqn:Es.
    destruct (sv_ok SV s) eqn:Eo; cbn [negb snd] in E;
      [|eapply Up; [exact E|..]; try reflexivity; apply Posed; intros Hl; exfalso;
        pose proof (solving_keeps SV HFz _ _ _ _ _ _ _ (fits_damped lm J Hl) Es) as K; rewrite Eo in K; rewrite Ok1 in K; discriminate].
    pose proof (lm_system SV HX _ _ _ _ _ _ _ Eb Es Eo) as Hx. clear Up Posed Et Emn Emx Ok1.
    unfold mbind at 1, get at 1 in E. cbv zeta in E. cbn [fst] in E.
    set (dx1 := map _ x) in *.
    unfold mbind at 1 in E.
    match type of E with context [values_of VC ?h ?vs] => change h with (p_heap p) in E; change vs with (get_all_variables (p_graph p)) in E end.
    destruct (values_of VC (p_heap p) (get_all_variables (p_graph p))) as [xs|e|u] eqn:Ev; [|discriminate..].
    unfold mbind at 1, m_apply at 1 in E. cbn [p_heap p_graph w_solver w_nfact] in E.
    destruct (inc_loop VC false (p_heap p) (p_graph p) (get_all_variables (p_graph p)) dx1) as [h2 o1] eqn:Ei.
    destruct o1 as [[]|e|u]; [|discriminate..].
    pose proof (lr_on _ _ _ _ _ _ _ _ _ _ _ _ _ _ _ HR) as On. pose proof (lr_held _ _ _ _ _ _ _ _ _ _ _ _ _ _ _ HR) as Hd. pose proof (lr_res _ _ _ _ _ _ _ _ _ _ _ _ _ _ _ HR) as Hr1. pose proof (lr_jac _ _ _ _ _ _ _ _ _ _ _ _ _ _ _ HR) as HJ.
    pose proof (lr_set _ _ _ _ _ _ _ _ _ _ _ _ _ _ _ HR) as (Q1 & Q2 & Q3 & Q4). pose proof (lr_cost _ _ _ _ _ _ _ _ _ _ _ _ _ _ _ HR) as Hcost.
    pose proof (onrun_fin VC Hok _ _ _ _ _ _ _ _ On) as Hf. pose proof (vars_nodup VC _ _ Hf) as ND.
    destruct (inc_moved VC I HI _ _ _ _ _ _ _ ND Hd Ei) as (Hm & Hh2).
    assert (On2 : onrun h2 (p_graph p)).
    { eapply (onrun_traced VC Hok); [exact On| |eapply (inc_revalued VC); exact Ei]. eapply (traced_inc VC EV HE). exact Ei. }
    assert (St : sized_step rate lm (vnorm (N:=RN) dx1) (p_heap p) h2).
    { assert (Ed : dx1 = map (fun y => nmul y rate) x) by (unfold dx1; rewrite <- Q1; reflexivity). rewrite Ed. rewrite Ed in Ei. eapply sized_made; [exact On|exact Hr1|exact HJ|exact Hx|exact Ei]. }
    unfold mbind at 1, m_residual2 at 1 in E. cbn [p_heap p_graph w_heap w_solver w_nfact p_r2 p_tick] in E.
    destruct (compute_residual_into _ _ _ _) as [buf o2] eqn:Er.
    destruct o2 as [[]|e|u]; [|discriminate..].
    assert (Hr2 : stacked h2 fs buf).
    { pose proof On2 as (_ & A & _). rewrite <- A. eapply residual_into_inv; [apply HE|exact (onrun_fin VC Hok _ _ _ _ _ _ _ _ On2)|exact Er]. }
    unfold mbind at 1, get at 1 in E. cbn [p_r2 w_tick w_r2] in E.
    rewrite Hcost in E.
    destruct (nltb _ _) eqn:Ec.
    + unfold mbind, get, m_lambda, mupd, ret in E. cbn beta iota in E. injection E as <- <- <-.
      exists 0, lm. split; [constructor|]. split; [lia|]. cbn [p_heap p_cur w_cur ss_lambda w_tick w_r2 w_heap w_solver w_nfact p_set]. split; [exact St|]. split.
      * exists (p_r1 p), buf. split; [exact Hr1|]. split; [exact Hr2|]. apply half_lt in Ec. rewrite !sqnorm_rsum in Ec. exact Ec.
      * rewrite r_nmax, Q3. reflexivity.
    + unfold mbind at 1, m_restore at 1 in E. cbn [p_heap p_graph w_tick w_r2 w_heap w_solver w_nfact] in E.
      pose proof (moved_restore VC _ _ _ _ ND Hm Ev) as Rs. rewrite Rs in E.
      unfold mbind at 1, get at 1 in E. unfold mbind at 1, m_lambda at 1, mupd at 1 in E.
      assert (Nb : no_better VC vs fs rate (p_heap p) lm).
      { eexists _, h2, (p_r1 p), buf. split; [exact St|]. split; [exact Hr1|]. split; [exact Hr2|].
        destruct (Rle_dec (sqnorm (N:=RN) (p_r1 p)) (sqnorm (N:=RN) buf)) as [Hle|Hn]; [rewrite !sqnorm_rsum in Hle; exact Hle|].
        exfalso. rewrite (proj2 (half_lt (sqnorm (N:=RN) buf) (sqnorm (N:=RN) (p_r1 p)))) in Ec; [discriminate|]. apply Rnot_le_lt. exact Hn. }
      assert (Nm : nmin (N:=RN) (nmul lm (st_up (p_set p))) (st_max_lambda (p_set p)) = Rmin (lm * up) top) by (rewrite r_nmin, Q2, Q4; reflexivity).
      destruct (nleb _ _) eqn:El.
      * assert (T : (top <= Rmin (lm * up) top)%R) by (rewrite <- Nm, <- Q4; apply Rleb_true; exact El). pose proof (Rmin_l (lm * up) top). pose proof (Rmin_r (lm * up) top).
        injection E as <- <- <-. exists 0, lm. split; [constructor|]. split; [reflexivity|]. right. split; [lia|]. split; [exact Nb|]. split; [lra|].
        cbn [p_cur w_cur ss_lambda]. etransitivity; [exact Nm|]. lra.
      * assert (T : ~ (top <= Rmin (lm * up) top)%R) by (rewrite <- Nm, <- Q4; intros K; apply Rleb_true in K; unfold lm in K; exact (Bool.eq_true_false_abs _ K El)).
        assert (T2 : (lm * up < top)%R) by (apply Rnot_le_lt; intros K; apply T; rewrite Rmin_right; lra).
        rewrite <- Hcost in E. eapply Retry; [exact E|..]; try reflexivity. cbn [p_cur w_cur ss_lambda].
        match goal with |- attempt _ _ ?x => replace x with (lm * up)%R; [|symmetry; etransitivity; [exact Nm|apply Rmin_left; lra]] end. exact (at_worse _ _ _ _ _ _ _ _ Nb T2).
Qed.

Notation iteration := (iteration VC vs fs rate up down top).
Lemma lm_step_tried (p p' : pstate) : onrun (p_heap p) (p_graph p) -> heldI I (p_heap p) -> same_settings p -> lm_step VC SV EV p = (p', Ok tt) ->
  iteration (ss_delta (p_cur p')) (p_heap p, lm_entry p) (at_point p').
Proof.
  intros H Hh Hset E. pose proof (onrun_fin VC Hok _ _ _ _ _ _ _ _ H) as Hf. unfold lm_step in E.
  bindn E q1 a1 Q1. destruct a1. pose proof Q1 as F1. apply (residual1_ok VC EV HE) in F1; auto. destruct F1 as (A0 & A1 & A2 & A3 & A4 & A5 & A6).
  bindn E q2 J Q2. pose proof Q2 as F2. apply (sparse_ok VC EV Hok HE) in F2; auto. destruct F2 as (B0 & B1 & B2 & B3 & B4 & B5 & B6).
  unfold m_sparse in Q2. destruct (compute_sparse VC (p_heap q1) (p_graph q1)) as [g' o] eqn:Es. injection Q2 as Ep1 Eo.
  destruct o as [Mx|e|u]; simpl in Eo; try discriminate. injection Eo as Eo. rewrite A1, A2 in Es.
  destruct (onrun_jacobian VC EV Hok HE _ _ _ _ _ _ Hu Hlive Hwf Hact Hbuf Hshape _ _ _ _ H Es) as (HJ & H').
  assert (G2 : p_graph q2 = g') by (subst q2; auto). clear Ep1.
  bindn E q3 r1 Q3. injection Q3 as <- <-. bindn E q4 st Q4. injection Q4 as <- <-. bindn E q5 it Q5. injection Q5 as <- <-.
  bindn E q6 u6 Q6.
  assert (C : p_heap q6 = p_heap p /\ p_graph q6 = g' /\ p_set q6 = p_set p /\ p_r1 q6 = p_r1 q1 /\ ss_lambda (p_cur q6) = lm_entry p).
  { unfold lm_entry. rewrite B3, A3 in Q6.
    destruct (ss_iter (p_cur p) =? 0); inversion Q6; subst; simpl; rewrite ?B3, ?A3, ?B4, ?A4; repeat split; congruence. }
  destruct C as (C1 & C2 & C3 & C4 & C6). clear Q6.
  bindn E q7 res Q7. destruct res as [acc dx'].
  assert (HR : lm_ready J (nmul (n:=RN) (nlit (1#2)) (sqnorm (p_r1 q2))) q6).
  { constructor; rewrite ?C1, ?C2; auto.
    - unfold OptSteps.same_settings. rewrite C3. exact Hset.
    - rewrite <- Eo. exact HJ.
    - rewrite C4. destruct H as (_ & A & _). rewrite <- A. exact A6.
    - rewrite C4, B6. reflexivity. }
  destruct (lm_loop_tried _ _ _ _ _ _ _ _ HR Q7) as (k & l & D1 & D2). rewrite C1, C6 in *.
  assert (X : at_point p' = at_point q7 /\ ss_delta (p_cur p') = if acc then vnorm dx' else 0%R).
  { clear -E. unfold at_point. cbn [fst snd] in E. destruct acc.
    - bindn E q8 x8 Q8. injection Q8 as <- <-. injection E as <-. auto.
    - bindn E q8 x8 Q8. injection Q8 as <- <-. bindn E q9 x9 Q9. injection Q9 as <- <-. bindn E q10 x10 Q10. bindn E q11 x11 Q11. injection Q11 as <- <-.
      injection E as <-. destruct (nltb _ _); injection Q10 as <- <-; (split; [reflexivity|exact (vnorm_zeros dx')]). }
  destruct X as (-> & ->). unfold at_point. destruct acc.
  - destruct D2 as (D2 & D3 & (ra & rb & D4 & D5 & D6) & ->). eapply it_kept; eauto.
  - destruct D2 as (-> & [(-> & ->)|(D3 & D4 & D5 & ->)]); [eapply it_none; eauto|eapply it_stuck; eauto].
Qed.

Definition any_iteration (a b : @heap V * R) : Prop := exists n, iteration n a b.
Lemma lm_last_run n : forall (p p' : pstate), onrun (p_heap p) (p_graph p) -> heldI I (p_heap p) -> same_settings p -> st_method (p_set p) = LevenbergMarquardt ->
  opt_loop VC SV EV (Datatypes.S n) p = (p', Ok tt) -> p_caught p' = false ->
  exists k a, ss_iter (p_cur p') = ss_iter (p_cur p) + Datatypes.S k /\ moves any_iteration k (p_heap p, lm_entry p) a /\ iteration (ss_delta (p_cur p')) a (at_point p').
Proof.
  induction n as [|n IH]; intros p p' H Hh Hset Hm E Hc.
  all: cbn [opt_loop] in E; destruct (one_step VC SV EV p) as [p1 [[]|e|u]] eqn:E1; [|inversion E; subst; discriminate|discriminate].
  all: pose proof (frames_one VC SV EV HE _ _ _ E1) as (_ & F1 & _); unfold one_step in E1; rewrite Hm in E1.
  all: destruct (lm_step_moves VC SV EV Hok HE HX _ _ _ _ _ _ Hu Hlive Hwf Hact Hbuf Hshape I HI HFz _ _ _ _ p p1 H Hh Hset E1) as (_ & _ & _ & A3 & A4 & A5).
  all: pose proof (lm_step_tried p p1 H Hh Hset E1) as T.
  all: assert (Stop : ss_iter (p_cur p') = ss_iter (p_cur p1) -> ss_delta (p_cur p') = ss_delta (p_cur p1) -> at_point p' = at_point p1 ->
         exists k a, ss_iter (p_cur p') = ss_iter (p_cur p) + Datatypes.S k /\ moves any_iteration k (p_heap p, lm_entry p) a /\ iteration (ss_delta (p_cur p')) a (at_point p'))
       by (intros -> -> ->; exists 0, (p_heap p, lm_entry p); split; [lia|split; [constructor|exact T]]).
  - destruct (ss_status (p_cur p1)); repeat match type of E with (if ?b then _ else _) = _ => destruct b end; inversion E; subst; apply Stop; reflexivity.
  - assert (Go : opt_loop VC SV EV (Datatypes.S n) p1 = (p', Ok tt) ->
         exists k a, ss_iter (p_cur p') = ss_iter (p_cur p) + Datatypes.S k /\ moves any_iteration k (p_heap p, lm_entry p) a /\ iteration (ss_delta (p_cur p')) a (at_point p')).
    { intros E2. assert (Hs1 : same_settings p1) by (unfold OptSteps.same_settings; rewrite F1; exact Hset).
      destruct (IH p1 p' A3 A4 Hs1) as (k2 & a & B1 & B2 & B3); auto; [congruence|].
      exists (Datatypes.S k2), a. split; [rewrite B1, A5; lia|]. split; [|exact B3]. unfold lm_entry at 1 in B2. rewrite A5 in B2. cbn [Nat.eqb] in B2.
      refine (moves_app _ 1 k2 _ (at_point p1) _ (moves_one _ _ _ _) B2). eexists. exact T. }
    change (match ss_status (p_cur p1) with
      | SINGULAR_HESSIAN | ILL_CONDITIONED | FAILED => (p1, Ok tt)
      | _ => if nltb (ss_delta (p_cur p1)) (st_step_tol (p_set p1)) then m_status SUCCESS p1 else
        if nltb (nsub (ss_resnorm (p_cur p)) (ss_resnorm (p_cur p1))) nzero then
          m_status (if nleb (ss_resnorm (p_init p1)) (ss_resnorm (p_cur p1)) then DIVERGED else SUCCESS) p1
        else if nltb (nsub (ss_resnorm (p_cur p)) (ss_resnorm (p_cur p1))) (st_res_tol (p_set p1)) then m_status SUCCESS p1
        else if nltb (nmul (nlit 10) (ss_resnorm (p_init p1))) (ss_resnorm (p_cur p1)) then m_fail DIVERGED p1
        else opt_loop VC SV EV (Datatypes.S n) p1
      end = (p', Ok tt)) in E.
    destruct (ss_status (p_cur p1)); repeat match type of E with (if ?b then _ else _) = _ => destruct b end; try (apply Go; exact E); inversion E; subst; apply Stop; reflexivity.
Qed.
End Rollback.
End Runs.

Section Whole.
Context {V : Type} (VC : vclass RN V) {S : Type} (SV : solver RN S).
Notation graph := (graph (N:=RN) (V:=V)).
Notation pstate := (pstate (N:=RN) (V:=V) (S:=S)).
Context (EV : nat -> env (N:=RN) (V:=V)).
Hypothesis Hok : vclass_ok VC.
Hypothesis HE : forall n, env_ok (EV n).
Theorem gn_length l1 l2 h1 g1 (p p' : pstate) :
  exact_solver SV -> finalized_history VC l1 l2 h1 (p_heap p) g1 (p_graph p) -> unfinalized VC ([], empty_graph) l1 ->
  let vs := get_all_variables (p_graph p) in let fs := get_all_factors (p_graph p) in let rate := st_rate (p_set p) in
  Forall (factor_wf VC (p_heap p) vs) fs -> some_active VC (p_heap p) fs -> Forall buf_indep fs -> shape_contract VC (p_heap p) fs ->
  st_method (p_set p) = GaussNewton -> optimize VC SV EV p = (p', Ok tt) -> p_caught p' = false ->
  match ss_iter (p_cur p') with
  | 0 => p_heap p' = p_heap p /\ ss_delta (p_cur p') = (-1)%R
  | Datatypes.S k => exists h, moves (newton_step VC vs fs rate 0) k (p_heap p) h /\ step_of_length VC vs fs rate 0 (ss_delta (p_cur p')) h (p_heap p')
  end.
Proof.
  intros HX HF Hu vs fs rate Hwf Hact Hbuf Hsh Hm E Hc. apply optimize_ok in E. destruct E as (Hg & g & r0 & p2 & Cr & L & ->).
  destruct (begun_on VC EV Hok HE _ _ _ _ p g r0 HF Cr) as (On & Hl).
  assert (X : p_heap (end_run p2) = p_heap p2 /\ p_caught (end_run p2) = p_caught p2 /\ ss_iter (p_cur (end_run p2)) = ss_iter (p_cur p2) /\ ss_delta (p_cur (end_run p2)) = ss_delta (p_cur p2)).
  { unfold end_run. destruct (ss_status (p_cur p2)); auto. }
  destruct X as (X1 & X2 & X3 & X4). rewrite X1, X3, X4. rewrite X2 in Hc.
  destruct (gn_last_run VC SV EV Hok HE HX l1 h1 g1 (p_heap p) vs fs Hu Hl Hwf Hact Hbuf Hsh (st_max_iter (p_set p)) (begin_run g r0 p) p2 On Hm) as (k & A & B);
    [split; simpl; auto|exact L|exact Hc|].
  cbn [begin_run p_cur w_init w_cur ss_iter ss_delta plus] in A, B. rewrite A. destruct k as [|k]; cbn [gn_last] in B; [|exact B].
  destruct B as (B1 & B2). split; [exact B1|]. rewrite B2. exact (lit_int (-1)).
Qed.
Theorem lm_length (I : V -> Prop) l1 l2 h1 g1 (p p' : pstate) :
  undoable VC I -> (forall a v, nth_error (p_heap p) a = Some v -> I v) ->
  factorising_solver SV -> finalized_history VC l1 l2 h1 (p_heap p) g1 (p_graph p) -> unfinalized VC ([], empty_graph) l1 ->
  let vs := get_all_variables (p_graph p) in let fs := get_all_factors (p_graph p) in let st := p_set p in
  Forall (factor_wf VC (p_heap p) vs) fs -> some_active VC (p_heap p) fs -> Forall buf_indep fs -> shape_contract VC (p_heap p) fs ->
  st_method st = LevenbergMarquardt -> 1 <= st_max_iter st -> optimize VC SV EV p = (p', Ok tt) -> p_caught p' = false ->
  let iter := iteration VC vs fs (st_rate st) (st_up st) (st_down st) (st_max_lambda st) in
  exists k a, ss_iter (p_cur p') = Datatypes.S k /\ moves (fun a b => exists n, iter n a b) k (p_heap p, st_lambda0 st) a /\
    iter (ss_delta (p_cur p')) a (p_heap p', ss_lambda (p_cur p')).
Proof.
  intros HI Hh HFz HF Hu vs fs st Hwf Hact Hbuf Hsh Hm Hn E Hc iter. apply optimize_ok in E. destruct E as (Hg & g & r0 & p2 & Cr & L & ->).
  destruct (begun_on VC EV Hok HE _ _ _ _ p g r0 HF Cr) as (On & Hl).
  destruct (st_max_iter (p_set p)) as [|n] eqn:En; [unfold st in Hn; lia|].
  assert (X : p_heap (end_run p2) = p_heap p2 /\ p_caught (end_run p2) = p_caught p2 /\ ss_lambda (p_cur (end_run p2)) = ss_lambda (p_cur p2) /\ ss_iter (p_cur (end_run p2)) = ss_iter (p_cur p2) /\ ss_delta (p_cur (end_run p2)) = ss_delta (p_cur p2)).
  { unfold end_run. destruct (ss_status (p_cur p2)); repeat split; reflexivity. }
  destruct X as (X1 & X2 & X3 & X4 & X5). rewrite X1, X3, X4, X5. rewrite X2 in Hc.
  assert (SS : same_settings (st_rate st) (st_up st) (st_down st) (st_max_lambda st) (begin_run g r0 p)) by (repeat split; auto).
  destruct (lm_last_run VC SV EV Hok HE (factorising_exact SV HFz) l1 h1 g1 (p_heap p) vs fs Hu Hl Hwf Hact Hbuf Hsh I HI HFz _ _ _ _ n (begin_run g r0 p) p2 On Hh SS Hm L Hc) as (k & a & A & B & C).
  exists k, a. split; [exact A|]. split; [exact B|exact C].
Qed.
End Whole.
