(** Covariances after optimize(): for which values they hold, problems with constant Jacobians, floating graphs (C77-C79). *)
From Coq Require Import List Arith ZArith Bool Reals Lra Lia.
From Verif Require Import Base ListLemmas Sparse Graph SpecGraph SpecOpt GraphLayout GraphBasic GraphVec GraphFin GraphDense Geom Vars VarsLemmas FactorsLin FactorsGeo FactorLib SpecShape FactorShape FactorSafe
  Optimizer OptLemmas OptWork OptLM OptRun OptMore OptEnds OptLast Real RSum SpecSolver SpecSteps SpecBlocks OptOrder OptSteps OptStepsLib OptCov OptCovFull Gram SpecCov OptLastReal SpecFree
  GaugeSum SpecGauge GaugeFactors GaugeRun SpecSimilar SimilarRun.
Import ListNotations.
Local Open Scope nat_scope.
Set Bullet Behavior "Strict Subproofs".

Section Any.
Context {V : Type} (VC : vclass RN V) {S : Type} (SV : solver RN S) (EV : nat -> env (N:=RN) (V:=V)).
Notation pstate := (pstate (N:=RN) (V:=V) (S:=S)).
Hypothesis Hok : vclass_ok VC.
Hypothesis HE : forall n, env_ok (EV n).
Hypothesis HF : factorising_solver SV.

Lemma revalued_width h h' a : revalued VC h h' -> a < length h -> width VC h' a = width VC h a.
Proof.
  intros Rv La. pose proof (revalued_hpres VC Hok _ _ Rv) as P. unfold width. destruct (nth_error h a) as [v|] eqn:E; [|apply nth_error_None in E; lia].
  destruct (P a v E) as (v' & -> & _ & Sz & C). rewrite (C eq_refl), Sz. reflexivity.
Qed.
Lemma revalued_cols h h' vs : revalued VC h h' -> Forall (fun a => a < length h) vs -> total_cols VC h' vs = total_cols VC h vs.
Proof.
  intros Rv L. unfold total_cols. f_equal. apply map_ext_in. intros a Ha. rewrite Forall_forall in L. apply revalued_width; auto.
Qed.

Theorem last_covariances (I : V -> Prop) l1 l2 h1 g1 (p p' : pstate) :
  finalized_history VC l1 l2 h1 (p_heap p) g1 (p_graph p) -> unfinalized VC ([], empty_graph) l1 ->
  let vs := get_all_variables (p_graph p) in let fs := get_all_factors (p_graph p) in
  Forall (factor_wf VC (p_heap p) vs) fs -> some_active VC (p_heap p) fs -> Forall buf_indep fs -> shape_contract VC (p_heap p) fs ->
  st_method (p_set p) = GaussNewton \/ undoable VC I /\ (forall a v, nth_error (p_heap p) a = Some v -> I v) ->
  1 <= st_max_iter (p_set p) -> p_hvalid p = false -> optimize VC SV EV p = (p', Ok tt) -> p_caught p' = false ->
  exists j q J p1, j < st_max_iter (p_set p) /\
    optimize VC SV EV (limit j p) = (q, Ok tt) /\ p_caught q = false /\ ss_status (p_cur q) = SUCCESS /\ ss_iter (p_cur q) = j /\
    (ss_iter (p_cur p') = Datatypes.S j \/ ss_iter (p_cur p') = j /\ failure (ss_status (p_cur p')) /\ p_heap p' = p_heap q) /\
    jacobian_at VC (p_heap q) vs fs J /\ prepare SV p' = (p1, Ok tt) /\
    reports VC (p_heap p') vs J (fun a => snd (estimate_covariance VC SV (Some a) p1)) /\ revalued VC (p_heap p) (p_heap q) /\ revalued VC (p_heap p) (p_heap p').
Proof.
  intros Hi Hu vs fs Hwf Hact Hbuf Hsh Hm Hn Hv E Hc.
  destruct (held_jacobian VC SV EV Hok HE HF I l1 l2 h1 g1 p p' Hi Hu Hwf Hact Hbuf Hsh Hm Hn E Hc) as (j & q & J & J1 & J2 & J3 & Js & J4 & J5 & J6 & J7 & J8 & J9 & J10 & J11).
  assert (Hl : Forall (fun a => a < length (p_heap p)) vs).
  { destruct (finalized_facts VC Hok _ _ _ _ _ _ Hi) as (_ & Hf & _). exact (ri_live _ _ _ (fin_reg _ _ _ Hf)). }
  destruct (cols_pos VC (p_heap q) vs fs J) as (C1 & C2); [eapply (active_revalued VC Hok); eauto| |exact J8|].
  { eapply Forall_impl; [|exact Hwf]. intros f. apply wf_pres; [apply (revalued_hpres VC Hok); exact J6|exact Hl]. }
  assert (Fl : p_hvalid p' = false /\ p_complete p' = true).
  { split; [rewrite <- Hv; apply (optimize_flags VC SV EV HE _ _ _ E)|]. apply optimize_ok in E. destruct E as (_ & g & r & p2 & _ & _ & ->). apply end_parts. }
  destruct (estimates VC SV HF p' J vs J10 J11 (proj1 Fl) (proj2 Fl) J9) as (p1 & P1 & P2); [|exact C2|].
  { rewrite C1, (revalued_cols (p_heap p) (p_heap q)), (revalued_cols (p_heap p) (p_heap p')) by assumption. reflexivity. }
  exists j, q, J, p1. repeat (split; [assumption|]). assumption.
Qed.

Lemma jacobian_moved h h' vs fs J : revalued VC h h' -> Forall (fun a => a < length h) vs -> (forall f, In f fs -> f_jac f h' [] = f_jac f h []) ->
  jacobian_at VC h vs fs J -> jacobian_at VC h' vs fs J.
Proof.
  intros Rv L Cj (jss & F & A). exists jss. split.
  - clear A. induction F as [|f js fs jss E F IH]; constructor; [rewrite Cj by (left; reflexivity); exact E|]. apply IH. intros g Hg. apply Cj. right. exact Hg.
  - assert (W : forall a, In a vs -> width VC h' a = width VC h a) by (intros a Ha; rewrite Forall_forall in L; apply revalued_width; auto).
    assert (Mw : map (width VC h') vs = map (width VC h) vs) by (apply map_ext_in; exact W).
    assert (Cs : forall k, col_start VC h' vs k = col_start VC h vs k) by (intros k; unfold col_start; rewrite Mw; reflexivity).
    destruct A as (A1 & A2 & A3). split; [exact A1|]. split; [rewrite A2; unfold total_cols; rewrite Mw; reflexivity|].
    intros k f js m a r c H1 H2 H3 H4 H5. rewrite Cs. apply A3; auto. rewrite <- (W a (nth_error_In _ _ H3)). exact H5.
Qed.

(** Jacobians that do not change: the covariances are those of the final values *)
Theorem fixed_covariances (I : V -> Prop) l1 l2 h1 g1 (p p' : pstate) :
  finalized_history VC l1 l2 h1 (p_heap p) g1 (p_graph p) -> unfinalized VC ([], empty_graph) l1 ->
  let vs := get_all_variables (p_graph p) in let fs := get_all_factors (p_graph p) in
  Forall (factor_wf VC (p_heap p) vs) fs -> some_active VC (p_heap p) fs -> Forall buf_indep fs -> shape_contract VC (p_heap p) fs ->
  (forall f h, In f fs -> revalued VC (p_heap p) h -> f_jac f h [] = f_jac f (p_heap p) []) ->
  st_method (p_set p) = GaussNewton \/ undoable VC I /\ (forall a v, nth_error (p_heap p) a = Some v -> I v) ->
  1 <= st_max_iter (p_set p) -> p_hvalid p = false -> optimize VC SV EV p = (p', Ok tt) -> p_caught p' = false ->
  exists J p1, jacobian_at VC (p_heap p') vs fs J /\ prepare SV p' = (p1, Ok tt) /\
    reports VC (p_heap p') vs J (fun a => snd (estimate_covariance VC SV (Some a) p1)).
Proof.
  intros Hi Hu vs fs Hwf Hact Hbuf Hsh Hj Hm Hn Hv E Hc.
  destruct (last_covariances I l1 l2 h1 g1 p p' Hi Hu Hwf Hact Hbuf Hsh Hm Hn Hv E Hc) as (j & q & J & p1 & _ & _ & _ & _ & _ & _ & HJ & Hp & Hr & Rq & Rp).
  assert (Hl : Forall (fun a => a < length (p_heap p)) vs).
  { destruct (finalized_facts VC Hok _ _ _ _ _ _ Hi) as (_ & Hf & _). exact (ri_live _ _ _ (fin_reg _ _ _ Hf)). }
  fold vs fs in HJ, Hr. exists J, p1. split; [|split; [exact Hp|exact Hr]].
  apply (jacobian_moved (p_heap p) (p_heap p') vs fs J Rp Hl); [intros f Hf; apply Hj; assumption|].
  destruct HJ as (jss & F & A1 & A2 & A3). exists jss. split.
  - clear -F Hj Rq. assert (Hj' : forall f, In f fs -> f_jac f (p_heap q) [] = f_jac f (p_heap p) []) by (intros; apply Hj; auto). clear Hj.
    induction F as [|f js t jss E F IH]; constructor; [rewrite <- Hj' by (left; reflexivity); exact E|]. apply IH. intros g Hg. apply Hj'. right. exact Hg.
  - assert (W : forall a, In a vs -> width VC (p_heap q) a = width VC (p_heap p) a) by (intros a Ha; rewrite Forall_forall in Hl; apply revalued_width; auto).
    assert (Mw : map (width VC (p_heap q)) vs = map (width VC (p_heap p)) vs) by (apply map_ext_in; exact W).
    split; [exact A1|]. split; [rewrite A2; unfold total_cols; rewrite Mw; reflexivity|].
    intros k f js m a r c H1 H2 H3 H4 H5. unfold col_start in *. rewrite <- Mw. apply A3; auto. rewrite (W a (nth_error_In _ _ H3)). exact H5.
Qed.
End Any.

(** ** Library classes *)
Lemma free_jacobian h h' (lf : lib_factor RN) : value_free lf -> hpres (lib RN) true h h' ->
  (forall a, In (Some a) (f_vars (build lf)) -> a < length h) -> f_jac (build lf) h' [] = f_jac (build lf) h [].
Proof.
  intros Vf Hp Hl.
  assert (G : forall a, In (Some a) (f_vars (build lf)) -> exists v v', hget h a = Ok v /\ hget h' a = Ok v' /\ l_const v' = l_const v /\ ksize (l_kind v') = ksize (l_kind v)).
  { intros a Ha. specialize (Hl a Ha). destruct (nth_error h a) as [v|] eqn:Ev; [|apply nth_error_None in Ev; lia].
    destruct (Hp a v Ev) as (v' & E' & _ & Sz & Cv). exists v, v'. unfold hget. rewrite Ev, E'. split; [reflexivity|]. split; [reflexivity|]. split; [exact (Cv eq_refl)|exact Sz]. }
  clear Hp Hl.
  assert (B : forall a (M : mat RN), In (Some a) (f_vars (build lf)) -> blk h' a M = blk h a M).
  { intros a M Ha. destruct (G a Ha) as (v & v' & E & E' & C & _). unfold blk, block_for. rewrite E, E'. cbn [obind vconst lib]. rewrite C. reflexivity. }
  destruct lf; try destruct loc; cbn [value_free] in Vf; try contradiction; cbn [build f_jac f_vars generic_prior generic_between linear_velocity pose_position_prior pose_position_between pose2_prior pose2_between] in *.
  - unfold gprior_jac. destruct (G a) as (v & v' & E & E' & C & _); [cbn; tauto|]. rewrite E, E'. cbn [obind vconst lib]. rewrite C. reflexivity.
  - unfold gbetween_jac. pose proof B as B'. unfold blk in B'. rewrite !B' by (cbn; tauto). reflexivity.
  - unfold linvel_jac. rewrite !B by (cbn; tauto). destruct (G a) as (v & v' & E & E' & C & Z); [cbn; tauto|]. destruct (G b) as (v1 & v1' & E1 & E1' & C1 & Z1); [cbn; tauto|].
    destruct (G c) as (v2 & v2' & E2 & E2' & C2 & Z2); [cbn; tauto|]. rewrite E, E', E1, E1', E2, E2'. cbn [obind]. rewrite C, C1, Z, Z1, Z2. reflexivity.
  - unfold pospri_jac. rewrite !B by (cbn; tauto). reflexivity.
  - unfold posbet_jac. rewrite !B by (cbn; tauto). reflexivity.
  - unfold pri2_jac. rewrite !B by (cbn; tauto). reflexivity.
  - unfold bet2_jac. rewrite !B by (cbn; tauto). reflexivity.
Qed.

Section Library.
Context {S : Type} (SV : solver RN S) (EV : nat -> env (N:=RN) (V:=lvar RN)).
Notation pstate := (pstate (N:=RN) (V:=lvar RN) (S:=S)).
Hypothesis HE : forall n, env_ok (EV n).
Hypothesis HF : factorising_solver SV.

(** Gauss-Newton, or variables that set_value_from_vector(value()) restores *)
Definition traceable (p : pstate) : Prop := st_method (p_set p) = GaussNewton \/ forall a v, nth_error (p_heap p) a = Some v -> real_kind (l_kind v).
Lemma traceable_undoable (p : pstate) : traceable p ->
  st_method (p_set p) = GaussNewton \/ undoable (lib RN) (fun v => real_kind (l_kind v)) /\ (forall a v, nth_error (p_heap p) a = Some v -> real_kind (l_kind v)).
Proof. intros [H|H]; [left; exact H|right; split; [exact lib_real|exact H]]. Qed.

Theorem free_covariances l1 l2 h1 g1 (p p' : pstate) :
  finalized_history (lib RN) l1 l2 h1 (p_heap p) g1 (p_graph p) -> unfinalized (lib RN) ([], empty_graph) l1 ->
  careful ([], empty_graph) l1 -> careful (h1, g1) l2 ->
  let vs := get_all_variables (p_graph p) in let fs := get_all_factors (p_graph p) in
  Forall (factor_wf (lib RN) (p_heap p) vs) fs -> some_active (lib RN) (p_heap p) fs -> Forall (fun f => exists lf, f = build lf /\ value_free lf) fs ->
  traceable p -> 1 <= st_max_iter (p_set p) -> p_hvalid p = false -> optimize (lib RN) SV EV p = (p', Ok tt) -> p_caught p' = false ->
  exists J p1, jacobian_at (lib RN) (p_heap p') vs fs J /\ prepare SV p' = (p1, Ok tt) /\
    reports (lib RN) (p_heap p') vs J (fun a => snd (estimate_covariance (lib RN) SV (Some a) p1)).
Proof.
  intros Hi Hu C1 C2 vs fs Hwf Hact Hfr Hm Hn Hv E Hc. destruct (lib_history _ _ _ _ _ _ Hi C1 C2) as (B1 & B2).
  apply (fixed_covariances (lib RN) SV EV lib_ok HE HF (fun v => real_kind (l_kind v)) l1 l2 h1 g1 p p' Hi Hu Hwf Hact B1 B2); auto; [|apply traceable_undoable; exact Hm].
  intros f h Hf Rv. rewrite Forall_forall in Hfr. destruct (Hfr f Hf) as (lf & -> & Vf). apply free_jacobian; [exact Vf|apply (revalued_hpres (lib RN) lib_ok); exact Rv|].
  intros a Ha. rewrite Forall_forall in Hwf. destruct (Hwf _ Hf) as (_ & W & _). destruct (W _ Ha) as (b & v & X & Y & _). injection X as <-. apply nth_error_Some. congruence.
Qed.

Lemma moves_kept vs (fs : list (factor (N:=RN) (V:=lvar RN))) rate up down top k h0 l0 h l : shapely h0 -> moves (lm_move (lib RN) vs fs rate up down top) k (h0, l0) (h, l) -> kept h0 h.
Proof.
  intros F M. remember (h0, l0) as s0 eqn:E0. remember (h, l) as s eqn:E. revert h l E. induction M as [s|k s x y M IH X]; intros h l E; subst.
  - injection E as <- <-. apply kept_refl. exact F.
  - destruct x as [h1 l1]. pose proof (IH eq_refl h1 l1 eq_refl) as K1.
    inversion X as [? ? J Hj Ho|? ? ? r r' A1 A2 A3 A4|? ? ? r r' A1 A2 A3 A4]; subst; try exact K1.
    destruct A1 as (? & ? & ? & _ & _ & _ & U). exact (kept_trans _ _ _ K1 (updated_kept _ _ _ _ (kept_shapely _ _ K1) U)).
Qed.
Lemma reports_none h vs J est : (exists x, unobservable J x) -> reports (lib RN) h vs J est -> forall a v, nth_error h a = Some v -> est a = Ok None.
Proof. intros (x & U) [(_ & X)|(X & _)]; [exact X|]. destruct (X x U). Qed.

Theorem floating_covariances l1 l2 h1 g1 (p p' : pstate) tr :
  finalized_history (lib RN) l1 l2 h1 (p_heap p) g1 (p_graph p) -> unfinalized (lib RN) ([], empty_graph) l1 ->
  careful ([], empty_graph) l1 -> careful (h1, g1) l2 ->
  let vs := get_all_variables (p_graph p) in let fs := get_all_factors (p_graph p) in
  Forall (factor_wf (lib RN) (p_heap p) vs) fs -> some_active (lib RN) (p_heap p) fs ->
  Forall (untouched (p_heap p) tr) fs -> something_moves (p_heap p) tr vs ->
  st_method (p_set p) = GaussNewton \/ planes_stay (p_heap p) tr /\ (forall a v, nth_error (p_heap p) a = Some v -> real_kind (l_kind v)) ->
  1 <= st_max_iter (p_set p) -> p_hvalid p = false -> optimize (lib RN) SV EV p = (p', Ok tt) -> p_caught p' = false ->
  exists p1, prepare SV p' = (p1, Ok tt) /\ forall a v, nth_error (p_heap p') a = Some v -> snd (estimate_covariance (lib RN) SV (Some a) p1) = Ok None.
Proof.
  intros Hi Hu C1 C2 vs fs Hwf Hact Hun Hmov Hm Hn Hv E Hc. destruct (lib_history _ _ _ _ _ _ Hi C1 C2) as (B1 & B2).
  destruct (last_covariances (lib RN) SV EV lib_ok HE HF (fun v => real_kind (l_kind v)) l1 l2 h1 g1 p p' Hi Hu Hwf Hact B1 B2) as (j & q & J & p1 & J1 & J2 & J3 & _ & J4 & J5 & J6 & J7 & J8 & _); auto;
    [destruct Hm as [Hm|(_ & Hm)]; [left; exact Hm|right; split; [exact lib_real|exact Hm]]|].
  fold vs fs in J6, J8. exists p1. split; [exact J7|]. refine (reports_none _ _ _ _ _ J8).
  pose proof (history_nodup _ _ _ _ _ _ Hi) as Nd. fold vs in Nd.
  assert (Hl : Forall (fun a => a < length (p_heap p)) vs).
  { destruct (finalized_facts (lib RN) lib_ok _ _ _ _ _ _ Hi) as (_ & Hf & _). exact (ri_live _ _ _ (fin_reg _ _ _ Hf)). }
  assert (At : Forall (factor_wf (lib RN) (p_heap q) vs) fs -> Forall (untouched (p_heap q) tr) fs -> something_moves (p_heap q) tr vs -> exists x, unobservable J x).
  { intros X Y (a & c & Ha & Hcw & Hs). apply (first_order_unobservable (lib RN) (p_heap q) vs fs J (fun a c => nth c (drift (p_heap q) tr a) 0%R) J6).
    - apply (untouched_zero _ _ _ _ J Nd X Y J6).
    - exists a, c. split; [exact Ha|]. split; [exact Hcw|]. rewrite (drift_width _ _ _ _ Hcw). exact Hs. }
  destruct Hm as [Hm|(Pl & Hk)].
  - assert (Eq : p_heap q = p_heap p).
    { destruct (floating_fails SV EV HE HF l1 l2 h1 g1 p p' tr Hi Hu C1 C2 Hwf Hact Hun Hmov Hm Hn E Hc) as (_ & X & Y). rewrite Y in J5. destruct J5 as [J5|(_ & _ & J5)]; congruence. }
    rewrite Eq in At. apply At; assumption.
  - assert (K : kept (p_heap p) (p_heap q)).
    { pose proof (proj1 (sound_history _ _ _ _ _ _ Hi C1 C2)) as Sh. destruct (st_method (p_set p)) eqn:Em.
      - destruct (floating_fails SV EV HE HF l1 l2 h1 g1 p p' tr Hi Hu C1 C2 Hwf Hact Hun Hmov Em Hn E Hc) as (_ & X & Y). rewrite Y in J5.
        assert (p_heap q = p_heap p) as -> by (destruct J5 as [J5|(_ & _ & J5)]; congruence). apply kept_refl. exact Sh.
      - destruct j as [|j].
        + apply optimize_ok in J2. destruct J2 as (_ & g & r & p2 & _ & L & ->). cbn in L. injection L as <-. 
          change (p_heap (end_run (begin_run g r (limit 0 p)))) with (p_heap p). apply kept_refl. exact Sh.
        + destruct (lm_path (lib RN) SV EV lib_ok HE (fun v => real_kind (l_kind v)) l1 l2 h1 g1 (limit (Datatypes.S j) p) q lib_real Hk HF Hi Hu Hwf Hact B1 B2 Em) as (k & _ & Mv); auto; [cbn; lia|].
          eapply moves_kept; [exact Sh|exact Mv]. }
    destruct (floats_kept vs fs tr (p_heap p) (p_heap q) K) as (_ & _ & X1 & X2 & X3).
    { split; [exact (proj1 (sound_history _ _ _ _ _ _ Hi C1 C2))|]. split; [exact Hl|]. split; [exact Hwf|]. split; [exact Hun|exact Pl]. }
    apply At; [exact X1|exact X2|]. destruct Hmov as (a & c & Ha & Hcw & Hs). exists a, c. split; [exact Ha|].
    rewrite (width_kept _ _ _ K), (shift_kept _ _ _ _ _ K Pl). auto.
Qed.

(** motions that no measurement notices, Gauss-Newton *)
Theorem unseen_covariances l1 l2 h1 g1 (p p' : pstate) u :
  finalized_history (lib RN) l1 l2 h1 (p_heap p) g1 (p_graph p) -> unfinalized (lib RN) ([], empty_graph) l1 ->
  careful ([], empty_graph) l1 -> careful (h1, g1) l2 ->
  let vs := get_all_variables (p_graph p) in let fs := get_all_factors (p_graph p) in
  Forall (factor_wf (lib RN) (p_heap p) vs) fs -> some_active (lib RN) (p_heap p) fs ->
  Forall (overlooked (p_heap p) u) fs -> in_motion (p_heap p) u vs ->
  st_method (p_set p) = GaussNewton ->
  1 <= st_max_iter (p_set p) -> p_hvalid p = false -> optimize (lib RN) SV EV p = (p', Ok tt) -> p_caught p' = false ->
  exists p1, prepare SV p' = (p1, Ok tt) /\ forall a v, nth_error (p_heap p') a = Some v -> snd (estimate_covariance (lib RN) SV (Some a) p1) = Ok None.
Proof.
  intros Hi Hu C1 C2 vs fs Hwf Hact Hun Hmov Hm Hn Hv E Hc. destruct (lib_history _ _ _ _ _ _ Hi C1 C2) as (B1 & B2).
  destruct (last_covariances (lib RN) SV EV lib_ok HE HF (fun v => real_kind (l_kind v)) l1 l2 h1 g1 p p' Hi Hu Hwf Hact B1 B2) as (j & q & J & p1 & J1 & J2 & J3 & _ & J4 & J5 & J6 & J7 & J8 & _); auto.
  fold vs fs in J6, J8. exists p1. split; [exact J7|]. refine (reports_none _ _ _ _ _ J8).
  destruct (similar_fails SV EV HE HF l1 l2 h1 g1 p p' u Hi Hu C1 C2 Hwf Hact Hun Hmov Hm Hn E Hc) as (_ & X & Y). rewrite Y in J5.
  assert (Eq : p_heap q = p_heap p) by (destruct J5 as [J5|(_ & _ & J5)]; congruence). rewrite Eq in J6.
  exact (motion_unobservable _ _ _ _ J (history_nodup _ _ _ _ _ _ Hi) Hwf Hun Hmov J6).
Qed.
End Library.
