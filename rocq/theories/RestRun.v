(** Runs that start where the gradient vanishes. *)
From Coq Require Import List Arith ZArith QArith Bool Reals Lra Lia Qreals.
From Verif Require Import Base Sparse Graph SpecGraph SpecOpt ListLemmas GraphLayout GraphFin GraphBasic Optimizer OptLemmas OptWork OptLM OptRun OptMore Real RSum SpecSolver
  Gram Pivots OptCov OptExact OptLinear SpecSteps OptSteps OptDescent OptVerdict OptFacts SpecEnds OptEnds SpecRest.
Set Bullet Behavior "Strict Subproofs".
Import ListNotations.
Local Open Scope nat_scope.

Lemma zero_map (x : list R) rate : (forall i, i < length x -> nth i x 0%R = 0%R) -> map (fun y => (y * rate)%R) x = repeat 0%R (length x).
Proof.
  induction x as [|y x IH]; intros H; [reflexivity|]. cbn. f_equal.
  - pose proof (H 0 (Nat.lt_0_succ _)) as E. cbn in E. rewrite E. ring.
  - apply IH. intros i Hi. apply (H (Datatypes.S i)). cbn. lia.
Qed.
Lemma slice_repeat off n m : off + n <= m -> slice (N:=RN) off n (repeat 0%R m) = repeat 0%R n.
Proof.
  intros H. unfold slice. replace m with (off + (n + (m - off - n))) by lia.
  rewrite !repeat_app. rewrite skipn_app, skipn_all2 by (rewrite repeat_length; lia). rewrite repeat_length, Nat.sub_diag. cbn.
  rewrite firstn_app, repeat_length, Nat.sub_diag, firstn_all2 by (rewrite repeat_length; lia). cbn. apply app_nil_r.
Qed.
Lemma nth_slice off n (x : list R) c : c < n -> nth c (slice (N:=RN) off n x) 0%R = nth (off + c) x 0%R.
Proof.
  intros H. unfold slice. change (car RN) with R. revert x. induction off as [|off IH]; intros x; cbn [skipn Nat.add].
  - revert x c H. induction n; intros x c H; [lia|]. destruct x; [reflexivity|]. destruct c; [reflexivity|]. cbn. apply IHn. lia.
  - destruct x; [|apply IH]. rewrite firstn_nil. destruct c; reflexivity.
Qed.

(** the only solution of J^T J x + l x = 0 *)
Lemma solution_zero l (J : mat RN) r x : damped_solution l J r x -> (forall i, i < mcols J -> rsum (mrows J) (fun k => mat_at J k i * nth k r 0)%R = 0%R) ->
  (0 < l)%R \/ l = 0%R /\ (forall y, ~ unobservable J y) -> forall i, i < mcols J -> nth i x 0%R = 0%R.
Proof.
  intros H G C i Hi. pose proof (slope l J r x H) as E.
  rewrite (rsum_zero (mcols J)) in E by (intros k Hk; rewrite (G k Hk); ring).
  set (q := rsum (mrows J) _) in E. set (n := rsum (mcols J) _) in E.
  assert (Q : (0 <= q)%R) by (apply rsum_nonneg; intros; apply Rle_0_sqr).
  assert (M : (0 <= n)%R) by (apply rsum_nonneg; intros; apply Rle_0_sqr).
  destruct (Req_dec (nth i x 0%R) 0) as [|Hne]; [assumption|]. exfalso. destruct C as [C|(C & U)].
  - assert (0 < n)%R.
    { apply (rsum_pos _ _ i); [intros; apply Rle_0_sqr|exact Hi|]. apply Rlt_0_sqr. exact Hne. }
    assert (0 < l * n)%R by (apply Rmult_lt_0_compat; assumption). clearbody q n. lra.
  - apply (U x). split; [exact (proj1 H)|]. split; [exists i; auto|]. apply image_zero. subst l. assert (Q0 : q = 0%R) by (clearbody q n; nra). exact Q0.
Qed.

Lemma moves_rest {A} (step : A -> A -> Prop) n a b : (forall c, step a c -> c = a) -> moves step n a b -> b = a.
Proof. intros H M. induction M as [a|n a b c M IH St]; [reflexivity|]. rewrite (IH H) in St. apply H. exact St. Qed.

Section Columns.
Context {V : Type} (VC : vclass RN V).
Lemma column_owner (h : @heap V) vs : forall i, i < total_cols VC h vs ->
  exists k a c, nth_error vs k = Some a /\ c < width VC h a /\ i = col_start VC h vs k + c.
Proof.
  induction vs as [|a t IH]; intros i Hi; [cbn in Hi; lia|]. change (total_cols VC h (a :: t)) with (width VC h a + total_cols VC h t) in Hi.
  destruct (lt_dec i (width VC h a)) as [L|L].
  - exists 0, a, i. cbn. auto.
  - destruct (IH (i - width VC h a)) as (k & b & c & A & B & C); [lia|].
    exists (Datatypes.S k), b, c. split; [exact A|]. split; [exact B|]. change (col_start VC h (a :: t) (Datatypes.S k)) with (width VC h a + col_start VC h t k). lia.
Qed.
Lemma heap_ext (h h' : @heap V) : length h' = length h -> (forall a v, nth_error h a = Some v -> nth_error h' a = Some v) -> h' = h.
Proof.
  revert h'. induction h as [|x h IH]; intros [|y h'] L H; try discriminate; [reflexivity|].
  pose proof (H 0 x eq_refl) as E. cbn in E. injection E as ->. f_equal. apply IH; [cbn in L; lia|]. intros a v Ha. exact (H (Datatypes.S a) v Ha).
Qed.
Lemma total_of h vs (fs : list (factor (N:=RN) (V:=V))) J : jacobian_at VC h vs fs J -> mcols J = total_cols VC h vs.
Proof. intros (jss & _ & A). exact (proj1 (proj2 A)). Qed.

Lemma updated_zero (h h' : @heap V) vs rate x : length x = total_cols VC h vs -> (forall i, i < length x -> nth i x 0%R = 0%R) -> all_rest VC h vs ->
  updated VC h h' vs (fun k v => vinc VC v (slice (N:=RN) (col_start VC h vs k) (vsize VC v) (map (fun y => y * rate)%R x))) -> h' = h.
Proof.
  intros L Z R (U1 & U2 & U3). apply heap_ext; [exact U1|]. intros a v Ha.
  destruct (vconst VC v) eqn:Hc; [apply (U3 a v Ha); auto|].
  destruct (in_dec Nat.eq_dec a vs) as [I|I]; [|apply (U3 a v Ha); auto].
  pose proof I as I'. apply In_nth_error in I'. destruct I' as (k & Hk). destruct (U2 k a v Hk Ha Hc) as (v' & E & E').
  rewrite zero_map in E by exact Z. rewrite L in E. rewrite slice_repeat in E.
  - rewrite (R a v I Ha Hc) in E. injection E as <-. exact E'.
  - pose proof (col_start_le VC h vs k a Hk) as X. unfold width in X at 1. rewrite Ha, Hc in X. exact X.
Qed.
Lemma step_rests h h' vs (fs : list (factor (N:=RN) (V:=V))) rate l : stationary VC h vs fs -> all_rest VC h vs ->
  (0 < l)%R \/ l = 0%R /\ (forall J y, jacobian_at VC h vs fs J -> ~ unobservable J y) ->
  newton_step VC vs fs rate l h h' -> h' = h.
Proof.
  intros (r0 & J0 & S1 & S2 & S3) A C (r & J & x & N1 & N2 & N3 & N4). pose proof (stacked_fun _ _ _ _ S1 N1) as <-.
  destruct (jacobian_unique VC _ _ _ _ _ S2 N2) as (U1 & U2 & U3).
  pose proof (total_of _ _ _ _ N2) as T. apply (updated_zero h h' vs rate x); [rewrite <- T; exact (proj1 N3)| |exact A|exact N4].
  intros i Hi. apply (solution_zero l J r0 x N3).
  - intros j Hj. rewrite <- U1. etransitivity; [|apply (S3 j); rewrite U2; exact Hj]. apply rsum_ext. intros k Hk. rewrite (U3 k j Hk); [reflexivity|rewrite U2; exact Hj].
  - destruct C as [C|(C1 & C2)]; [left; exact C|right; split; [exact C1|intros y; apply C2; exact N2]].
  - rewrite <- (proj1 N3). exact Hi.
Qed.
Lemma resting_step h vs (fs : list (factor (N:=RN) (V:=V))) rate : all_responsive VC h vs -> rate <> 0%R ->
  newton_step VC vs fs rate 0 h h -> stationary VC h vs fs.
Proof.
  intros A Hr (r & J & x & N1 & N2 & N3 & N4). exists r, J. split; [exact N1|]. split; [exact N2|].
  pose proof (total_of _ _ _ _ N2) as T.
  assert (Z : forall i, i < mcols J -> nth i x 0%R = 0%R).
  { intros i Hi. rewrite T in Hi. destruct (column_owner h vs i Hi) as (k & a & c & K1 & K2 & K3).
    unfold width in K2. destruct (nth_error h a) as [v|] eqn:Ha; [|lia]. destruct (vconst VC v) eqn:Hc; [lia|].
    destruct N4 as (_ & U & _). destruct (U k a v K1 Ha Hc) as (v' & E & E'). rewrite Ha in E'. injection E' as <-.
    pose proof (col_start_le VC h vs k a K1) as X. unfold width in X at 1. rewrite Ha, Hc in X.
    assert (L : length (slice (N:=RN) (col_start VC h vs k) (vsize VC v) (map (fun y => (y * rate)%R) x)) = vsize VC v).
    { unfold slice. rewrite firstn_length, skipn_length, map_length. pose proof (proj1 N3) as Lx. change (car RN) with R. rewrite Lx, T. lia. }
    pose proof (A a v (nth_error_In _ _ K1) Ha Hc _ L E c K2) as Y. rewrite nth_slice in Y by exact K2. rewrite <- K3 in Y.
    rewrite (nth_indep _ 0%R (0 * rate)%R) in Y by (rewrite map_length, (proj1 N3), T; exact Hi).
    rewrite (map_nth (fun y => (y * rate)%R)) in Y. apply Rmult_integral in Y. destruct Y as [Y|Y]; [exact Y|contradiction]. }
  intros i Hi. destruct N3 as (_ & N3). specialize (N3 i Hi).
  rewrite (rsum_zero (mcols J)) in N3 by (intros j Hj; rewrite (Z j Hj); ring). rewrite (Z i Hi) in N3.
  match type of N3 with _ = (- ?w)%R => change (w = 0%R); generalize dependent w end. intros w N3. lra.
Qed.
End Columns.

Section Runs.
Context {V : Type} (VC : vclass RN V) {S : Type} (SV : solver RN S).
Notation pstate := (pstate (N:=RN) (V:=V) (S:=S)).
Context (EV : nat -> env (N:=RN) (V:=V)).
Hypothesis Hok : vclass_ok VC.
Hypothesis HE : forall n, env_ok (EV n).
Hypothesis HF : factorising_solver SV.

Lemma uncaught l1 l2 h1 g1 (p p' : pstate) : finalized_history VC l1 l2 h1 (p_heap p) g1 (p_graph p) -> optimize VC SV EV p = (p', Ok tt) ->
  ss_status (p_cur p') = SUCCESS -> p_caught p' = false.
Proof.
  intros HFi E Hs. destruct (p_caught p') eqn:C; [|reflexivity]. exfalso.
  destruct (optimize_caught VC SV EV Hok HE p p' (pfin_of VC Hok _ _ _ _ _ HFi) E C) as (X & _). congruence.
Qed.

Section Given.
Context (l1 l2 : list (env (N:=RN) (V:=V) * op (N:=RN) (V:=V))) (h1 : @heap V) (g1 : graph (N:=RN) (V:=V)) (p : pstate).
Let vs := get_all_variables (p_graph p).
Let fs := get_all_factors (p_graph p).
Hypothesis HFi : finalized_history VC l1 l2 h1 (p_heap p) g1 (p_graph p).
Hypothesis Hu : unfinalized VC ([], empty_graph) l1.
Hypothesis Hwf : Forall (factor_wf VC (p_heap p) vs) fs.
Hypothesis Hact : some_active VC (p_heap p) fs.
Hypothesis Hbuf : Forall buf_indep fs.
Hypothesis Hsh : shape_contract VC (p_heap p) fs.
Hypothesis Hst : stationary VC (p_heap p) vs fs.
Hypothesis Hre : all_rest VC (p_heap p) vs.

(** Gauss-Newton does not move *)
Lemma gn_rests k p' : st_method (p_set p) = GaussNewton -> optimize VC SV EV (limit k p) = (p', Ok tt) -> p_caught p' = false -> p_heap p' = p_heap p.
Proof.
  intros Hm E Hc. destruct k as [|k].
  { apply optimize_ok in E. destruct E as (Hg & g & r0 & p2 & Cr & L & ->). cbn in L. injection L as <-. reflexivity. }
  destruct (Classical_Prop.classic (exists J y, jacobian_at VC (p_heap p) vs fs J /\ unobservable J y)) as [(J & y & A & B)|N].
  - apply (gn_unobservable VC SV EV Hok HE HF l1 l2 h1 g1 (limit (Datatypes.S k) p) p' J y HFi Hu Hwf Hact Hbuf Hsh Hm); auto. cbn. lia.
  - destruct (gn_path VC SV EV Hok HE l1 l2 h1 g1 (limit (Datatypes.S k) p) p' (factorising_exact SV HF) HFi Hu Hwf Hact Hbuf Hsh Hm E) as (n & h & M & [Eh|(Eh & _)] & _); [|congruence].
    rewrite Eh. cbn in M. fold vs fs in M. refine (moves_rest _ _ _ _ _ M). intros c St.
    apply (step_rests VC _ _ vs fs (st_rate (p_set p)) 0); [exact Hst|exact Hre| |exact St]. right. split; [reflexivity|]. intros J y A B. apply N. exists J, y. auto.
Qed.
Lemma gn_norm k p' r : st_method (p_set p) = GaussNewton -> stacked (p_heap p) fs r -> optimize VC SV EV (limit k p) = (p', Ok tt) -> p_caught p' = false ->
  ss_resnorm (p_init p') = vnorm r /\ ss_resnorm (p_cur p') = vnorm r.
Proof.
  intros Hm Hr E Hc. destruct (stats_gn VC SV EV Hok HE l1 l2 h1 g1 (limit k p) p' HFi Hm E Hc) as (r0 & r1 & A & B & _ & C & _ & D).
  rewrite (gn_rests k p' Hm E Hc) in B. change (get_all_factors (p_graph (limit k p))) with fs in *.
  rewrite (stacked_fun _ _ _ _ Hr B). rewrite (stacked_fun _ _ _ _ B A) at 1. auto.
Qed.
Lemma limit_self : limit (st_max_iter (p_set p)) p = p.
Proof. destruct p as [? ? st]; destruct st; reflexivity. Qed.

Lemma no_drop (a b c : R) : a = b -> (nltb (n:=RN) (nsub a b) c = nltb (n:=RN) 0%R c) /\ nltb (n:=RN) (nsub a b) nzero = false.
Proof.
  intros ->. assert (E : nsub (n:=RN) b b = 0%R) by (match goal with |- ?x = ?y => change (@eq R x y) end; change (b - b = 0)%R; ring).
  rewrite E. split; [reflexivity|]. change (nzero (N:=RN)) with (Q2R 0). rewrite RMicromega.Q2R_0. change (Rltb 0 0 = false). apply Rltb_false. lra.
Qed.
Lemma norm_pos (l : list R) : (0 <= vnorm (N:=RN) l)%R.
Proof. apply sqrt_pos. Qed.

Theorem gn_stays p' : st_method (p_set p) = GaussNewton -> optimize VC SV EV p = (p', Ok tt) -> p_caught p' = false ->
  p_heap p' = p_heap p /\ ss_chi2 (p_cur p') = ss_chi2 (p_init p') /\
  (ss_status (p_cur p') = SUCCESS /\ ((0 < st_res_tol (p_set p))%R -> ss_iter (p_cur p') <= 1) \/
   failure (ss_status (p_cur p')) /\ ss_valid (p_cur p') = false /\ exists J, jacobian_at VC (p_heap p) vs fs J /\ verdict (ss_status (p_cur p')) J).
Proof.
  intros Hm E Hc. pose proof E as El. rewrite <- limit_self in El.
  pose proof (gn_rests _ _ Hm El Hc) as Hh. split; [exact Hh|].
  destruct (stats_gn VC SV EV Hok HE l1 l2 h1 g1 p p' HFi Hm E Hc) as (r0 & r1 & A & B & C1 & C & D1 & D). fold fs in A, B.
  rewrite Hh in B. pose proof (stacked_fun _ _ _ _ B A) as ->. split; [congruence|].
  destruct (status_facts VC SV EV p p' E) as (S1 & S2 & S3 & S4).
  destruct (Classical_Prop.classic (failure (ss_status (p_cur p')))) as [Fa|Fa].
  - right. split; [exact Fa|]. split; [apply S3; exact Fa|].
    destruct (gn_failure_codes VC SV EV Hok HE HF l1 l2 h1 g1 p p' HFi Hu Hwf Hact Hbuf Hsh Hm E Hc Fa) as (J & J1 & J2). rewrite Hh in J1.
    exists J. split; [exact J1|exact J2].
  - left.
    assert (K : ss_status (p_cur p') = SUCCESS \/ ss_status (p_cur p') = DIVERGED).
    { destruct (ss_status (p_cur p')) eqn:Es; auto; try congruence; exfalso; apply Fa; unfold failure; auto. }
    destruct (run_ends VC SV EV HE p p' E Hc K) as (_ & K2 & K3 & K4).
    assert (Nj : forall j q, optimize VC SV EV (limit j p) = (q, Ok tt) -> ss_status (p_cur q) = SUCCESS -> ss_resnorm (p_cur q) = vnorm (N:=RN) r0).
    { intros j q Eq Sq. refine (proj2 (gn_norm j q r0 Hm A Eq _)). exact (uncaught l1 l2 h1 g1 (limit j p) q HFi Eq Sq). }
    split.
    + destruct K4 as [(_ & K4)|(j & q & Ek & Eq & St)]; [exact K4|].
      destruct (K2 j) as (q' & Eq' & Sq & _); [lia|]. rewrite Eq in Eq'. injection Eq' as <-.
      pose proof (Nj j q Eq Sq) as Nq. rewrite <- D in Nq.
      destruct (ss_status (p_cur p')) eqn:Es; try reflexivity; try (exfalso; destruct K; congruence). exfalso.
      inversion St as [| | |X _|X]; subst.
      * unfold decrease in X. rewrite (proj2 (no_drop _ _ 0%R Nq)) in X. discriminate X.
      * rewrite C, D in X. change (Rltb (Q2R 10 * vnorm (N:=RN) r0) (vnorm (N:=RN) r0) = true) in X. apply Rltb_true in X.
        pose proof (norm_pos r0). replace (Q2R 10) with 10%R in X by (unfold Q2R; cbn; lra). set (w := vnorm (N:=RN) r0) in *. change (car RN) with R in w. clearbody w. lra.
    + intros Ht. destruct (le_lt_dec (ss_iter (p_cur p')) 1) as [|Lt]; [assumption|]. exfalso.
      destruct (K2 0) as (q & Eq & Sq & _); [lia|]. destruct (K2 1) as (q' & Eq' & Sq' & _); [lia|].
      destruct (K3 0 q q' Lt Eq Eq') as (_ & _ & X & _). unfold decrease in X.
      rewrite (proj1 (no_drop _ _ _ (eq_trans (Nj _ _ Eq Sq) (eq_sym (Nj _ _ Eq' Sq'))))) in X.
      change (Rltb 0 (st_res_tol (p_set p)) = false) in X. apply Rltb_false in X. lra.
Qed.

(** Levenberg-Marquardt does not move either, and reports a failure *)
Lemma lm_move_rests rate up down top n a b : (0 < snd a)%R -> (0 < up)%R -> (0 < top)%R -> fst a = p_heap p ->
  moves (lm_move VC vs fs rate up down top) n a b -> fst b = p_heap p /\ (0 < snd b)%R.
Proof.
  intros L U T E M. induction M as [a|n a b c M IH St]; [auto|]. destruct (IH L E) as (I1 & I2). clear IH L E M.
  inversion St as [h l J A B|h h' l r r' A B C D|h h0 l r r0 A B C D]; subst; cbn [fst snd] in *; subst h.
  - split; [reflexivity|]. apply Rmult_lt_0_compat; assumption.
  - exfalso. assert (h' = p_heap p) by (apply (step_rests VC _ _ vs fs rate l); auto). subst h'.
    rewrite (stacked_fun _ _ _ _ C B) in D. exact (Rlt_irrefl _ D).
  - split; [reflexivity|]. apply Rmin_glb_lt; [apply Rmult_lt_0_compat; assumption|assumption].
Qed.
Theorem lm_stays (I : V -> Prop) p' : let st := p_set p in
  undoable VC I -> (forall a v, nth_error (p_heap p) a = Some v -> I v) ->
  (0 < st_lambda0 st)%R -> (0 < st_up st)%R -> (0 < st_max_lambda st)%R ->
  st_method st = LevenbergMarquardt -> 1 <= st_max_iter st -> optimize VC SV EV p = (p', Ok tt) -> p_caught p' = false ->
  p_heap p' = p_heap p /\ failure (ss_status (p_cur p')) /\ ss_valid (p_cur p') = false.
Proof.
  intros st HI Hh L0 U T Hm Hn E Hc.
  assert (Rest : forall k q, 1 <= k -> optimize VC SV EV (limit k p) = (q, Ok tt) -> p_caught q = false -> p_heap q = p_heap p).
  { intros k q Hk Eq Cq.
    destruct (lm_path VC SV EV Hok HE I l1 l2 h1 g1 (limit k p) q HI Hh HF HFi Hu Hwf Hact Hbuf Hsh Hm) as (n & _ & M); auto.
    refine (proj1 (lm_move_rests _ _ _ _ _ _ _ _ _ _ _ M)); auto. }
  assert (NS : forall k q, 1 <= k -> optimize VC SV EV (limit k p) = (q, Ok tt) -> ss_status (p_cur q) <> SUCCESS).
  { intros k q Hk Eq Sq. pose proof (uncaught l1 l2 h1 g1 (limit k p) q HFi Eq Sq) as Cq.
    destruct (lm_success_improves VC SV EV Hok HE I l1 l2 h1 g1 (limit k p) q HI real_order HFi Hh Hm Hk Eq Sq) as (r0 & r1 & A & B & D & _).
    rewrite (Rest k q Hk Eq Cq) in B. rewrite (stacked_fun _ _ _ _ B A) in D.
    change (Rltb (sqnorm (N:=RN) r0) (sqnorm (N:=RN) r0) = true) in D. apply Rltb_true in D. exact (Rlt_irrefl _ D). }
  pose proof E as El. rewrite <- limit_self in El. pose proof (Rest _ _ Hn El Hc) as Hr. split; [exact Hr|].
  destruct (status_facts VC SV EV p p' E) as (S1 & S2 & S3 & S4).
  destruct (Classical_Prop.classic (failure (ss_status (p_cur p')))) as [Fa|Fa]; [split; [exact Fa|apply S3; exact Fa]|]. exfalso.
  pose proof (NS _ _ Hn El) as N1.
  assert (K : ss_status (p_cur p') = DIVERGED) by (destruct (ss_status (p_cur p')) eqn:Es; auto; try congruence; exfalso; apply Fa; unfold failure; auto).
  destruct (run_ends VC SV EV HE p p' E Hc (or_intror K)) as (_ & K2 & _ & K4).
  destruct K4 as [(_ & K4)|(j & q & Ek & Eq & St)]; [congruence|].
  destruct (K2 j) as (q' & Eq' & Sq & _); [lia|]. rewrite Eq in Eq'. injection Eq' as <-.
  destruct j as [|j]; [|exact (NS (Datatypes.S j) q ltac:(lia) Eq Sq)].
  pose proof (uncaught l1 l2 h1 g1 (limit 0 p) q HFi Eq Sq) as Cq.
  destruct (stats_lm VC SV EV Hok HE I l1 l2 h1 g1 p p' HI real_order HFi Hh Hm E Hc) as (r0 & r1 & A & B & _ & C & _ & D).
  destruct (stats_lm VC SV EV Hok HE I l1 l2 h1 g1 (limit 0 p) q HI real_order HFi Hh Hm Eq Cq) as (r2 & r3 & A' & B' & _ & C' & _ & D').
  rewrite Hr in B. rewrite (stacked_fun _ _ _ _ B A) in D.
  assert (Hq : p_heap q = p_heap p).
  { apply optimize_ok in Eq. destruct Eq as (Hg & g & s0 & p2 & Cr & L & ->). cbn in L. injection L as <-. reflexivity. }
  rewrite Hq in B'. rewrite (stacked_fun _ _ _ _ B' A) in D'.
  pose proof (eq_trans D' (eq_sym D)) as Nq. rewrite K in St. inversion St as [| | |X _|X]; subst.
  - unfold decrease in X. rewrite (proj2 (no_drop _ _ 0%R Nq)) in X. discriminate X.
  - rewrite C, D in X. change (Rltb (Q2R 10 * vnorm (N:=RN) r0) (vnorm (N:=RN) r0) = true) in X. apply Rltb_true in X.
    pose proof (norm_pos r0). replace (Q2R 10) with 10%R in X by (unfold Q2R; cbn; lra). set (w := vnorm (N:=RN) r0) in *. change (car RN) with R in w. clearbody w. lra.
Qed.
End Given.

(** Gauss-Newton rests nowhere else *)
Theorem gn_rests_only_there l1 l2 h1 g1 (p p' : pstate) :
  finalized_history VC l1 l2 h1 (p_heap p) g1 (p_graph p) -> unfinalized VC ([], empty_graph) l1 ->
  let vs := get_all_variables (p_graph p) in let fs := get_all_factors (p_graph p) in
  Forall (factor_wf VC (p_heap p) vs) fs -> some_active VC (p_heap p) fs -> Forall buf_indep fs -> shape_contract VC (p_heap p) fs ->
  all_responsive VC (p_heap p) vs -> st_rate (p_set p) <> 0%R ->
  st_method (p_set p) = GaussNewton -> st_max_iter (p_set p) = 1 -> optimize VC SV EV p = (p', Ok tt) -> ss_status (p_cur p') = SUCCESS ->
  p_heap p' = p_heap p -> stationary VC (p_heap p) vs fs.
Proof.
  intros HFi Hu vs fs Hwf Hact Hbuf Hsh Hre Hr Hm Hn E Hs Hh. pose proof (uncaught _ _ _ _ _ _ HFi E Hs) as Hc.
  destruct (gn_path VC SV EV Hok HE l1 l2 h1 g1 p p' (factorising_exact SV HF) HFi Hu Hwf Hact Hbuf Hsh Hm E) as (k & h & M & [Eh|(Eh & _)] & Ki); [|congruence].
  destruct (run_ends VC SV EV HE p p' E Hc (or_introl Hs)) as (K1 & _ & _ & K4). rewrite (Ki Hc) in K1, K4. rewrite Hn in K1, K4.
  assert (k = 1) as -> by (destruct K4 as [(K4 & _)|(j & _ & K4 & _)]; lia).
  inversion M as [|n a b c M1 St]; subst. inversion M1; subst. rewrite Hh in St. exact (resting_step VC _ _ _ _ Hre Hr St).
Qed.
(** estimates that fit all measurements *)
Lemma fit_stationary h vs (fs : list (factor (N:=RN) (V:=V))) J : stacked h fs (repeat 0%R (total_rows fs)) -> jacobian_at VC h vs fs J -> stationary VC h vs fs.
Proof.
  intros A B. exists (repeat 0%R (total_rows fs)), J. split; [exact A|]. split; [exact B|]. intros i Hi. apply rsum_zero. intros k Hk.
  assert (Z : forall n m, nth n (repeat 0%R m) 0%R = 0%R) by (intros n m; revert n; induction m; intros [|n]; cbn; auto). rewrite Z. ring.
Qed.
End Runs.
