(** Repeated measurements and factors on constants: library graphs with the same information. *)
From Coq Require Import List Arith ZArith QArith Bool Lia Permutation Reals Lra.
From Verif Require Import Base Sparse Graph SpecGraph SpecOpt ListLemmas GraphLayout Geom Vars VarsLemmas FactorLib FactorShape SpecShape FactorSafe Optimizer OptLemmas OptWork Real RSum SpecSolver SpecSteps OptSteps OptMore OptStepsLib OptOrder OptOrderRun OptPart SpecPart PartLib SpecTwin SpecBlocks
  SpecChange Change SpecUnits UnitsVars UnitsRead UnitsFactors SpecMarginal MarginalRun SpecInfo Info InfoRun.
Import ListNotations.
Local Open Scope nat_scope.
Set Bullet Behavior "Strict Subproofs".

Definition one : addr -> nat -> R := fun _ _ => 1%R.
Definition fit (h : @heap (lvar RN)) : Prop := heaps (rescaled_var one) h h.
Lemma one_pos a i : (0 < one a i)%R. Proof. unfold one. lra. Qed.
Lemma times_one (x : list R) t : (forall i, t i = 1%R) -> times_vec t x x.
Proof. intros H. split; [reflexivity|]. intros i _. rewrite H. symmetry. apply Rmult_1_l. Qed.
Lemma sane_fit (h : @heap (lvar RN)) : shapely h -> sane_ranges h -> fit h.
Proof.
  intros S Q a. destruct (nth_error h a) as [[i c k]|] eqn:E; [|exact I]. pose proof (S a _ E) as Sh. specialize (Q a (LVar i c k)). unfold in_shape in Sh. cbn [l_kind] in Sh.
  split; [reflexivity|]. split; [reflexivity|]. cbn [l_kind].
  assert (T : forall x : list R, times_vec (one a) x x) by (intros x; apply times_one; reflexivity). destruct k as [x|x|x A|x A|o b lo hi x|n e|x].
  - apply T.
  - apply T.
  - split; [reflexivity|]. split; [apply T|reflexivity].
  - split; [reflexivity|]. split; reflexivity.
  - specialize (Q o b lo hi x E eq_refl). unfold one. split; [unfold times_v3; rewrite Rinv_1, !Rmult_1_l; auto|]. split; [reflexivity|]. split; [symmetry; apply Rmult_1_l|]. split; [symmetry; apply Rmult_1_l|]. split; [apply T|]. auto.
  - split; [reflexivity|]. split; [symmetry; apply Rmult_1_l|]. intros j _. reflexivity.
  - split; [exact Sh|]. split; [apply T|reflexivity].
Qed.
Lemma inc_length (v w : lvar RN) d : vinc (lib RN) v d = Ok w -> length d = vsize (lib RN) v.
Proof.
  destruct v as [i c k]. cbn [lib vinc vsize l_kind]. unfold with_kind, omap. cbn [l_kind]. destruct k; cbn [kinc ksize]; try (match goal with |- context [(?x =? ?y)%nat] => destruct (Nat.eqb_spec x y) as [E|E] end; [intros _; exact E|discriminate]).
  destruct d as [|? [|? [|? [|? ?]]]]; cbn; try discriminate. reflexivity.
Qed.
Lemma fit_revalued h h' : revalued (lib RN) h h' -> fit h -> fit h'.
Proof.
  intros R F. induction R as [|h1 h2 a v v' d R IH A B C D E]; [exact F|]. intros b. destruct (Nat.eq_dec b a) as [->|n].
  - rewrite C. pose proof (IH a) as Ra. rewrite A in Ra.
    refine (co_inc (lib RN) _ _ (units_coordinates one one_pos) a v v d d v' v' Ra (inc_length _ _ _ B) (inc_length _ _ _ B) _ B B).
    intros c Hc. etransitivity; [|symmetry; exact (stretch_sum one a _ c (fun e => nth e d 0%R) Hc)]. unfold one. symmetry. apply Rmult_1_l.
  - rewrite (E b n). apply IH.
Qed.

(** ** one copy *)
Definition lid (f : lib_factor RN) : Z := match f with
  | LGenericPrior i _ _ _ | LGenericBetween i _ _ _ _ _ | LLinearVelocity i _ _ _ _ _ _ _ | LPositionPrior i _ _ _ | LOrientationPrior i _ _ _ | LRotationPrior i _ _ _
  | LPositionBetween i _ _ _ _ _ | LOrientationBetween i _ _ _ _ | LBearing i _ _ _ _ | LInverseRange i _ _ _ _ | LProjection i _ _ _ _ _ | LBearing2 i _ _ _ _
  | LRangeBearing2 i _ _ _ _ _ _ | LPose2Prior i _ _ _ _ | LPose2Between i _ _ _ _ _ _ | LPlane i _ _ _ _ | LPlanePrior i _ _ _ _ _ | LTransform i _ _ _ _ _ _ => i end.
Lemma reissued_id i j k lf : let f := build (reissued i k lf) in let g := build (reissued j k lf) in
  f_rsize f = f_rsize g /\ f_vars f = f_vars g /\ (forall h, f_res_ref f h = f_res_ref g h) /\ forall h, f_jac f h [] = f_jac g h [].
Proof. destruct lf; cbn [reissued]; (split; [reflexivity|]); (split; [reflexivity|]); split; intros h; reflexivity. Qed.
Lemma reissued_measured k lf : same_measurement one k (build lf) (build (reissued (lid lf) k lf)).
Proof.
  exists lf, (reissued (lid lf) k lf). split; [reflexivity|]. split; [reflexivity|].
  assert (T1 : forall x : v3 RN, times_v3 1 x x) by (intros x; unfold times_v3; rewrite !Rmult_1_l; auto).
  assert (T2 : forall x : list R, times_vec (fun _ => 1%R) x x) by (intros x; apply times_one; reflexivity).
  destruct lf; cbn [reissued lid rescaled_factor]; try (exists 1%R; try exists 1%R); unfold unit_is, one;
    repeat match goal with |- _ /\ _ => split | |- forall _, _ => intros | |- _ = _ => first [reflexivity|rewrite ?Rmult_1_r, ?Rmult_1_l, ?Rinv_1; reflexivity] | _ => first [apply T1|apply T2] end.
Qed.
Definition answered (h : @heap (lvar RN)) (f : factor (N:=RN) (V:=lvar RN)) : Prop := exists x, f_res_ref f h = Ok x.
Lemma copy_scaled i k lf h : (0 < k)%R -> fit h -> let f := build lf in let f' := build (reissued i k lf) in
  f_rsize f' = f_rsize f /\ f_vars f' = f_vars f /\ (answered h f -> answered h f' -> forall j, j < f_rsize f -> resid h f' j = (/ k * resid h f j)%R) /\
  (evaluated h [f; f'] -> forall a j c, j < f_rsize f -> c < width (lib RN) h a -> deriv h f' a j c = (/ k * deriv h f a j c)%R).
Proof.
  intros Hk F f f'. destruct (measurements_scaled one k one_pos Hk _ _ (reissued_measured k lf)) as (A & B & C). fold f in A, B, C.
  destruct (reissued_id i (lid lf) k lf) as (D1 & D2 & D3 & D4). fold f' in D1, D2, D3, D4. rewrite <- D1 in A. rewrite <- D2 in B. destruct (C h h F) as (C1 & C2). clear C.
  split; [exact A|]. split; [exact B|]. split.
  - intros (x & X) (x' & X') j Hj. pose proof X' as X2. rewrite D3 in X2. unfold resid. rewrite X, X'. rewrite (C1 x x' j X X2 Hj). rewrite <- Rmult_assoc, Rinv_l by lra. symmetry. apply Rmult_1_l.
  - intros Ev a j c Hj Hc. destruct (Ev f ltac:(cbn; auto)) as (x & js & X & J). destruct (Ev f' ltac:(cbn; auto)) as (x' & js' & X' & J'). pose proof J' as J2. rewrite D4 in J2. specialize (C2 js js' J J2).
    unfold deriv. rewrite B, J, J'. cbn [fst]. destruct (listed_at a (f_vars f)) as [q|] eqn:Eq; [|rewrite Rmult_0_r; reflexivity].
    destruct (same_deriv _ _ _ _ _ _ _ _ _ C2 Eq) as (M & M' & -> & -> & E). rewrite (E j c Hj Hc). unfold one. rewrite Rmult_1_r, <- Rmult_assoc, Rinv_l by lra. symmetry. apply Rmult_1_l.
Qed.

(** ** sums over repetitions *)
Notation factor := (factor (N:=RN) (V:=lvar RN)).
Lemma lsum_map {A B} (l : list A) (g : A -> B) f : lsum (map g l) f = lsum l (fun a => f (g a)).
Proof. induction l as [|a l IH]; [reflexivity|]. unfold lsum in *. cbn. rewrite IH. reflexivity. Qed.
Lemma lsum_concat {A} (ll : list (list A)) f : lsum (concat ll) f = lsum ll (fun l => lsum l f).
Proof. induction ll as [|l ll IH]; [reflexivity|]. cbn [concat]. rewrite lsum_app, IH. reflexivity. Qed.
Lemma repeated_sum h (f : factor) gs (X : factor -> R) : repeated f gs -> fit h ->
  (forall lf i k, f = build lf -> (0 < k)%R -> In (build (reissued i k lf)) gs -> X (build (reissued i k lf)) = (/ (k * k) * X f)%R) -> lsum gs X = X f.
Proof.
  intros (lf & iks & -> & -> & P & S) F H. rewrite lsum_map.
  rewrite (lsum_ext iks _ (fun ik => X (build lf) * / (snd ik * snd ik))%R).
  - rewrite lsum_scal, S. apply Rmult_1_r.
  - intros [i k] Hik. rewrite Forall_forall in P. rewrite Rmult_comm. cbn [fst snd]. apply (H lf i k eq_refl (P _ Hik)). apply in_map_iff. exists (i, k). auto.
Qed.
Lemma inv_sq k x y : (0 < k)%R -> (/ k * x * (/ k * y) = / (k * k) * (x * y))%R.
Proof. intros H. rewrite Rinv_mult. ring. Qed.
Section Sums.
Context (h0 h : @heap (lvar RN)).
Hypothesis Hflag : forall a v, nth_error h a = Some v -> exists v0, nth_error h0 a = Some v0 /\ l_const v0 = l_const v.
Lemma idle_deriv (f : factor) a i c : idle (lib RN) h0 f -> c < width (lib RN) h a -> deriv h f a i c = 0%R.
Proof.
  intros Id Hc. unfold deriv. destruct (listed_at a (f_vars f)) as [q|] eqn:E; [exfalso|reflexivity].
  assert (Ha : In (Some a) (f_vars f)).
  { revert q E. generalize (f_vars f). induction l as [|[b|] l IH]; cbn; intros q E; [discriminate| |].
    - destruct (Nat.eqb_spec a b) as [->|]; [auto|]. destruct (listed_at a l) as [q'|] eqn:E'; [|discriminate]. right. eapply IH. reflexivity.
    - destruct (listed_at a l) as [q'|] eqn:E'; [|discriminate]. right. eapply IH. reflexivity. }
  unfold width in Hc. destruct (nth_error h a) as [v|] eqn:Ev; [|lia]. destruct (Hflag a v Ev) as (v0 & Ev0 & Ec). pose proof (Id a v0 Ha Ev0) as X. cbn in X, Hc. rewrite <- Ec, X in Hc. lia.
Qed.
Lemma concat_sum gs gss (D : factor -> Prop) (X : factor -> R) : fit h -> (forall f, In f gs -> D f) -> (forall f, In f (concat gss) -> D f) -> Forall2 repeated gs gss ->
  (forall lf i k, (0 < k)%R -> D (build lf) -> D (build (reissued i k lf)) -> X (build (reissued i k lf)) = (/ (k * k) * X (build lf))%R) -> lsum (concat gss) X = lsum gs X.
Proof.
  intros F E E' R H. rewrite lsum_concat. symmetry. apply (lsum_Forall2 repeated gs gss X (fun l => lsum l X) R). intros f l Hf Hl Rf. symmetry. apply (repeated_sum h f l X Rf F).
  intros lf i k -> Hk Hi. apply H; [exact Hk|apply E; exact Hf|apply E'; apply in_concat; eauto].
Qed.
Lemma evaluated_perm (fs fs' : list factor) : Permutation fs fs' -> evaluated h fs -> evaluated h fs'.
Proof. intros P E f Hf. apply E. exact (Permutation_in f (Permutation_sym P) Hf). Qed.
Lemma evaluated_app (fs fs' : list factor) : evaluated h (fs ++ fs') -> evaluated h fs.
Proof. intros E f Hf. apply E. apply in_app_iff. auto. Qed.
Lemma restated_information vs fs fs' : fit h -> restated h0 fs fs' -> evaluated h fs -> evaluated h fs' -> same_information (lib RN) h vs fs fs'.
Proof.
  intros F (gs & gss & rest & rest' & P & P' & Rp & I & I') E E' a c Ha Hc. rewrite Forall_forall in I, I'.
  apply (evaluated_perm _ _ P) in E. apply (evaluated_perm _ _ P') in E'. apply evaluated_app in E. apply evaluated_app in E'.
  assert (Q : forall (l : list factor) (Y : factor -> nat -> R), (forall f, In f l -> idle (lib RN) h0 f) -> lsum l (fun f => rsum (f_rsize f) (fun i => deriv h f a i c * Y f i))%R = 0%R).
  { intros l Y Hl. apply lsum_zero. intros f Hf. apply rsum_zero. intros i _. rewrite (idle_deriv f a i c (Hl f Hf) Hc). apply Rmult_0_l. }
  split; [unfold pull|intros b e Hb He; unfold information]; rewrite (lsum_perm _ _ _ P), (lsum_perm _ _ _ P'), !lsum_app, (Q rest _ I), (Q rest' _ I'), !Rplus_0_r.
  - apply (concat_sum gs gss (fun f => exists x js, f_res_ref f h = Ok x /\ f_jac f h [] = (js, Ok tt))); auto. intros lf i k Hk (x & js & X1 & X2) (x' & js' & X3 & X4). destruct (copy_scaled i k lf h Hk F) as (S1 & S2 & S4 & S5). specialize (S4 (ex_intro _ x X1) (ex_intro _ x' X3)).
    specialize (S5 ltac:(intros g [<-|[<-|[]]]; eauto)). rewrite S1, <- rsum_scal. apply rsum_ext. intros j Hj. rewrite S4, S5 by auto. apply inv_sq. exact Hk.
  - apply (concat_sum gs gss (fun f => exists x js, f_res_ref f h = Ok x /\ f_jac f h [] = (js, Ok tt))); auto. intros lf i k Hk (x & js & X1 & X2) (x' & js' & X3 & X4). destruct (copy_scaled i k lf h Hk F) as (S1 & S2 & S4 & S5). specialize (S4 (ex_intro _ x X1) (ex_intro _ x' X3)).
    specialize (S5 ltac:(intros g [<-|[<-|[]]]; eauto)). rewrite S1, <- rsum_scal. apply rsum_ext. intros j Hj. rewrite !S5 by auto. apply inv_sq. exact Hk.
Qed.
End Sums.
Definition sq (h : @heap (lvar RN)) (fs : list factor) : R := lsum fs (fun f => rsum (f_rsize f) (fun i => resid h f i * resid h f i))%R.
Lemma stacked_sq h fs r : stacked h fs r -> sqnorm (N:=RN) r = sq h fs.
Proof. intros H. exact (parts_sq _ _ _ _ (stacked_parts h fs r H)). Qed.
(** the costs differ by what the idle factors contribute *)
Lemma restated_cost (h0 h : @heap (lvar RN)) fs fs' : fit h0 -> fit h -> restated h0 fs fs' -> (forall f, In f (fs ++ fs') -> reads_only f) ->
  (forall a v, nth_error h0 a = Some v -> l_const v = true -> nth_error h a = Some v) -> length h = length h0 ->
  Forall (answered h0) fs -> Forall (answered h0) fs' -> Forall (answered h) fs -> Forall (answered h) fs' -> (sq h fs' - sq h fs = sq h0 fs' - sq h0 fs)%R.
Proof.
  intros F0 F (gs & gss & rest & rest' & P & P' & Rp & I & I') Rd Hk Hl E0 E0' E E'. rewrite Forall_forall in I, I'.
  assert (K : forall h1 (l l' : list factor), Permutation l l' -> sq h1 l = sq h1 l') by (intros h1 l l' Pl; apply lsum_perm; exact Pl).
  assert (K2 : forall h1 (l l' : list factor), sq h1 (l ++ l') = (sq h1 l + sq h1 l')%R) by (intros h1 l l'; apply lsum_app).
  assert (Z : forall h1 (l m n : list factor), Permutation l (m ++ n) -> Forall (answered h1) l -> forall f, In f m -> answered h1 f).
  { intros h1 l m n Pl Fl f Hf. rewrite Forall_forall in Fl. apply Fl. apply (Permutation_in f (Permutation_sym Pl)). apply in_app_iff. auto. }
  assert (C : forall h1, fit h1 -> Forall (answered h1) fs -> Forall (answered h1) fs' -> sq h1 (concat gss) = sq h1 gs).
  { intros h1 F1 G G'. apply (concat_sum h1 gs gss (answered h1) _ F1 (Z h1 _ _ _ P G) (Z h1 _ _ _ P' G') Rp). intros lf i k Hk' X1 X2. destruct (copy_scaled i k lf h1 Hk' F1) as (S1 & S2 & S4 & _). specialize (S4 X1 X2).
    rewrite S1, <- rsum_scal. apply rsum_ext. intros j Hj. rewrite !S4 by auto. apply inv_sq. exact Hk'. }
  assert (D : forall l, (forall f, In f l -> idle (lib RN) h0 f) -> (forall f, In f l -> reads_only f) -> sq h l = sq h0 l).
  { intros l Il Rl. apply lsum_ext. intros f Hf. apply rsum_ext. intros i _. assert (X : resid h f i = resid h0 f i); [|rewrite X; reflexivity]. unfold resid.
    destruct (Rl f Hf h h0) as (-> & _); [|reflexivity]. intros a Ha. destruct (nth_error h0 a) as [v|] eqn:Ev; [apply Hk; [exact Ev|exact (Il f Hf a v Ha Ev)]|].
    apply nth_error_None in Ev. apply nth_error_None. lia. }
  rewrite (K h fs _ P), (K h0 fs _ P), (K h fs' _ P'), (K h0 fs' _ P'), !K2, (C h F E E'), (C h0 F0 E0 E0').
  rewrite (D rest I), (D rest' I'); [lra| |]; intros f Hf; apply Rd; apply in_app_iff.
  - right. apply (Permutation_in f (Permutation_sym P')). apply in_app_iff. auto.
  - left. apply (Permutation_in f (Permutation_sym P)). apply in_app_iff. auto.
Qed.

Lemma firm_keeps rate vs fs (h h' : @heap (lvar RN)) : firm (lib RN) rate vs fs h h' -> length h' = length h /\ forall a v, nth_error h a = Some v -> l_const v = true -> nth_error h' a = Some v.
Proof. intros (s & s1 & r & J & x & r2 & _ & _ & _ & _ & (U1 & U2 & U3) & _). split; [exact U1|]. intros a v Ev Ec. apply (U3 a v Ev). right. exact Ec. Qed.
Lemma moves_keeps rate vs fs k (h h' : @heap (lvar RN)) : moves (firm (lib RN) rate vs fs) k h h' -> length h' = length h /\ forall a v, nth_error h a = Some v -> l_const v = true -> nth_error h' a = Some v.
Proof. induction 1 as [h|n h1 h2 h3 M (L & K) F]; [auto|]. destruct (firm_keeps _ _ _ _ _ F) as (L' & K'). split; [congruence|]. auto. Qed.
Lemma stacked_answered (h : @heap (lvar RN)) fs r : stacked h fs r -> Forall (answered h) fs.
Proof. intros H. apply Forall_forall. intros f Hf. exact (stacked_res h fs r H f Hf). Qed.

Section Main.
Context {S S' : Type} (SV : solver RN S) (SV' : solver RN S') (EV EV' : nat -> env (N:=RN) (V:=lvar RN)).
Hypothesis HE : forall n, env_ok (EV n).
Hypothesis HE' : forall n, env_ok (EV' n).
Hypothesis HF : factorising_solver SV.
Hypothesis HF' : factorising_solver SV'.
Theorem restated_runs l1 l1' l2 l2' h1 h1' g1 g1' (p p' : pstate (S:=S)) (q q' : pstate (S:=S')) :
  finalized_history (lib RN) l1 l2 h1 (p_heap p) g1 (p_graph p) -> unfinalized (lib RN) ([], empty_graph) l1 -> careful ([], empty_graph) l1 -> careful (h1, g1) l2 ->
  finalized_history (lib RN) l1' l2' h1' (p_heap q) g1' (p_graph q) -> unfinalized (lib RN) ([], empty_graph) l1' -> careful ([], empty_graph) l1' -> careful (h1', g1') l2' ->
  let vs := get_all_variables (p_graph p) in let fs := get_all_factors (p_graph p) in let vs' := get_all_variables (p_graph q) in let fs' := get_all_factors (p_graph q) in
  p_heap p = p_heap q -> Permutation (free (lib RN) (p_heap p) vs) (free (lib RN) (p_heap p) vs') -> restated (p_heap p) fs fs' -> sane_ranges (p_heap p) ->
  Forall (factor_wf (lib RN) (p_heap p) vs) fs -> Forall (factor_wf (lib RN) (p_heap p) vs') fs' -> some_active (lib RN) (p_heap p) fs -> some_active (lib RN) (p_heap p) fs' ->
  st_method (p_set p) = GaussNewton -> st_method (p_set q) = GaussNewton -> st_rate (p_set p) = st_rate (p_set q) ->
  optimize (lib RN) SV EV p = (p', Ok tt) -> optimize (lib RN) SV' EV' q = (q', Ok tt) -> p_caught p' = false -> p_caught q' = false ->
  ss_iter (p_cur p') = ss_iter (p_cur q') ->
  p_heap p' = p_heap q' /\
  (forall r0 r0' r r', stacked (p_heap p) fs r0 -> stacked (p_heap p) fs' r0' -> stacked (p_heap p') fs r -> stacked (p_heap p') fs' r' ->
    sqnorm (N:=RN) r' - sqnorm (N:=RN) r = sqnorm (N:=RN) r0' - sqnorm (N:=RN) r0)%R /\
  (1 <= st_max_iter (p_set p) -> 1 <= st_max_iter (p_set q) -> p_hvalid p = false -> p_hvalid q = false ->
   ~ failure (ss_status (p_cur p')) -> ~ failure (ss_status (p_cur q')) ->
   exists p1 q1, prepare SV p' = (p1, Ok tt) /\ prepare SV' q' = (q1, Ok tt) /\
    forall b, In b vs -> 0 < width (lib RN) (p_heap p) b -> same_answer (snd (estimate_covariance (lib RN) SV (Some b) p1)) (snd (estimate_covariance (lib RN) SV' (Some b) q1))).
Proof.
  intros A B C D A' B' C' D' vs fs vs' fs' Eh HP HR Sr W W' Ac Ac' Hm Hm' Er E E' Hc Hc' Hi.
  destruct (lib_history _ _ _ _ _ _ A C D) as (G1 & G2). destruct (lib_history _ _ _ _ _ _ A' C' D') as (G1' & G2').
  destruct (sound_history _ _ _ _ _ _ A C D) as (Sp & Up). destruct (sound_history _ _ _ _ _ _ A' C' D') as (_ & Uq). cbn [fst snd] in Sp, Up, Uq.
  pose proof (sane_fit _ Sp Sr) as F.
  assert (HI : forall h, revalued (lib RN) (p_heap p) h -> evaluated h fs -> evaluated h fs' -> same_information (lib RN) h vs fs fs').
  { intros h Rv. destruct (revalued_lib _ _ Rv Sp) as (_ & Fl). apply (restated_information (p_heap p) h Fl); [exact (fit_revalued _ _ Rv F)|exact HR]. }
  assert (G3 : shape_contract (lib RN) (p_heap p) fs') by (rewrite Eh; exact G2').
  assert (Lp : limit (st_max_iter (p_set p)) p = p) by (destruct p as [? ? s0 ? ? ? ? ? ? ? ? ? ? ? ? ?]; destruct s0; reflexivity).
  assert (Lq : limit (st_max_iter (p_set q)) q = q) by (destruct q as [? ? s0 ? ? ? ? ? ? ? ? ? ? ? ? ?]; destruct s0; reflexivity).
  pose proof (info_heaps (lib RN) SV SV' EV EV' lib_ok HE HE' HF HF' l1 l1' l2 l2' h1 h1' g1 g1' p q A B A' B' Eh HP HI W W' Ac Ac' G1 G1' G2 G3 Hm Hm' Er (st_max_iter (p_set p)) (st_max_iter (p_set q)) p' q') as IH.
  rewrite Lp, Lq in IH. destruct (IH E E' Hc Hc' Hi) as (Q & Rv). clear IH Lp Lq. split; [exact Q|]. split.
  - intros r0 r0' r r' X0 X0' X X'. rewrite !(stacked_sq _ _ _ X0), !(stacked_sq _ _ _ X0'), !(stacked_sq _ _ _ X), !(stacked_sq _ _ _ X').
    destruct (moves_keeps _ _ _ _ _ _ (gn_firm (lib RN) SV EV lib_ok HE HF l1 l2 h1 g1 p p' A B W Ac G1 G2 Hm E Hc)) as (K1 & K2).
    apply restated_cost; auto; try (eapply stacked_answered; eassumption); [exact (fit_revalued _ _ Rv F)|].
    intros f Hf. apply in_app_iff in Hf. rewrite Forall_forall in Up, Uq. destruct Hf as [Hf|Hf]; [destruct (Up f Hf) as (lf & -> & _)|destruct (Uq f Hf) as (lf & -> & _)]; apply lib_reads_only.
  - intros Hn Hn' Hv Hv' Nf Nf'.
    exact (info_covariances (lib RN) SV SV' EV EV' lib_ok HE HE' HF HF' l1 l1' l2 l2' h1 h1' g1 g1' p q A B A' B' Eh HP HI W W' Ac Ac' G1 G1' G2 G3 Hm Hm' Er p' q' Hn Hn' Hv Hv' E E' Nf Nf' Hi).
Qed.
End Main.
