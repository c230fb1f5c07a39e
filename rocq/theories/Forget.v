(** Gauss-Newton on linear problems from two different starts. *)
From Coq Require Import List Arith ZArith QArith Bool Reals Lra Lia.
From Verif Require Import Base Sparse Graph SpecGraph SpecOpt ListLemmas GraphLayout GraphFin GraphBasic GraphVec Optimizer OptLemmas OptWork OptRun OptMore OptFacts Real RSum SpecSolver SpecSteps OptSteps OptLinear OptOrder OptOrderRun OptVerdict MarginalRun CovRun Info SpecContract Contract ContractRun SpecNearer Change InfoRun ResumeRun.
From Verif Require Import Geom Vars VarsLemmas FactorLib SpecShape FactorSafe OptStepsLib ContractLib.
Import ListNotations.
Local Open Scope nat_scope.
Set Bullet Behavior "Strict Subproofs".

Section Starts.
Context {V : Type} (VC : vclass RN V).
Notation factor := (factor (N:=RN) (V:=V)).
Hypothesis Hok : vclass_ok VC.
Context (h0 : @heap V) (vs : list addr) (fs : list factor) (rate : R).
Hypothesis Nd : NoDup vs.
Hypothesis Hl : Forall (fun a => a < length h0) vs.
Hypothesis W : Forall (factor_wf VC h0 vs) fs.
Hypothesis HL : linear_problem VC h0 vs fs.
Context (J : mat RN) (r0 opt : list R).
Hypothesis HJ : jacobian_at VC h0 vs fs J.
Hypothesis S0 : stacked h0 fs r0.
Hypothesis Hu : forall z, ~ unobservable J z.
Hypothesis Ho : damped_solution 0 J r0 opt.
Notation d := (Contract.d VC h0 vs).

(** where a full step leads does not depend on where it starts *)
Lemma same_goal h (r x : list R) : reassigned VC h0 h vs -> stacked h fs r -> damped_solution 0 J r x -> forall j, j < mcols J -> (d h j + nth j x 0 = nth j opt 0)%R.
Proof.
  intros Ra Hr (D1 & D2). destruct (residual_at VC h0 vs fs Nd W HL h J r0 r Ra HJ S0 Hr) as (_ & _ & _ & Q).
  assert (Nt : forall j, j < mcols J -> nth j (map (fun j => d h j + nth j x 0)%R (seq 0 (mcols J))) 0%R = (d h j + nth j x 0)%R).
  { intros j Hj. apply nth_error_nth. rewrite nth_error_map, nth_error_seq, (proj2 (Nat.ltb_lt _ _) Hj). reflexivity. }
  assert (D : damped_solution 0 J r0 (map (fun j => d h j + nth j x 0)%R (seq 0 (mcols J)))).
  { split; [rewrite map_length, seq_length; reflexivity|]. intros i Hi. rewrite Nt by exact Hi. specialize (D2 i Hi).
    rewrite (rsum_ext _ _ (fun j => rsum (mrows J) (fun k => mat_at J k i * (mat_at J k j * d h j)) + rsum (mrows J) (fun k => mat_at J k i * mat_at J k j) * nth j x 0)%R).
    2: { intros j Hj. rewrite Nt by exact Hj. rewrite Rmult_plus_distr_l. f_equal. rewrite <- rsum_scal_r. apply rsum_ext. intros; ring. }
    rewrite rsum_plus, rsum_swap.
    rewrite (rsum_ext _ (fun k => mat_at J k i * nth k r 0)%R (fun k => mat_at J k i * nth k r0 0 + rsum (mcols J) (fun j => mat_at J k i * (mat_at J k j * d h j)))%R) in D2
      by (intros k Hk; rewrite (Q k Hk), rsum_scal; ring).
    rewrite rsum_plus in D2. lra. }
  intros j Hj. rewrite <- (damped_unique 0 J r0 _ _ (Rle_refl 0) Hu D Ho). symmetry. exact (Nt j Hj).
Qed.
Lemma run_from k : forall b0 b, reach VC h0 vs b0 -> moves (OptPart.firm VC rate vs fs) k b0 b ->
  reach VC h0 vs b /\ forall j, j < mcols J -> (d b j - nth j opt 0 = (1 - rate) ^ k * (d b0 j - nth j opt 0))%R.
Proof.
  induction k; intros b0 b R0 M; inversion M as [|k0 a c e M1 F]; subst; [split; [exact R0|intros; simpl; ring]|].
  destruct (IHk _ _ R0 M1) as (Rc & Q). destruct (step VC Hok h0 vs fs rate Hl HL c b J Rc HJ F) as (r & x & A & _ & D & Rb & E). split; [exact Rb|]. intros j Hj.
  pose proof (same_goal c r x (proj2 Rc) A D j Hj) as G. rewrite (E j Hj). specialize (Q j Hj). simpl.
  replace ((1 - rate) * (1 - rate) ^ k * (d b0 j - nth j opt 0))%R with ((1 - rate) * (d c j - nth j opt 0))%R by (rewrite Q; ring). replace (nth j x 0%R) with (nth j opt 0 - d c j)%R by lra. ring.
Qed.
End Starts.

Section Diff.
Context {V : Type} (VC : vclass RN V).
Hypothesis Hok : vclass_ok VC.
Context (h0 : @heap V) (vs : list addr).
Hypothesis Nd : NoDup vs.
Hypothesis Hl : Forall (fun a => a < length h0) vs.
Lemma reach_reassigned a b : reach VC h0 vs a -> reach VC h0 vs b -> reassigned VC a b vs.
Proof.
  intros (_ & (L1 & A1)) (_ & (L2 & A2)). split; [congruence|]. intros x v Hv.
  assert (La : x < length h0) by (rewrite <- L1; apply nth_error_Some; congruence). destruct (nth_error h0 x) as [u|] eqn:Eu; [|apply nth_error_None in Eu; lia].
  destruct (A1 x u Eu) as (v1 & P1 & P2 & P3 & P4 & P5 & P6). destruct (A2 x u Eu) as (v2 & Q1 & Q2 & Q3 & Q4 & Q5 & Q6). assert (v1 = v) by congruence. subst v1.
  exists v2. split; [exact Q1|]. split; [congruence|]. split; [congruence|]. split; [congruence|]. split.
  - intros H. rewrite P4 in H. rewrite (Q5 H), (P5 H). reflexivity.
  - intros C Ha. rewrite P4 in C. rewrite (Q6 C Ha). congruence.
Qed.
Lemma differences_nth a b j : reach VC h0 vs a -> reach VC h0 vs b -> length (differences VC a b vs) = total_cols VC h0 vs /\
  (j < total_cols VC h0 vs -> nth j (differences VC a b vs) 0%R = (Contract.d VC h0 vs b j - Contract.d VC h0 vs a j)%R).
Proof.
  intros Ra Rb. assert (Ed : differences VC a b vs = diffs VC a b vs) by (unfold differences, diffs; apply flat_map_concat_map). rewrite Ed.
  pose proof (reach_reassigned a b Ra Rb) as Rab. destruct (cols VC Hok h0 vs Hl a Ra) as (Tc & Cs). split; [rewrite (diffs_length VC a b vs Rab); exact Tc|]. intros Hj.
  destruct (index_of VC h0 vs j Hj) as (m & x & v & c & I1 & I2 & I3 & I4 & ->).
  destruct (proj2 (proj2 Ra) x v I2) as (v1 & P1 & P2 & P3 & P4 & _). destruct (proj2 (proj2 Rb) x v I2) as (v2 & Q1 & _).
  rewrite (d_at VC h0 vs b m x v v2 c Rb I1 I2 Q1 I3 I4), (d_at VC h0 vs a m x v v1 c Ra I1 I2 P1 I3 I4). rewrite <- Cs.
  rewrite (diffs_nth VC a b vs m x v1 v2 c Rab I1 P1 Q1); [ring|congruence|lia].
Qed.
End Diff.

Section Run.
Context {V : Type} (VC : vclass RN V) {S S2 : Type} (SV : solver RN S) (SV2 : solver RN S2) (EV EV2 : nat -> env (N:=RN) (V:=V)).
Hypothesis Hok : vclass_ok VC.
Hypothesis HE : forall n, env_ok (EV n).
Hypothesis HE2 : forall n, env_ok (EV2 n).
Hypothesis HF : factorising_solver SV.
Hypothesis HF2 : factorising_solver SV2.

Lemma forgets l1 l2 h1 g1 k1 k2 a1 b1 (p p' : pstate (N:=RN) (V:=V) (S:=S)) (q q' : pstate (N:=RN) (V:=V) (S:=S2)) :
  finalized_history VC l1 l2 h1 (p_heap p) g1 (p_graph p) -> unfinalized VC ([], empty_graph) l1 ->
  finalized_history VC k1 k2 a1 (p_heap q) b1 (p_graph q) -> unfinalized VC ([], empty_graph) k1 ->
  let vs := get_all_variables (p_graph p) in let fs := get_all_factors (p_graph p) in
  get_all_variables (p_graph q) = vs -> get_all_factors (p_graph q) = fs -> revalued VC (p_heap p) (p_heap q) -> reassigned VC (p_heap p) (p_heap q) vs ->
  Forall (factor_wf VC (p_heap p) vs) fs -> some_active VC (p_heap p) fs -> Forall buf_indep fs -> shape_contract VC (p_heap p) fs -> linear_problem VC (p_heap p) vs fs ->
  st_method (p_set p) = GaussNewton -> st_method (p_set q) = GaussNewton -> st_rate (p_set q) = st_rate (p_set p) ->
  optimize VC SV EV p = (p', Ok tt) -> optimize VC SV2 EV2 q = (q', Ok tt) -> p_caught p' = false -> p_caught q' = false ->
  ss_iter (p_cur p') = ss_iter (p_cur q') \/ st_rate (p_set p) = 1%R /\ 0 < ss_iter (p_cur p') /\ 0 < ss_iter (p_cur q') ->
  reach VC (p_heap p) vs (p_heap p') /\ reach VC (p_heap p) vs (p_heap q') /\
  differences VC (p_heap p') (p_heap q') vs = map (Rmult ((1 - st_rate (p_set p)) ^ ss_iter (p_cur p'))) (differences VC (p_heap p) (p_heap q) vs).
Proof.
  intros A B A2 B2 vs fs Ev Ef Rv Ra W Ac Bf Sh L Hm Hm2 Er E E2 Hc Hc2 Hk.
  destruct (finalized_facts VC Hok _ _ _ _ _ _ A) as (_ & Hf & _). assert (Nd : NoDup vs) by exact (vars_nodup VC _ _ Hf).
  pose proof (ri_live _ _ _ (fin_reg _ _ _ Hf)) as Hl.
  pose proof (gn_firm VC SV EV Hok HE HF l1 l2 h1 g1 p p' A B W Ac Bf Sh Hm E Hc) as M. fold vs fs in M.
  assert (M2 : moves (OptPart.firm VC (st_rate (p_set q)) (get_all_variables (p_graph q)) (get_all_factors (p_graph q))) (ss_iter (p_cur q')) (p_heap q) (p_heap q')).
  { apply (gn_firm VC SV2 EV2 Hok HE2 HF2 k1 k2 a1 b1 q q'); rewrite ?Ev, ?Ef; auto.
    - eapply Forall_impl; [|exact W]. intros f. apply (GraphDense.wf_pres VC); [apply (revalued_hpres VC Hok); exact Rv|exact Hl].
    - exact (active_revalued VC Hok _ _ _ Rv Ac).
    - exact (contract_revalued VC _ _ _ Rv Sh). }
  rewrite Ev, Ef, Er in M2.
  assert (R0 : reach VC (p_heap p) vs (p_heap p)) by (apply reach_refl; exact (proj1 (proj2 L _ (revalued_refl VC _)))).
  pose proof (conj Rv Ra : reach VC (p_heap p) vs (p_heap q)) as Rq.
  destruct (stats_gn VC SV EV Hok HE l1 l2 h1 g1 p p' A Hm E Hc) as (r0 & _ & S0 & _). fold fs in S0.
  destruct (ss_iter (p_cur p')) as [|k] eqn:Ek.
  - assert (X : ss_iter (p_cur q') = 0) by lia. rewrite X in M2. assert (X1 : p_heap p' = p_heap p) by (inversion M; congruence). assert (X2 : p_heap q' = p_heap q) by (inversion M2; congruence).
    rewrite X1, X2. split; [exact R0|]. split; [exact Rq|]. simpl. rewrite (map_ext (Rmult 1) (fun x => x)) by (intros; ring). symmetry. apply map_id.
  - destruct (moves_first _ _ _ _ M) as (b & s & s1 & r & J & x & r2 & Hr & HJ & Hu & Hx & _). pose proof (stacked_fun _ _ _ _ Hr S0) as ->.
    destruct (run_from VC Hok (p_heap p) vs fs _ Nd Hl W L J r0 x HJ S0 Hu Hx _ _ _ R0 M) as (Rp & Qp).
    destruct (run_from VC Hok (p_heap p) vs fs _ Nd Hl W L J r0 x HJ S0 Hu Hx _ _ _ Rq M2) as (Rq' & Qq).
    split; [exact Rp|]. split; [exact Rq'|]. pose proof HJ as (jss & _ & (_ & Jc & _)).
    assert (Pw : ((1 - st_rate (p_set p)) ^ ss_iter (p_cur q') = (1 - st_rate (p_set p)) ^ Datatypes.S k)%R).
    { destruct Hk as [Hk|(H1 & _ & H2)]; [rewrite Hk; reflexivity|]. rewrite H1. destruct (ss_iter (p_cur q')) as [|m]; [lia|]. simpl. ring. }
    destruct (differences_nth VC Hok (p_heap p) vs Hl _ _ 0 Rp Rq') as (L1 & _). destruct (differences_nth VC Hok (p_heap p) vs Hl _ _ 0 R0 Rq) as (L2 & _).
    apply (nth_ext _ _ 0%R 0%R); [rewrite map_length; congruence|]. intros j Hj. rewrite L1 in Hj.
    rewrite (proj2 (differences_nth VC Hok (p_heap p) vs Hl _ _ j Rp Rq') Hj).
    replace 0%R with (((1 - st_rate (p_set p)) ^ Datatypes.S k) * 0)%R by ring. rewrite map_nth. rewrite (proj2 (differences_nth VC Hok (p_heap p) vs Hl _ _ j R0 Rq) Hj).
    rewrite <- Jc in Hj. specialize (Qp j Hj). specialize (Qq j Hj). rewrite Pw in Qq. 
    replace (Contract.d VC (p_heap p) vs (p_heap q') j - Contract.d VC (p_heap p) vs (p_heap p') j)%R with
      ((Contract.d VC (p_heap p) vs (p_heap q') j - nth j x 0) - (Contract.d VC (p_heap p) vs (p_heap p') j - nth j x 0))%R by ring. rewrite Qp, Qq. ring.
Qed.
Lemma forgets_any l1 l2 h1 g1 k1 k2 a1 b1 (p p' : pstate (N:=RN) (V:=V) (S:=S)) (q q' : pstate (N:=RN) (V:=V) (S:=S2)) :
  finalized_history VC l1 l2 h1 (p_heap p) g1 (p_graph p) -> unfinalized VC ([], empty_graph) l1 ->
  finalized_history VC k1 k2 a1 (p_heap q) b1 (p_graph q) -> unfinalized VC ([], empty_graph) k1 ->
  let vs := get_all_variables (p_graph p) in let fs := get_all_factors (p_graph p) in
  get_all_variables (p_graph q) = vs -> get_all_factors (p_graph q) = fs -> revalued VC (p_heap p) (p_heap q) -> reassigned VC (p_heap p) (p_heap q) vs ->
  Forall (factor_wf VC (p_heap p) vs) fs -> some_active VC (p_heap p) fs -> Forall buf_indep fs -> shape_contract VC (p_heap p) fs -> linear_problem VC (p_heap p) vs fs ->
  st_method (p_set p) = GaussNewton -> st_method (p_set q) = GaussNewton -> st_rate (p_set q) = st_rate (p_set p) ->
  optimize VC SV EV p = (p', Ok tt) -> optimize VC SV2 EV2 q = (q', Ok tt) -> p_caught p' = false -> p_caught q' = false ->
  ss_iter (p_cur p') = ss_iter (p_cur q') \/ st_rate (p_set p) = 1%R /\ 0 < ss_iter (p_cur p') /\ 0 < ss_iter (p_cur q') ->
  differences VC (p_heap p') (p_heap q') vs = map (Rmult ((1 - st_rate (p_set p)) ^ ss_iter (p_cur p'))) (differences VC (p_heap p) (p_heap q) vs).
Proof.
  intros A B A2 B2 vs fs Ev Ef Rv Ra W Ac Bf Sh L Hm Hm2 Er E E2 Hc Hc2 Hk.
  exact (proj2 (proj2 (forgets l1 l2 h1 g1 k1 k2 a1 b1 p p' q q' A B A2 B2 Ev Ef Rv Ra W Ac Bf Sh L Hm Hm2 Er E E2 Hc Hc2 Hk))).
Qed.
End Run.

(** two assignments to vectors and points that do not differ are the same objects *)
Lemma no_difference (h0 : @heap (lvar RN)) vs fs a b : shapely h0 -> vector_problem h0 vs fs -> NoDup vs -> Forall (fun x => x < length h0) vs -> reach (lib RN) h0 vs a -> reach (lib RN) h0 vs b ->
  (forall j, j < total_cols (lib RN) h0 vs -> nth j (differences (lib RN) a b vs) 0%R = 0%R) -> a = b.
Proof.
  intros Sh (Pv & _) Nd Hl Ra Rb Z. apply heap_eq. intros x.
  destruct (nth_error h0 x) as [u|] eqn:Eu.
  2: { apply nth_error_None in Eu. rewrite !(proj2 (nth_error_None _ _)); [reflexivity| |]; [rewrite (proj1 (proj2 Rb))|rewrite (proj1 (proj2 Ra))]; exact Eu. }
  destruct (proj2 (proj2 Ra) x u Eu) as (v & P1 & P2 & P3 & P4 & P5 & _). destruct (proj2 (proj2 Rb) x u Eu) as (w & Q1 & Q2 & Q3 & Q4 & Q5 & _). rewrite P1, Q1. f_equal.
  destruct (vconst (lib RN) u) eqn:C; [rewrite (P5 (or_introl eq_refl)), (Q5 (or_introl eq_refl)); reflexivity|].
  destruct (in_dec Nat.eq_dec x vs) as [Ix|Nx]; [|rewrite (P5 (or_intror Nx)), (Q5 (or_intror Nx)); reflexivity].
  destruct (In_nth_error _ _ Ix) as (m & Hm).
  assert (En : forall c, c < vsize (lib RN) u -> nth c (vval (lib RN) v) 0%R = nth c (vval (lib RN) w) 0%R).
  { intros c Hc. assert (Hj : col_start (lib RN) h0 vs m + c < total_cols (lib RN) h0 vs).
    { pose proof (col_start_le (lib RN) h0 vs m x Hm) as X. unfold width in X. rewrite Eu, C in X. lia. }
    pose proof (Z _ Hj) as X. rewrite (proj2 (differences_nth (lib RN) lib_ok h0 vs Hl a b _ Ra Rb) Hj) in X.
    rewrite (d_at (lib RN) h0 vs b m x u w c Rb Hm Eu Q1 C Hc), (d_at (lib RN) h0 vs a m x u v c Ra Hm Eu P1 C Hc) in X. lra. }
  destruct (revalued_lib _ _ (proj1 Ra) Sh) as ((Ex & Sa) & _). destruct (revalued_lib _ _ (proj1 Rb) Sh) as ((Ey & Sb) & _).
  destruct (Ex _ _ Eu) as (v1 & V1 & V2). destruct (Ey _ _ Eu) as (w1 & W1 & W2). assert (v1 = v) by congruence. assert (w1 = w) by congruence. subst v1 w1.
  specialize (Sa _ _ P1). specialize (Sb _ _ Q1). specialize (Pv x u Ix Eu C).
  destruct u as [ui uc uk], v as [vi vc vk], w as [wi wc wk]. cbn in *. 
  assert (Kv : kval vk = kval wk -> LVar (N:=RN) vi vc vk = LVar wi wc wk).
  { intros K. destruct uk, vk, wk; cbn in *; try tauto; subst; reflexivity. }
  apply Kv. apply (nth_ext _ _ 0%R 0%R).
  - destruct uk, vk, wk; cbn in *; try tauto; unfold in_shape in *; cbn in *; congruence || lia.
  - intros c Hc. apply En. destruct uk, vk, wk; cbn in *; try tauto; unfold in_shape in *; cbn in *; lia.
Qed.
Lemma forgets_lib {S S2 : Type} (SV : solver RN S) (SV2 : solver RN S2) (EV EV2 : nat -> env (N:=RN) (V:=lvar RN)) (HE : forall n, env_ok (EV n)) (HE2 : forall n, env_ok (EV2 n)) (HF : factorising_solver SV) (HF2 : factorising_solver SV2)
  l1 l2 h1 g1 k1 k2 a1 b1 (p p' : pstate (N:=RN) (V:=lvar RN) (S:=S)) (q q' : pstate (N:=RN) (V:=lvar RN) (S:=S2)) :
  finalized_history (lib RN) l1 l2 h1 (p_heap p) g1 (p_graph p) -> unfinalized (lib RN) ([], empty_graph) l1 -> careful ([], empty_graph) l1 -> careful (h1, g1) l2 ->
  finalized_history (lib RN) k1 k2 a1 (p_heap q) b1 (p_graph q) -> unfinalized (lib RN) ([], empty_graph) k1 ->
  let vs := get_all_variables (p_graph p) in let fs := get_all_factors (p_graph p) in
  get_all_variables (p_graph q) = vs -> get_all_factors (p_graph q) = fs -> revalued (lib RN) (p_heap p) (p_heap q) -> reassigned (lib RN) (p_heap p) (p_heap q) vs ->
  Forall (factor_wf (lib RN) (p_heap p) vs) fs -> some_active (lib RN) (p_heap p) fs -> vector_problem (p_heap p) vs fs ->
  st_method (p_set p) = GaussNewton -> st_method (p_set q) = GaussNewton -> st_rate (p_set q) = st_rate (p_set p) ->
  optimize (lib RN) SV EV p = (p', Ok tt) -> optimize (lib RN) SV2 EV2 q = (q', Ok tt) -> p_caught p' = false -> p_caught q' = false ->
  (ss_iter (p_cur p') = ss_iter (p_cur q') ->
    differences (lib RN) (p_heap p') (p_heap q') vs = map (Rmult ((1 - st_rate (p_set p)) ^ ss_iter (p_cur p'))) (differences (lib RN) (p_heap p) (p_heap q) vs)) /\
  (st_rate (p_set p) = 1%R -> 0 < ss_iter (p_cur p') -> 0 < ss_iter (p_cur q') -> p_heap q' = p_heap p').
Proof.
  intros A B C1 C2 A2 B2 vs fs Ev Ef Rv Ra W Ac Vp Hm Hm2 Er E E2 Hc Hc2. destruct (lib_history _ _ _ _ _ _ A C1 C2) as (G1 & G2). destruct (sound_history _ _ _ _ _ _ A C1 C2) as (Sh & _). cbn [fst] in Sh.
  pose proof (forgets (lib RN) SV SV2 EV EV2 lib_ok HE HE2 HF HF2 l1 l2 h1 g1 k1 k2 a1 b1 p p' q q' A B A2 B2 Ev Ef Rv Ra W Ac G1 G2 (vector_linear _ _ _ Sh W G2 Vp) Hm Hm2 Er E E2 Hc Hc2) as F.
  fold vs fs in F. split; [intros H; exact (proj2 (proj2 (F (or_introl H))))|]. intros R1 H1 H2. destruct (F (or_intror (conj R1 (conj H1 H2)))) as (Rp & Rq & D). symmetry.
  destruct (finalized_facts (lib RN) lib_ok _ _ _ _ _ _ A) as (_ & Hf & _).
  apply (no_difference (p_heap p) vs fs _ _ Sh Vp (vars_nodup (lib RN) _ _ Hf) (ri_live _ _ _ (fin_reg _ _ _ Hf)) Rp Rq). intros j _. rewrite D, R1.
  destruct (ss_iter (p_cur p')) as [|k]; [lia|]. replace ((1 - 1) ^ Datatypes.S k)%R with 0%R by (simpl; ring).
  replace 0%R with (0 * 0)%R at 2 by ring. rewrite map_nth. ring.
Qed.
