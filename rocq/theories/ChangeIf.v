(** Gauss-Newton runs in two systems of coordinates that correspond only as long as all increments are usual. *)
From Coq Require Import List Arith ZArith QArith Bool Lia Permutation Reals Lra.
From Verif Require Import Base Sparse Graph SpecGraph SpecOpt ListLemmas GraphLayout GraphFin GraphBasic GraphVec GraphDense GraphSparse Optimizer OptLemmas OptWork OptLM OptRun OptMore Real RSum SpecSolver Gram Pivots OptCov OptExact OptLinear SpecSteps OptSteps OptVerdict SpecBlocks OptOrder OptOrderRun OptPart SpecTwin SpecChange Change SpecSpace.
Import ListNotations.
Local Open Scope nat_scope.
Set Bullet Behavior "Strict Subproofs".

Section Usual.
Context {V : Type} (VC : vclass RN V) (usual : V -> list R -> Prop).
(** as [coordinates], but related states need only be reached by usual increments *)
Record coordinates_if (RV : addr -> V -> V -> Prop) (T : addr -> nat -> nat -> R) : Prop := CoordinatesIf {
  ci_same : forall a v v', RV a v v' -> vsize VC v' = vsize VC v /\ vconst VC v' = vconst VC v;
  ci_inverse : exists Ti : addr -> nat -> nat -> R, forall a v v' c c', RV a v v' -> c < vsize VC v -> c' < vsize VC v ->
    rsum (vsize VC v) (fun e => T a c e * Ti a e c')%R = if c =? c' then 1%R else 0%R;
  ci_inc : forall a v v' x x' w w', RV a v v' -> length x = vsize VC v -> length x' = vsize VC v ->
    (forall c, c < vsize VC v -> nth c x' 0%R = rsum (vsize VC v) (fun e => T a c e * nth e x 0)%R) -> usual v x -> usual v' x' ->
    vinc VC v x = Ok w -> vinc VC v' x' = Ok w' -> RV a w w'
}.
End Usual.

Lemma moves_weaken {V} (VC : vclass RN V) rate vs fs k : forall h h', moves (firm VC rate vs fs) k h h' -> moves (newton_step VC vs fs rate 0) k h h'.
Proof.
  induction k; intros h h' M; inversion M; subst; [constructor|]. econstructor; [apply IHk; eassumption|]. destruct H1 as (s & s' & r & J & x & r2 & A1 & A2 & A3 & A4 & A5 & _). exists r, J, x. auto.
Qed.

Section Steps.
Context {V : Type} (VC : vclass RN V) (usual : V -> list R -> Prop).
Notation factor := (factor (N:=RN) (V:=V)).
Context (RV : addr -> V -> V -> Prop) (T : addr -> nat -> nat -> R) (mu rate : R) (vs : list addr) (fs fs' : list factor).
Hypothesis HC : coordinates_if VC usual RV T.
Hypothesis Nd : NoDup vs.
Hypothesis HF : forall h h', heaps RV h h' -> Forall2 (changed VC T mu h h' vs) fs fs'.

Lemma heaps_width h h' a : heaps RV h h' -> width VC h' a = width VC h a.
Proof.
  intros H. specialize (H a). unfold width. destruct (nth_error h a) as [v|], (nth_error h' a) as [v'|]; try contradiction; auto.
  destruct (ci_same VC usual RV T HC _ _ _ H) as (-> & ->). reflexivity.
Qed.
Lemma heaps_length h h' : heaps RV h h' -> length h' = length h.
Proof.
  intros H. destruct (Nat.lt_trichotomy (length h) (length h')) as [L|[L|L]]; auto; exfalso.
  - specialize (H (length h)). rewrite (proj2 (nth_error_None h (length h))) in H by lia. destruct (nth_error h' (length h)) eqn:E; auto. apply nth_error_None in E. lia.
  - specialize (H (length h')). rewrite (proj2 (nth_error_None h' (length h'))) in H by lia. destruct (nth_error h (length h')) eqn:E; auto. apply nth_error_None in E. lia.
Qed.
Lemma step_changed h h' h2 h2' s s2 : heaps RV h h' -> usual_step VC usual vs fs rate h -> usual_step VC usual vs fs' rate h' -> newton_step VC vs fs rate 0 h h2 -> made VC vs fs' rate h' s h2' s2 -> heaps RV h2 h2'.
Proof.
  intros H Hu Hu' (r & J & x & A1 & A2 & A4 & U) (r' & J' & x' & r2' & B1 & B2 & B3 & B4 & U' & _).
  destruct (jacobian_parts VC _ _ _ _ A2) as (_ & C2 & _).
  destruct (parts_of (width VC h) vs Nd x) as (d & D); [rewrite (proj1 A4); exact C2|].
  pose proof (Hu r J x A1 A2 A4) as Hx. pose proof (Hu' r' J' x' B1 B2 B4) as Hx'.
  apply (proj1 (equations VC 0 h vs fs J r x d A2 A1 D)) in A4. destruct (ci_inverse VC usual RV T HC) as (Ti & HT).
  apply (block_changed VC T Ti mu h h' vs fs fs' d) in A4; [|intros; apply heaps_width; exact H| |exact (HF h h' H)|exact (evaluated_at VC _ _ _ _ _ A1 A2)|exact (evaluated_at VC _ _ _ _ _ B1 B2)].
  2: { intros a c c' Ha. pose proof (H a) as Ra. unfold width. destruct (nth_error h a) as [v|] eqn:Ev; [|intros; lia]. destruct (nth_error h' a) as [v'|]; [|contradiction].
       destruct (vconst VC v); [intros; lia|]. intros Hc Hc'. exact (HT a v v' c c' Ra Hc Hc'). }
  destruct (parts_to (width VC h') vs (turned_by VC T h d)) as (y & Dy). apply (proj2 (equations VC 0 h' vs fs' J' r' y _ B2 B1 Dy)) in A4.
  rewrite (damped_unique 0 J' r' y x' (Rle_refl 0) B3 A4 B4) in Dy.
  pose proof (scaled_parts _ _ _ _ rate D) as P. pose proof (scaled_parts _ _ _ _ rate Dy) as P'.
  destruct U as (U1 & U2 & U3). destruct U' as (U1' & U2' & U3'). intros a. pose proof (H a) as Ra.
  destruct (nth_error h a) as [v|] eqn:Ev, (nth_error h' a) as [v'|] eqn:Ev'; try contradiction.
  2: { apply nth_error_None in Ev. apply nth_error_None in Ev'. rewrite (proj2 (nth_error_None h2 a)), (proj2 (nth_error_None h2' a)) by lia. exact I. }
  destruct (ci_same VC usual RV T HC _ _ _ Ra) as (Es & Ec'). destruct (vconst VC v) eqn:Ec.
  { rewrite (U3 a v Ev), (U3' a v' Ev') by auto. exact Ra. }
  destruct (in_dec Nat.eq_dec a vs) as [Ha|Ha]; [|rewrite (U3 a v Ev), (U3' a v' Ev') by auto; exact Ra].
  apply In_nth_error in Ha. destruct Ha as (k & Hk).
  destruct (U2 k a v Hk Ev Ec) as (v1 & X1 & ->). destruct (U2' k a v' Hk Ev' Ec') as (v2 & X2 & ->).
  assert (W : vsize VC v = width VC h a) by (unfold width; rewrite Ev, Ec; reflexivity).
  assert (W' : vsize VC v' = width VC h' a) by (unfold width; rewrite Ev', Ec'; reflexivity).
  specialize (Hx k a v Hk Ev Ec). specialize (Hx' k a v' Hk Ev' Ec').
  rewrite W in X1, Hx. rewrite W' in X2, Hx'. unfold col_start in X1, X2, Hx, Hx'.
  pose proof (eq_ind _ (usual v) Hx _ (parts_slice _ _ _ _ k a P Hk)) as Y1. pose proof (eq_ind _ (usual v') Hx' _ (parts_slice _ _ _ _ k a P' Hk)) as Y2.
  pose proof (eq_trans (eq_sym (f_equal (vinc VC v) (parts_slice _ _ _ _ k a P Hk))) X1) as Z1.
  pose proof (eq_trans (eq_sym (f_equal (vinc VC v') (parts_slice _ _ _ _ k a P' Hk))) X2) as Z2.
  assert (L : forall (g : nat -> R) n c, c < n -> nth c (map g (seq 0 n)) 0%R = g c).
  { intros g n c Hc. rewrite (nth_indep _ 0%R (g 0)) by (rewrite map_length, seq_length; exact Hc). rewrite map_nth, seq_nth by exact Hc. reflexivity. }
  refine (ci_inc VC usual RV T HC a v v' _ _ v1 v2 Ra _ _ _ Y1 Y2 Z1 Z2); [rewrite map_length, seq_length; congruence..|].
  intros c Hc. change (car RN) with R in *. rewrite L by (rewrite <- W', Es; exact Hc). unfold turned_by. rewrite <- rsum_scal_r, <- W. apply rsum_ext. intros e He. rewrite L by lia.
  match goal with |- ?a = ?b => change (@eq R a b) end. ring.
Qed.
Lemma moves_changed k : forall h0 h0' h h', heaps RV h0 h0' ->
  (forall j h1, j < k -> moves (newton_step VC vs fs rate 0) j h0 h1 -> usual_step VC usual vs fs rate h1) -> (forall j h1, j < k -> moves (newton_step VC vs fs' rate 0) j h0' h1 -> usual_step VC usual vs fs' rate h1) ->
  moves (newton_step VC vs fs rate 0) k h0 h -> moves (firm VC rate vs fs') k h0' h' -> heaps RV h h'.
Proof.
  induction k; intros h0 h0' h h' H Hu Hu' M M'; inversion M; inversion M'; subst; [exact H|].
  match goal with F : firm _ _ _ _ _ _ |- _ => destruct F as (s & s' & F) end.
  match goal with A : newton_step _ _ _ _ _ _ _, B : made _ _ _ _ _ _ _ _ |- _ => refine (step_changed _ _ _ _ _ _ _ _ _ A B) end; [eapply IHk; eauto|eapply Hu; eauto|].
  eapply Hu'; [|apply (moves_weaken VC); eassumption]. lia.
Qed.
End Steps.

Section Main.
Context {V : Type} (VC : vclass RN V) {S S' : Type} (SV : solver RN S) (SV' : solver RN S').
Context (EV EV' : nat -> env (N:=RN) (V:=V)).
Hypothesis Hok : vclass_ok VC.
Hypothesis HE : forall n, env_ok (EV n).
Hypothesis HE' : forall n, env_ok (EV' n).
Hypothesis HX : exact_solver SV.
Hypothesis HF' : factorising_solver SV'.
Theorem other_coordinates_if (usual : V -> list R -> Prop) (RV : addr -> V -> V -> Prop) (T : addr -> nat -> nat -> R) (mu : R) l1 l1' l2 l2' h1 h1' g1 g1' (p p' : pstate (S:=S)) (q q' : pstate (S:=S')) :
  finalized_history VC l1 l2 h1 (p_heap p) g1 (p_graph p) -> unfinalized VC ([], empty_graph) l1 ->
  finalized_history VC l1' l2' h1' (p_heap q) g1' (p_graph q) -> unfinalized VC ([], empty_graph) l1' ->
  let vs := get_all_variables (p_graph p) in let fs := get_all_factors (p_graph p) in let fs' := get_all_factors (p_graph q) in
  coordinates_if VC usual RV T -> heaps RV (p_heap p) (p_heap q) -> get_all_variables (p_graph q) = vs ->
  (forall h h', heaps RV h h' -> Forall2 (changed VC T mu h h' vs) fs fs') ->
  Forall (factor_wf VC (p_heap p) vs) fs -> Forall (factor_wf VC (p_heap q) vs) fs' -> some_active VC (p_heap p) fs -> some_active VC (p_heap q) fs' ->
  Forall buf_indep fs -> Forall buf_indep fs' -> shape_contract VC (p_heap p) fs -> shape_contract VC (p_heap q) fs' ->
  st_method (p_set p) = GaussNewton -> st_method (p_set q) = GaussNewton -> st_rate (p_set p) = st_rate (p_set q) ->
  optimize VC SV EV p = (p', Ok tt) -> optimize VC SV' EV' q = (q', Ok tt) -> p_caught p' = false -> p_caught q' = false ->
  ss_iter (p_cur p') = ss_iter (p_cur q') ->
  usual_steps VC usual vs fs (st_rate (p_set p)) (ss_iter (p_cur p')) (p_heap p) -> usual_steps VC usual vs fs' (st_rate (p_set p)) (ss_iter (p_cur p')) (p_heap q) ->
  heaps RV (p_heap p') (p_heap q') /\
  forall r r', stacked (p_heap p') fs r -> stacked (p_heap q') fs' r' -> sqnorm (N:=RN) r' = (mu * sqnorm (N:=RN) r)%R.
Proof.
  intros HFp Hu HFq Hu' vs fs fs' HC Hh Evs HF Hwf Hwf' Hact Hact' Hbuf Hbuf' Hsh Hsh' Hm Hm' Er E E' Hc Hc' Hi U U'.
  cut (heaps RV (p_heap p') (p_heap q')); [intros X; split; [exact X|]; intros r r' A B; exact (cost_changed VC T mu _ _ _ _ _ _ _ (HF _ _ X) A B)|].
  destruct (finalized_facts VC Hok _ _ _ _ _ _ HFp) as (_ & Fp & _). pose proof (vars_nodup VC _ _ Fp) as Nd.
  destruct (gn_path VC SV EV Hok HE l1 l2 h1 g1 p p' HX HFp Hu Hwf Hact Hbuf Hsh Hm E) as (k & h & M & Q & K). specialize (K Hc).
  destruct Q as [Q|(Q & _)]; [|congruence]. subst h.
  pose proof HFq as HFq0. apply optimize_ok in E'. destruct E' as (Hg' & g' & r0' & q2 & Cr' & L' & ->).
  destruct (begun_on VC EV' Hok HE' _ _ _ _ q g' r0' HFq Cr') as (On' & Hl').
  assert (X : p_heap (end_run q2) = p_heap q2 /\ p_caught (end_run q2) = p_caught q2 /\ ss_iter (p_cur (end_run q2)) = ss_iter (p_cur q2)).
  { unfold end_run. destruct (ss_status (p_cur q2)); auto. }
  destruct X as (X1 & X2 & X3). rewrite X1. rewrite X2 in Hc'. rewrite X3 in Hi. rewrite Evs in On', Hl'.
  destruct (gn_run_firm VC SV' EV' Hok HE' HF' l1' h1' g1' (p_heap q) vs fs' Hu' Hl' Hwf' Hact' Hbuf' Hsh' (st_max_iter (p_set q)) (begin_run g' r0' q) q2) as (k' & M' & K'); auto.
  { split; cbn; auto. }
  cbn in M', K'. assert (Ek : k' = k) by lia. rewrite Ek in M'. clear Ek K'. cbn in M'. rewrite <- Er in M'.
  rewrite K in U, U'.
  exact (moves_changed VC usual RV T mu (st_rate (p_set p)) vs fs fs' HC Nd HF k _ _ _ _ Hh U U' M M').
Qed.
End Main.
