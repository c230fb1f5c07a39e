(** Gauss-Newton on a graph and on an unconnected part of it. *)
From Coq Require Import List Arith ZArith QArith Bool Lia Permutation Reals Lra.
From Verif Require Import Base Sparse Graph SpecGraph SpecOpt ListLemmas GraphLayout GraphFin GraphBasic GraphVec GraphDense GraphSparse Optimizer OptLemmas OptWork OptLM OptRun OptMore Real RSum SpecSolver Gram Pivots OptCov OptExact OptLinear SpecSteps OptSteps OptVerdict SpecBlocks OptOrder OptOrderRun SpecPart.
Import ListNotations.
Local Open Scope nat_scope.
Set Bullet Behavior "Strict Subproofs".

Lemma lsum_app {A} (l l' : list A) f : lsum (l ++ l') f = (lsum l f + lsum l' f)%R.
Proof. unfold lsum. induction l as [|a l IH]; cbn; [lra|]. rewrite IH. lra. Qed.
Lemma lsum_zero {A} (l : list A) f : (forall a, In a l -> f a = 0%R) -> lsum l f = 0%R.
Proof. unfold lsum. induction l as [|a l IH]; intros H; cbn; [reflexivity|]. rewrite (H a), IH; [lra| |left; reflexivity]. intros; apply H; right; auto. Qed.
Lemma incl_perm (l : list addr) : forall m, NoDup l -> incl l m -> exists t, Permutation m (l ++ t).
Proof.
  induction l as [|a l IH]; intros m Nd I; [exists m; reflexivity|]. inversion Nd; subst.
  destruct (in_split a m) as (m1 & m2 & ->); [apply I; left; reflexivity|].
  destruct (IH (m1 ++ m2)) as (t & P); auto.
  { intros b Hb. assert (X : In b (m1 ++ a :: m2)) by (apply I; right; auto). apply in_app_iff in X. apply in_app_iff. destruct X as [X|[->|X]]; auto. contradiction. }
  exists t. rewrite <- Permutation_middle. cbn. constructor. exact P.
Qed.
Lemma listed_in a l q : listed_at a l = Some q -> In (Some a) l.
Proof.
  revert q. induction l as [|[b|] l IH]; cbn; intros q H; [discriminate| |].
  - destruct (Nat.eqb_spec a b) as [->|]; [left; reflexivity|]. right. destruct (listed_at a l); [eapply IH; reflexivity|discriminate].
  - right. destruct (listed_at a l); [eapply IH; reflexivity|discriminate].
Qed.

Section Part.
Context {V : Type} (VC : vclass RN V).
Notation factor := (factor (N:=RN) (V:=V)).
(** flags and sizes as in [h0] *)
Definition like (h0 h : @heap V) : Prop :=
  length h = length h0 /\ forall a v, nth_error h0 a = Some v -> exists v', nth_error h a = Some v' /\ vconst VC v' = vconst VC v /\ vsize VC v' = vsize VC v.
Lemma like_refl h : like h h.
Proof. split; auto. intros a v H. exists v. auto. Qed.
Lemma like_width h0 h a : like h0 h -> width VC h a = width VC h0 a.
Proof.
  intros (L & H). unfold width. destruct (nth_error h0 a) as [v|] eqn:E.
  - destruct (H a v E) as (v' & -> & -> & ->). reflexivity.
  - apply nth_error_None in E. rewrite (proj2 (nth_error_None h a)) by lia. reflexivity.
Qed.
Lemma like_updated h0 h h' vs u : vclass_ok VC -> like h0 h -> updated VC h h' vs (fun k v => vinc VC v (u k v)) -> like h0 h'.
Proof.
  intros Hok (L & H) (L' & A & B). split; [congruence|]. intros a v E. destruct (H a v E) as (v1 & E1 & C1 & S1).
  destruct (vconst VC v1) eqn:Ec; [exists v1; rewrite (B a v1 E1) by auto; repeat split; congruence|].
  destruct (in_dec Nat.eq_dec a vs) as [Ha|Ha]; [|exists v1; rewrite (B a v1 E1) by auto; repeat split; congruence].
  apply In_nth_error in Ha. destruct Ha as (k & Hk). destruct (A k a v1 Hk E1 Ec) as (v2 & U & E2). exists v2. split; auto.
  apply (ok_inc VC Hok) in U. destruct U as (_ & U1 & U2). split; congruence.
Qed.

Section Two.
Hypothesis Hok : vclass_ok VC.
Context (h0 : @heap V) (vs vs' : list addr) (fs fs' : list factor) (rate : R).
Hypothesis Nd : NoDup vs.
Hypothesis Nd' : NoDup vs'.
Hypothesis Hpart : part_of_graph VC h0 vs vs' fs fs'.
Hypothesis Hwf' : Forall (factor_wf VC h0 vs') fs'.
Hypothesis Hread : Forall reads_only fs'.
(** the two memories agree on the part and on everything that is not optimised *)
Definition inside (h h' : @heap V) : Prop :=
  forall a v, nth_error h0 a = Some v -> In a vs' \/ ~ In a vs \/ vconst VC v = true -> nth_error h a = nth_error h' a.
Lemma inside_reads h h' f : like h0 h -> like h0 h' -> inside h h' -> In f fs' -> f_res_ref f h = f_res_ref f h' /\ f_jac f h [] = f_jac f h' [].
Proof.
  intros L L' I Hf. rewrite Forall_forall in Hread, Hwf'. apply (Hread f Hf). intros a Ha.
  destruct (Hwf' f Hf) as (_ & W & _). destruct (W (Some a) Ha) as (b & v & Eb & Ev & W1 & _). injection Eb as <-.
  apply (I a v Ev). destruct (vconst VC v) eqn:Ec; [auto|]. left. apply W1. reflexivity.
Qed.
(** the equations of the part *)
Lemma block_part h h' d : like h0 h -> like h0 h' -> inside h h' -> block_solution VC 0 h vs fs d -> block_solution VC 0 h' vs' fs' d.
Proof.
  intros L L' I B a c Ha Hc. destruct Hpart as (Hi & rest & Pf & Hr).
  assert (Hc0 : c < width VC h0 a) by (rewrite <- (like_width _ _ a L'); exact Hc).
  assert (Hch : c < width VC h a) by (rewrite (like_width _ _ a L); exact Hc0).
  specialize (B a c (Hi a Ha) Hch). rewrite (lsum_perm _ _ _ Pf), lsum_app in B.
  rewrite (lsum_zero rest) in B.
  2: { intros f Hf. apply rsum_zero. intros i Hfi. unfold deriv. destruct (listed_at a (f_vars f)) as [q|] eqn:El; [|lra].
       exfalso. apply listed_in in El. unfold width in Hc0. destruct (nth_error h0 a) as [v|] eqn:Ev; [|lia]. rewrite (Hr f a v Hf El Ha Ev) in Hc0. lia. }
  rewrite Rplus_0_r in B. etransitivity; [|exact B]. f_equal. apply lsum_ext. intros f Hf. apply rsum_ext. intros i Hfi.
  destruct (inside_reads h h' f L L' I Hf) as (R1 & R2). unfold deriv, resid. rewrite R1, R2. f_equal. f_equal.
  unfold first_order. destruct (incl_perm vs' vs Nd' Hi) as (t & Pv). rewrite (lsum_perm _ _ _ Pv), lsum_app.
  assert (Z : lsum t (fun b => rsum (width VC h b) (fun c0 => deriv h f b i c0 * d b c0)%R) = 0%R).
  { apply lsum_zero. intros b Hb. apply rsum_zero. intros c0 Hc1. unfold deriv. destruct (listed_at b (f_vars f)) as [q|] eqn:El; [|lra]. exfalso.
    apply listed_in in El. rewrite Forall_forall in Hwf'. destruct (Hwf' f Hf) as (_ & W & _). destruct (W (Some b) El) as (b' & v & Eb & Ev & W1 & _). injection Eb as <-.
    rewrite (like_width _ _ b L) in Hc1. unfold width in Hc1. rewrite Ev in Hc1. destruct (vconst VC v); [lia|]. destruct (W1 eq_refl) as (W2 & _).
    apply (Permutation_NoDup Pv) in Nd. clear - Nd W2 Hb. apply NoDup_app_remove in Nd || idtac.
    induction vs' as [|x l IH]; [destruct W2|]. cbn in Nd. inversion Nd; subst. destruct W2 as [->|W2]; [apply H1; apply in_app_iff; auto|auto]. }
  rewrite Z, Rplus_0_r. apply lsum_ext. intros b Hb. rewrite (like_width _ _ b L), <- (like_width _ _ b L'). apply rsum_ext. intros c0 Hc1. unfold deriv. rewrite R2. reflexivity.
Qed.
Lemma step_part h h' h2 h2' s s2 : like h0 h -> like h0 h' -> inside h h' -> newton_step VC vs fs rate 0 h h2 -> made VC vs' fs' rate h' s h2' s2 ->
  like h0 h2 /\ like h0 h2' /\ inside h2 h2'.
Proof.
  intros L L' I (r & J & x & A1 & A2 & A4 & U) (r' & J' & x' & r2' & B1 & B2 & B3 & B4 & U' & B8 & _).
  split; [exact (like_updated _ _ _ _ (fun k v => slice (N:=RN) (col_start VC h vs k) (vsize VC v) (map (fun y => y * rate)%R x)) Hok L U)|]. split; [exact (like_updated _ _ _ _ (fun k v => slice (N:=RN) (col_start VC h' vs' k) (vsize VC v) (map (fun y => y * rate)%R x')) Hok L' U')|].
  destruct (jacobian_parts VC _ _ _ _ A2) as (_ & C2 & _).
  destruct (parts_of (width VC h) vs Nd x) as (d & D); [rewrite (proj1 A4); exact C2|].
  apply (proj1 (equations VC 0 h vs fs J r x d A2 A1 D)) in A4. apply (block_part h h' d L L' I) in A4.
  destruct (parts_to (width VC h') vs' d) as (y & Dy). apply (proj2 (equations VC 0 h' vs' fs' J' r' y d B2 B1 Dy)) in A4.
  rewrite (damped_unique 0 J' r' y x' (Rle_refl 0) B3 A4 B4) in Dy.
  pose proof (scaled_parts _ _ _ _ rate D) as P. pose proof (scaled_parts _ _ _ _ rate Dy) as P'.
  destruct U as (U1 & U2 & U3). destruct U' as (U1' & U2' & U3'). intros a v0 E0 Ha. pose proof (I a v0 E0 Ha) as Eq.
  destruct (proj2 L a v0 E0) as (v & Ev & Cv & Sv). assert (Ev' : nth_error h' a = Some v) by congruence.
  destruct (vconst VC v) eqn:Ec; [rewrite (U3 a v Ev), (U3' a v Ev') by auto; reflexivity|].
  destruct Ha as [Ha|[Ha|Ha]]; [|rewrite (U3 a v Ev), (U3' a v Ev'); auto; left; intros X; apply Ha; apply Hpart; exact X|congruence].
  pose proof (proj1 Hpart a Ha) as Hv. apply In_nth_error in Ha. apply In_nth_error in Hv. destruct Ha as (k' & Hk'). destruct Hv as (k & Hk).
  destruct (U2 k a v Hk Ev Ec) as (v1 & X1 & ->). destruct (U2' k' a v Hk' Ev' Ec) as (v2 & X2 & ->).
  assert (W : vsize VC v = width VC h a) by (unfold width; rewrite Ev, Ec; reflexivity).
  assert (W' : vsize VC v = width VC h' a) by (unfold width; rewrite Ev', Ec; reflexivity).
  rewrite W in X1. rewrite W' in X2. unfold col_start in X1, X2.
  pose proof (eq_trans (eq_sym (f_equal (vinc VC v) (parts_slice _ _ _ _ k a P Hk))) X1) as Z1.
  pose proof (eq_trans (eq_sym (f_equal (vinc VC v) (parts_slice _ _ _ _ k' a P' Hk'))) X2) as Z2.
  rewrite <- W in Z1. rewrite <- W' in Z2. congruence.
Qed.
Definition firm (vs : list addr) (fs : list factor) (h h' : @heap V) : Prop := exists s s', made VC vs fs rate h s h' s'.
Lemma moves_part k : forall h h', moves (newton_step VC vs fs rate 0) k h0 h -> moves (firm vs' fs') k h0 h' -> like h0 h /\ like h0 h' /\ inside h h'.
Proof.
  induction k; intros h h' M M'; inversion M; inversion M'; subst.
  - split; [apply like_refl|]. split; [apply like_refl|]. intros a v _ _. reflexivity.
  - destruct (IHk _ _ H0 H5) as (L & L' & I). match goal with F : firm _ _ _ _ |- _ => destruct F as (s & s' & F) end. match goal with A : newton_step _ _ _ _ _ _ _, B : made _ _ _ _ _ _ _ _ |- _ => exact (step_part _ _ _ _ _ _ L L' I A B) end.
Qed.
End Two.
End Part.

Section Run.
Context {V : Type} (VC : vclass RN V) {S : Type} (SV : solver RN S).
Notation factor := (factor (N:=RN) (V:=V)).
Notation graph := (graph (N:=RN) (V:=V)).
Notation env := (env (N:=RN) (V:=V)).
Notation op := (op (N:=RN) (V:=V)).
Notation pstate := (pstate (N:=RN) (V:=V) (S:=S)).
Context (EV : nat -> env).
Hypothesis Hok : vclass_ok VC.
Hypothesis HE : forall n, env_ok (EV n).
Hypothesis HF : factorising_solver SV.
Context (l1 : list (env * op)) (h1 : @heap V) (g1 : graph) (h0 : @heap V) (vs : list addr) (fs : list factor).
Hypothesis Hu : unfinalized VC ([], empty_graph) l1.
Hypothesis Hlive : Forall (fun a => a < length h0) vs.
Hypothesis Hwf : Forall (factor_wf VC h0 vs) fs.
Hypothesis Hact : some_active VC h0 fs.
Hypothesis Hbuf : Forall buf_indep fs.
Hypothesis Hshape : shape_contract VC h0 fs.
Notation onrun := (onrun VC l1 h1 g1 h0 vs fs).
Lemma gn_run_firm n : forall p p', onrun (p_heap p) (p_graph p) -> st_method (p_set p) = GaussNewton -> healthy (p_cur p) ->
  opt_loop VC SV EV n p = (p', Ok tt) -> p_caught p' = false ->
  exists k, moves (firm VC (st_rate (p_set p)) vs fs) k (p_heap p) (p_heap p') /\ ss_iter (p_cur p') = ss_iter (p_cur p) + k.
Proof.
  induction n; intros p p' H Hm Hh E Hc; cbn [opt_loop] in E.
  - inversion E; subst. exists 0. split; [constructor|lia].
  - destruct (one_step VC SV EV p) as [p1 [[]|e|u]] eqn:E1; [| |discriminate].
    2: { unfold m_fail, mupd in E. injection E as <-. discriminate. }
    pose proof (frames_one VC SV EV HE _ _ _ E1) as (_ & F1 & _ & _ & _ & _ & _ & F2).
    pose proof (hf_one VC SV EV _ _ _ E1 Hh) as H1. unfold one_step in E1. rewrite Hm in E1.
    destruct H1 as [H1|H1].
    + assert (NF : ~ failure (ss_status (p_cur p1))) by (apply not_fail; auto).
      destruct (gn_made VC SV EV Hok HE HF l1 h1 g1 h0 vs fs Hu Hlive Hwf Hact Hbuf Hshape p p1 H Hh E1 NF) as (St & On). pose proof (gn_iter VC SV EV _ _ E1 H1) as Hi.
      assert (Stop : p_heap p' = p_heap p1 -> ss_iter (p_cur p') = ss_iter (p_cur p1) ->
        exists k, moves (firm VC (st_rate (p_set p)) vs fs) k (p_heap p) (p_heap p') /\ ss_iter (p_cur p') = ss_iter (p_cur p) + k).
      { intros A B. exists 1. rewrite A, B, Hi. split; [apply moves_one; eexists _, _; exact St|lia]. }
      assert (Go : opt_loop VC SV EV n p1 = (p', Ok tt) ->
        exists k, moves (firm VC (st_rate (p_set p)) vs fs) k (p_heap p) (p_heap p') /\ ss_iter (p_cur p') = ss_iter (p_cur p) + k).
      { intros E2. destruct (IHn p1 p') as (k & A & C); auto; [congruence|]. exists (1 + k). rewrite F1 in A. split.
        - eapply moves_app; [apply moves_one; eexists _, _; exact St|exact A].
        - rewrite C, Hi. lia. }
      destruct (ss_status (p_cur p1)); try (inversion E; subst; apply Stop; reflexivity);
      repeat match type of E with (if ?b then _ else _) = _ => destruct b end; try (apply Go; exact E); inversion E; subst; apply Stop; reflexivity.
    + destruct H1 as (_ & H1). destruct (gn_failed VC SV EV _ _ E1 Hh H1) as (A & B & _).
      assert (p' = p1) by (destruct H1 as [X|[X|X]]; rewrite X in E; inversion E; auto). subst p'.
      exists 0. rewrite A, B. split; [constructor|lia].
Qed.
End Run.

Section Main.
Context {V : Type} (VC : vclass RN V) {S S' : Type} (SV : solver RN S) (SV' : solver RN S').
Context (EV EV' : nat -> env (N:=RN) (V:=V)).
Hypothesis Hok : vclass_ok VC.
Hypothesis HE : forall n, env_ok (EV n).
Hypothesis HE' : forall n, env_ok (EV' n).
Hypothesis HX : exact_solver SV.
Hypothesis HF' : factorising_solver SV'.
Theorem part_inside l1 l1' l2 l2' h1 h1' g1 g1' (p p' : pstate (S:=S)) (q q' : pstate (S:=S')) :
  finalized_history VC l1 l2 h1 (p_heap p) g1 (p_graph p) -> unfinalized VC ([], empty_graph) l1 ->
  finalized_history VC l1' l2' h1' (p_heap q) g1' (p_graph q) -> unfinalized VC ([], empty_graph) l1' ->
  let vs := get_all_variables (p_graph p) in let fs := get_all_factors (p_graph p) in
  let vs' := get_all_variables (p_graph q) in let fs' := get_all_factors (p_graph q) in
  p_heap p = p_heap q -> part_of_graph VC (p_heap p) vs vs' fs fs' ->
  Forall (factor_wf VC (p_heap p) vs) fs -> Forall (factor_wf VC (p_heap p) vs') fs' -> some_active VC (p_heap p) fs' ->
  Forall buf_indep fs -> shape_contract VC (p_heap p) fs -> Forall reads_only fs' ->
  st_method (p_set p) = GaussNewton -> st_method (p_set q) = GaussNewton -> st_rate (p_set p) = st_rate (p_set q) ->
  optimize VC SV EV p = (p', Ok tt) -> optimize VC SV' EV' q = (q', Ok tt) -> p_caught p' = false -> p_caught q' = false ->
  ss_iter (p_cur p') = ss_iter (p_cur q') ->
  like VC (p_heap p) (p_heap p') /\ like VC (p_heap p) (p_heap q') /\ inside VC (p_heap p) vs vs' (p_heap p') (p_heap q').
Proof.
  intros HFp Hu HFq Hu' vs fs vs' fs' Eh Hpart Hwf Hwf' Hact' Hbuf Hsh Hread Hm Hm' Er E E' Hc Hc' Hi.
  assert (If : forall f, In f fs' -> In f fs) by (intros f Hf; destruct Hpart as (_ & rest & P & _); eapply Permutation_in; [apply Permutation_sym; exact P|apply in_app_iff; auto]).
  assert (Hact : some_active VC (p_heap p) fs) by (destruct Hact' as (f & b & v & X & Y); exists f, b, v; auto).
  assert (Hbuf' : Forall buf_indep fs') by (rewrite Forall_forall in *; auto).
  assert (Hsh' : shape_contract VC (p_heap q) fs') by (rewrite <- Eh; intros h f js X Y; apply Hsh; auto).
  destruct (finalized_facts VC Hok _ _ _ _ _ _ HFp) as (_ & Fp & _). destruct (finalized_facts VC Hok _ _ _ _ _ _ HFq) as (_ & Fq & _).
  pose proof (vars_nodup VC _ _ Fp) as Nd. pose proof (vars_nodup VC _ _ Fq) as Nd'.
  destruct (gn_path VC SV EV Hok HE l1 l2 h1 g1 p p' HX HFp Hu Hwf Hact Hbuf Hsh Hm E) as (k & h & M & Q & K). specialize (K Hc).
  destruct Q as [Q|(Q & _)]; [|congruence]. subst h.
  pose proof HFq as HFq0. apply optimize_ok in E'. destruct E' as (Hg' & g' & r0' & q2 & Cr' & L' & ->).
  destruct (begun_on VC EV' Hok HE' _ _ _ _ q g' r0' HFq Cr') as (On' & Hl').
  assert (X : p_heap (end_run q2) = p_heap q2 /\ p_caught (end_run q2) = p_caught q2 /\ ss_iter (p_cur (end_run q2)) = ss_iter (p_cur q2)).
  { unfold end_run. destruct (ss_status (p_cur q2)); auto. }
  destruct X as (X1 & X2 & X3). rewrite X1. rewrite X2 in Hc'. rewrite X3 in Hi. rewrite Eh in Hwf', Hact'.
  destruct (gn_run_firm VC SV' EV' Hok HE' HF' l1' h1' g1' (p_heap q) vs' fs' Hu' Hl' Hwf' Hact' Hbuf' Hsh' (st_max_iter (p_set q)) (begin_run g' r0' q) q2) as (k' & M' & K'); auto.
  { split; cbn; auto. }
  cbn in M', K'. assert (Ek : k' = k) by lia. rewrite Ek in M'. clear Ek K'. rewrite <- Eh in M'. rewrite <- Eh in Hwf'.
  cbn in M'. rewrite <- Er in M'.
  exact (moves_part VC Hok (p_heap p) vs vs' fs fs' (st_rate (p_set p)) Nd Nd' Hpart Hwf' Hread k _ _ M M').
Qed.
Theorem part_alone l1 l1' l2 l2' h1 h1' g1 g1' (p p' : pstate (S:=S)) (q q' : pstate (S:=S')) :
  finalized_history VC l1 l2 h1 (p_heap p) g1 (p_graph p) -> unfinalized VC ([], empty_graph) l1 ->
  finalized_history VC l1' l2' h1' (p_heap q) g1' (p_graph q) -> unfinalized VC ([], empty_graph) l1' ->
  let vs := get_all_variables (p_graph p) in let fs := get_all_factors (p_graph p) in
  let vs' := get_all_variables (p_graph q) in let fs' := get_all_factors (p_graph q) in
  p_heap p = p_heap q -> part_of_graph VC (p_heap p) vs vs' fs fs' ->
  Forall (factor_wf VC (p_heap p) vs) fs -> Forall (factor_wf VC (p_heap p) vs') fs' -> some_active VC (p_heap p) fs' ->
  Forall buf_indep fs -> shape_contract VC (p_heap p) fs -> Forall reads_only fs' ->
  st_method (p_set p) = GaussNewton -> st_method (p_set q) = GaussNewton -> st_rate (p_set p) = st_rate (p_set q) ->
  optimize VC SV EV p = (p', Ok tt) -> optimize VC SV' EV' q = (q', Ok tt) -> p_caught p' = false -> p_caught q' = false ->
  ss_iter (p_cur p') = ss_iter (p_cur q') ->
  forall a, In a vs' -> nth_error (p_heap p') a = nth_error (p_heap q') a.
Proof.
  intros HFp Hu HFq Hu' vs fs vs' fs' Eh Hpart Hwf Hwf' Hact' Hbuf Hsh Hread Hm Hm' Er E E' Hc Hc' Hi a Ha.
  destruct (part_inside l1 l1' l2 l2' h1 h1' g1 g1' p p' q q' HFp Hu HFq Hu' Eh Hpart Hwf Hwf' Hact' Hbuf Hsh Hread Hm Hm' Er E E' Hc Hc' Hi) as (_ & _ & I).
  destruct (nth_error (p_heap p) a) as [v|] eqn:Ev; [eapply I; eauto|].
  exfalso. destruct (finalized_facts VC Hok _ _ _ _ _ _ HFq) as (_ & Fq & _). pose proof (ri_live _ _ _ (fin_reg _ _ _ Fq)) as Hl'. rewrite Forall_forall in Hl'. specialize (Hl' a Ha). apply nth_error_None in Ev. rewrite Eh in Ev. lia.
Qed.
End Main.
