(** Steps of the optimisers in exact arithmetic: every increment solves the (damped) normal equations. *)
From Coq Require Import List Arith ZArith QArith Bool Lia Permutation Reals Lra.
From Verif Require Import Base Sparse Graph SpecGraph SpecOpt ListLemmas GraphLayout GraphFin GraphBasic GraphVec GraphDense GraphSparse Optimizer OptLemmas OptWork OptLM OptRun OptMore Real RSum SpecSolver Gram Pivots OptCov OptExact OptLinear SpecSteps.
Import ListNotations.
Local Open Scope nat_scope.

Lemma moves_app {A} (step : A -> A -> Prop) n m a b c : moves step n a b -> moves step m b c -> moves step (n + m) a c.
Proof.
  intros H1 H2. induction H2; [rewrite Nat.add_0_r; auto|]. rewrite Nat.add_succ_r. econstructor; eauto.
Qed.
Lemma moves_one {A} (step : A -> A -> Prop) a b : step a b -> moves step 1 a b.
Proof. intros H. econstructor; [constructor|auto]. Qed.

Section Steps.
Context {V : Type} (VC : vclass RN V).
Notation factor := (factor (N:=RN) (V:=V)).
Notation graph := (graph (N:=RN) (V:=V)).
Hypothesis Hok : vclass_ok VC.

(** ** heaps with other values *)
Lemma revalued_refl h : revalued VC h h.
Proof. constructor. Qed.
Lemma revalued_trans h1 h2 h3 : revalued VC h1 h2 -> revalued VC h2 h3 -> revalued VC h1 h3.
Proof. intros A B. induction B; [auto|eapply rv_moved; eauto]. Qed.
Lemma revalued_hpres h h' : revalued VC h h' -> hpres VC true h h'.
Proof.
  intros R. induction R as [|h1 h2 a v v' d R IH A B C D E]; [apply hpres_refl|]. eapply hpres_trans; [exact IH|].
  intros b w Hb. destruct (Nat.eq_dec b a) as [->|n].
  - exists v'. split; auto. assert (w = v) as -> by congruence. pose proof (ok_inc _ Hok _ _ _ B) as (I1 & I2 & I3). unfold same_obj. auto.
  - exists w. rewrite (E b n). unfold same_obj. auto.
Qed.
Lemma inc_revalued ck h (g : graph) vs dx h' r : inc_loop VC ck h g vs dx = (h', r) -> revalued VC h h'.
Proof.
  revert h. induction vs as [|a t IH]; simpl; intros h E; [inversion E; subst; constructor|].
  unfold hget in E. destruct (nth_error h a) as [v|] eqn:Ha; [|inversion E; subst; constructor].
  destruct (vconst VC v) eqn:C; [eauto|].
  destruct (variable_placement g _) as [p|]; [|eauto].
  destruct (ck && _); [inversion E; subst; constructor|].
  destruct (segment _ _ dx) as [s| |] eqn:G; try (inversion E; subst; constructor).
  unfold hupd, hget in E. rewrite Ha in E. destruct (vinc VC v s) as [v'|e|u] eqn:Ei; try (inversion E; subst; constructor).
  eapply revalued_trans; [|eapply IH; exact E].
  eapply rv_moved; [constructor|exact Ha|exact Ei| | |].
  - apply lupd_nth_same. apply nth_error_Some. congruence.
  - apply lupd_length.
  - intros b Hb. apply lupd_nth_other. auto.
Qed.
Lemma contract_revalued h h' fs : revalued VC h h' -> shape_contract VC h fs -> shape_contract VC h' fs.
Proof. intros R C h2 f js R2. apply C. eapply revalued_trans; eauto. Qed.
Lemma active_revalued h h' (fs : list factor) : revalued VC h h' -> some_active VC h fs -> some_active VC h' fs.
Proof.
  intros R (f & a & v & A & B & C & D). destruct (revalued_hpres _ _ R a v C) as (v' & E & _ & _ & F). specialize (F eq_refl). exists f, a, v'. repeat split; auto. congruence.
Qed.

(** ** the increment loop backwards *)
Lemma inc_loop_inv ck h0 h (g : graph) pre vs (dx : list RN) h' :
  fin VC h0 g -> get_all_variables g = pre ++ vs -> length dx = num_values g -> hpres VC true h0 h ->
  inc_loop VC ck h g vs dx = (h', Ok tt) ->
  forall k a v, nth_error vs k = Some a -> nth_error h a = Some v -> vconst VC v = false ->
     exists v', vinc VC v (slice (col_start VC h0 (pre ++ vs) (length pre + k)) (vsize VC v) dx) = Ok v'.
Proof.
  intros Hf. revert h pre. induction vs as [|a t IH]; intros h pre Hvs Hdx Hp E k b w Hk Hb C; [destruct k; discriminate|].
  assert (Hin : In a (get_all_variables g)) by (rewrite Hvs; apply in_or_app; simpl; auto).
  pose proof (ri_live _ _ _ (fin_reg _ _ _ Hf)) as Hlive. rewrite Forall_forall in Hlive.
  specialize (Hlive a Hin). destruct (nth_error h0 a) as [v0|] eqn:Ev0; [|apply nth_error_None in Ev0; unfold get_all_variables in *; lia].
  destruct (Hp _ _ Ev0) as (v & Ev & Hid & Hsz & Hcn). specialize (Hcn eq_refl).
  cbn [inc_loop] in E. unfold hget in E. rewrite Ev in E.
  assert (Hnd : NoDup (pre ++ a :: t)) by (rewrite <- Hvs; eapply vars_nodup; eauto).
  assert (Hka : nth_error (get_all_variables g) (length pre) = Some a).
  { rewrite Hvs. rewrite nth_error_app2 by lia. rewrite Nat.sub_diag. auto. }
  assert (Hnin : ~ In a t).
  { apply NoDup_remove_2 in Hnd. intros X. apply Hnd. apply in_or_app; auto. }
  assert (Hvs' : get_all_variables g = (pre ++ [a]) ++ t) by (rewrite <- app_assoc; auto).
  assert (Hlen : forall k, length (pre ++ [a]) + k = length pre + S k) by (intros; rewrite app_length; simpl; lia).
  destruct (vconst VC v) eqn:Cv.
  - destruct k; simpl in Hk; [inversion Hk; subst; congruence|].
    destruct (IH h (pre ++ [a]) Hvs' Hdx Hp E k b w Hk Hb C) as (v' & X). exists v'. rewrite <- app_assoc, Hlen in X. exact X.
  - pose proof (fin_vplace VC h0 g (length pre) a Hf Hka) as Hpl. unfold idz in Hpl. rewrite Ev0, <- Hid in Hpl.
    rewrite Hpl in E. simpl in E. 
    assert (W : width VC h0 a = vsize VC v) by (rewrite (width_nonconst VC _ _ _ Ev0); congruence).
    assert (Hle : col_start VC h0 (get_all_variables g) (length pre) + width VC h0 a <= length dx).
    { rewrite Hdx. unfold num_values. rewrite (fin_lay _ _ _ Hf). apply col_start_le. auto. }
    match type of E with context [?x <=? ?y] => replace (x <=? y) with true in E by (symmetry; apply Nat.leb_le; exact Hle) end.
    cbn [negb] in E. rewrite andb_false_r in E.
    rewrite segment_slice in E by auto. rewrite W in E. unfold hupd, hget in E. rewrite Ev in E.
    destruct (vinc VC v _) as [v'|e|u] eqn:Ei; [|discriminate..].
    destruct k; simpl in Hk.
    + inversion Hk; subst b. assert (w = v) by congruence. subst w. exists v'. rewrite Nat.add_0_r, <- Hvs. exact Ei.
    + pose proof (ok_inc _ Hok _ _ _ Ei) as (I1 & I2 & I3).
      assert (Hne : b <> a) by (intros ->; apply Hnin; eapply nth_error_In; eauto).
      destruct (IH (lupd a v' h) (pre ++ [a]) Hvs' Hdx) with (k := k) (a := b) (v := w) as (v2 & X); auto.
      * eapply hpres_trans; [exact Hp|]. intros c z Hc. rewrite lupd_nth.
        destruct (Nat.eqb_spec a c); subst; simpl.
        -- rewrite (proj2 (Nat.ltb_lt _ _)) by (apply nth_error_Some; congruence). exists v'. split; auto.
           replace z with v in * by congruence. unfold same_obj; auto.
        -- exists z. unfold same_obj; auto.
      * rewrite lupd_nth_other; auto.
      * exists v2. rewrite <- app_assoc, Hlen in X. exact X.
Qed.
Lemma inc_updated ck h (g : graph) (dx : list RN) h' : fin VC h g -> length dx = num_values g ->
  inc_loop VC ck h g (get_all_variables g) dx = (h', Ok tt) ->
  updated VC h h' (get_all_variables g) (fun k v => vinc VC v (slice (col_start VC h (get_all_variables g) k) (vsize VC v) dx)).
Proof.
  intros Hf Hl E. pose proof (inc_loop_inv ck h h g [] _ dx h' Hf eq_refl Hl (hpres_refl VC true h) E) as Hs.
  destruct (inc_loop_spec VC Hok ck h h g [] _ dx Hf eq_refl Hl (hpres_refl VC true h) Hs) as (h2 & E2 & U).
  rewrite E in E2. injection E2 as <-. exact U.
Qed.

(** whatever the outcome: every variable is as before or has its part of the increment *)
Lemma inc_some ck h0 h (g : graph) pre vs (dx : list RN) h' r :
  fin VC h0 g -> get_all_variables g = pre ++ vs -> length dx = num_values g -> hpres VC true h0 h ->
  inc_loop VC ck h g vs dx = (h', r) ->
  forall a v, nth_error h a = Some v -> nth_error h' a = Some v \/
    exists k v', nth_error vs k = Some a /\ vconst VC v = false /\ nth_error h' a = Some v' /\
      vinc VC v (slice (col_start VC h0 (pre ++ vs) (length pre + k)) (vsize VC v) dx) = Ok v'.
Proof.
  intros Hf. revert h pre. induction vs as [|a t IH]; intros h pre Hvs Hdx Hp E b w Hb; [inversion E; subst; auto|].
  assert (Hin : In a (get_all_variables g)) by (rewrite Hvs; apply in_or_app; simpl; auto).
  pose proof (ri_live _ _ _ (fin_reg _ _ _ Hf)) as Hlive. rewrite Forall_forall in Hlive.
  specialize (Hlive a Hin). destruct (nth_error h0 a) as [v0|] eqn:Ev0; [|apply nth_error_None in Ev0; unfold get_all_variables in *; lia].
  destruct (Hp _ _ Ev0) as (v & Ev & Hid & Hsz & Hcn). specialize (Hcn eq_refl).
  cbn [inc_loop] in E. unfold hget in E. rewrite Ev in E.
  assert (Hnd : NoDup (pre ++ a :: t)) by (rewrite <- Hvs; eapply vars_nodup; eauto).
  assert (Hka : nth_error (get_all_variables g) (length pre) = Some a).
  { rewrite Hvs. rewrite nth_error_app2 by lia. rewrite Nat.sub_diag. auto. }
  assert (Hnin : ~ In a t).
  { apply NoDup_remove_2 in Hnd. intros X. apply Hnd. apply in_or_app; auto. }
  assert (Hvs' : get_all_variables g = (pre ++ [a]) ++ t) by (rewrite <- app_assoc; auto).
  assert (Hlen : forall k, length (pre ++ [a]) + k = length pre + S k) by (intros; rewrite app_length; simpl; lia).
  assert (Shift : forall h2, nth_error h2 b = Some w -> hpres VC true h0 h2 -> inc_loop VC ck h2 g t dx = (h', r) -> nth_error h' b = Some w \/
     exists k v', nth_error (a :: t) k = Some b /\ vconst VC w = false /\ nth_error h' b = Some v' /\
      vinc VC w (slice (col_start VC h0 (pre ++ a :: t) (length pre + k)) (vsize VC w) dx) = Ok v').
  { intros h2 Hb2 Hp2 E2. destruct (IH h2 (pre ++ [a]) Hvs' Hdx Hp2 E2 b w Hb2) as [X|(k & v' & X1 & X2 & X3 & X4)]; [left; exact X|right].
    exists (S k), v'. rewrite <- app_assoc, Hlen in X4. auto. }
  destruct (vconst VC v) eqn:Cv; [eapply Shift; eauto|].
  pose proof (fin_vplace VC h0 g (length pre) a Hf Hka) as Hpl. unfold idz in Hpl. rewrite Ev0, <- Hid in Hpl.
  rewrite Hpl in E. simpl in E. 
  assert (W : width VC h0 a = vsize VC v) by (rewrite (width_nonconst VC _ _ _ Ev0); congruence).
  assert (Hle : col_start VC h0 (get_all_variables g) (length pre) + width VC h0 a <= length dx).
  { rewrite Hdx. unfold num_values. rewrite (fin_lay _ _ _ Hf). apply col_start_le. auto. }
  match type of E with context [?x <=? ?y] => replace (x <=? y) with true in E by (symmetry; apply Nat.leb_le; exact Hle) end.
  cbn [negb] in E. rewrite andb_false_r in E.
  rewrite segment_slice in E by auto. rewrite W in E. unfold hupd, hget in E. rewrite Ev in E.
  destruct (vinc VC v _) as [v'|e|u] eqn:Ei; [|inversion E; subst; auto..].
  pose proof (ok_inc _ Hok _ _ _ Ei) as (I1 & I2 & I3).
  assert (Hp2 : hpres VC true h0 (lupd a v' h)).
  { eapply hpres_trans; [exact Hp|]. intros c z Hc. rewrite lupd_nth.
    destruct (Nat.eqb_spec a c); subst; simpl.
    - rewrite (proj2 (Nat.ltb_lt _ _)) by (apply nth_error_Some; congruence). exists v'. split; auto.
      replace z with v in * by congruence. unfold same_obj; auto.
    - exists z. unfold same_obj; auto. }
  destruct (Nat.eq_dec b a) as [->|Hne].
  - assert (w = v) by congruence. subst w. right. exists 0, v'. split; auto. split; auto. split.
    + destruct (IH (lupd a v' h) (pre ++ [a]) Hvs' Hdx Hp2 E a v') as [X|(k & v2 & X & _)]; auto.
      * rewrite lupd_nth_same; auto. apply nth_error_Some. congruence.
      * exfalso. apply Hnin. eapply nth_error_In; eauto.
    + rewrite Nat.add_0_r, <- Hvs. exact Ei.
  - apply (Shift (lupd a v' h)); auto. rewrite lupd_nth_other; auto.
Qed.

(** ** what a sparse Jacobian that was computed is *)
Lemma sparse_loop_jacs h (g : graph) fs i comps data cur comps' data' :
  (forall k f, nth_error fs k = Some f -> exists fp, alookup Nat.eqb (i + k) (ly_fplace (g_lay g)) = Some fp /\ fp_factor fp = Some f) ->
  (forall k f, nth_error fs k = Some f -> exists b, nth_error comps (i + k) = Some b /\ buf_reach f b) ->
  Forall buf_indep fs ->
  sparse_factors_loop VC h g (length fs) i comps data cur = (comps', data', Ok tt) ->
  exists jss, Forall2 (fun (f : factor) js => f_jac f h [] = (js, Ok tt)) fs jss.
Proof.
  revert i comps data cur. induction fs as [|f t IH]; intros i comps data cur Hp Hc Hb E; [exists []; constructor|].
  cbn [length sparse_factors_loop] in E. destruct (Hp 0 f eq_refl) as (fp & P1 & P2). destruct (Hc 0 f eq_refl) as (b & C1 & C2).
  rewrite Nat.add_0_r in P1, C1. rewrite P1, C1, P2 in E. inversion Hb as [|? ? Hb1 Hb2]; subst.
  destruct (Hb1 h b C2) as (B1 & _).
  destruct (f_jac f h b) as [js [[]|e|u]] eqn:Ej; [|discriminate..]. simpl in B1.
  destruct (sparse_vars_loop VC h g (f_vars f) js data cur) as [[d' c'] [[]|e|u]] eqn:Es; [|discriminate..].
  destruct (IH (S i) (lupd i js comps) d' c') as (jss & F); auto.
  - intros k f' Hk. destruct (Hp (S k) f' Hk) as (fp' & X). rewrite Nat.add_succ_r in X. eauto.
  - intros k f' Hk. destruct (Hc (S k) f' Hk) as (b' & X & Y). rewrite Nat.add_succ_r in X. exists b'. split; auto.
    rewrite lupd_nth_other by lia. exact X.
  - exists (fst (f_jac f h []) :: jss). constructor; auto. destruct (f_jac f h []) as [js0 o]. simpl in *. subst o. reflexivity.
Qed.
Lemma sparse_jacs h (g g' : graph) Mx : fin VC h g -> Forall buf_indep (get_all_factors g) -> compute_sparse VC h g = (g', Ok Mx) ->
  exists jss, Forall2 (fun (f : factor) js => f_jac f h [] = (js, Ok tt)) (get_all_factors g) jss.
Proof.
  intros Hf Hb E. unfold compute_sparse in E. destruct (negb _); [discriminate|]. destruct (negb _); [discriminate|].
  destruct (sparse_factors_loop VC h g _ 0 _ _ _) as [[comps data] r] eqn:S. destruct r as [[]|e|u]; [|discriminate..].
  eapply sparse_loop_jacs in S; eauto.
  - intros k f Hk. rewrite (fin_lay _ _ _ Hf). simpl. eexists. split; [apply (fp_list_lookup VC h (vpl VC h g) (rg_factors (g_reg g)) 0 0 k f Hk)|]. auto.
  - intros k f Hk. pose proof (fin_comps _ _ _ Hf) as Hc. unfold comps_ok in Hc. apply Forall2_nth in Hc. destruct Hc as [Hc1 Hc2].
    destruct (nth_error (sc_comps (g_sc g)) k) as [b|] eqn:Eb.
    + exists b. simpl. split; auto. eapply Hc2; eauto.
    + exfalso. apply nth_error_None in Eb. assert (k < length (rg_factors (g_reg g))) by (apply nth_error_Some; congruence). lia.
Qed.
Lemma sparse_is_jacobian l1 l2 h1 h (g1 g g' : graph) Mx :
  finalized_history VC l1 l2 h1 h g1 g -> unfinalized VC ([], empty_graph) l1 ->
  Forall (factor_wf VC h (get_all_variables g)) (get_all_factors g) ->
  some_active VC h (get_all_factors g) -> Forall buf_indep (get_all_factors g) -> shape_contract VC h (get_all_factors g) ->
  compute_sparse VC h g = (g', Ok Mx) -> jacobian_at VC h (get_all_variables g) (get_all_factors g) (sp_dense Mx).
Proof.
  intros HF Hu Hw Ha Hb Hc E. destruct (finalized_facts VC Hok _ _ _ _ _ _ HF) as (_ & Hf & _).
  destruct (sparse_jacs h g g' Mx Hf Hb E) as (jss & HJ). exists jss. split; auto.
  assert (HJ2 : Forall2 (fun f js => f_jac f h [] = (js, Ok tt) /\ blocks_ok VC h (f_rsize f) (f_vars f) js) (get_all_factors g) jss).
  { apply Forall2_nth in HJ. apply Forall2_nth. destruct HJ as (L & HJ). split; auto. intros i f js Hi Hj. split; [eapply HJ; eauto|].
    eapply Hc; [apply revalued_refl|eapply nth_error_In; eauto|eapply HJ; eauto]. }
  destruct (sparse_jacobian_ok VC Hok _ _ _ _ _ _ _ HF Hu Hw Ha Hb HJ2) as (g2 & M2 & S1 & _ & S3). rewrite E in S1. injection S1 as <- <-. exact S3.
Qed.

(** ** solutions of the systems that are set up *)
Lemma solves_damped (J H : mat RN) (l : R) (r b x : list RN) :
  mrows H = mcols J -> mcols H = mcols J ->
  (forall i j, i < mcols J -> j < mcols J -> mat_at H i j = (rsum (mrows J) (fun k => mat_at J k i * mat_at J k j) + (if i =? j then l else 0))%R) ->
  (forall i, i < mcols J -> nth i b nzero = (- rsum (mrows J) (fun k => mat_at J k i * nth k r 0))%R) ->
  solves H b x -> damped_solution l J r x.
Proof.
  intros H1 H2 HH Hb (L & E). split; [exact (eq_trans L H2)|]. intros i Hi. specialize (E i). rewrite H1 in E. specialize (E Hi).
  rewrite Hb in E by auto. rewrite H2, vsum_seq in E. etransitivity; [|exact E].
  transitivity (rsum (mcols J) (fun j => rsum (mrows J) (fun k => mat_at J k i * mat_at J k j) * nth j x 0 + (if i =? j then l * nth j x 0 else 0))%R).
  - rewrite rsum_plus. f_equal. rewrite (rsum_single _ i) by (auto; intros j Hj Hne; destruct (Nat.eqb_spec i j); congruence).
    rewrite Nat.eqb_refl. reflexivity.
  - apply rsum_ext. intros j Hj. transitivity (mat_at H i j * nth j x 0)%R; [|exact (f_equal (fun z : R => (mat_at H i j * nth j x z)%R) (eq_sym lit_zero))].
    pose proof (HH i j Hi Hj) as X. symmetry. etransitivity; [exact (f_equal (fun z : R => (z * nth j x 0)%R) X)|]. destruct (i =? j); lra.
Qed.
Lemma jtr_nth (J : mat RN) (r : list RN) i : i < mcols J ->
  nth i (mvmul (mtrans J) r) nzero = rsum (mrows J) (fun k => mat_at J k i * nth k r 0)%R.
Proof.
  intros Hi. unfold mvmul. change (mrows (mtrans J)) with (mcols J). change (mcols (mtrans J)) with (mrows J).
  etransitivity; [exact (f_equal (fun z : R => nth i (map _ (seq 0 (mcols J))) z) lit_zero)|]. etransitivity; [apply nth_nth_error|].
  rewrite nth_error_map, nth_error_seq, (proj2 (Nat.ltb_lt _ _) Hi). cbn [option_map Nat.add]. rewrite vsum_seq. apply rsum_ext.
  intros k Hk. exact (f_equal (fun z : R => (mat_at J k i * nth k r z)%R) lit_zero).
Qed.
End Steps.

Section Runs.
Context {V : Type} (VC : vclass RN V) {S : Type} (SV : solver RN S).
Notation factor := (factor (N:=RN) (V:=V)).
Notation graph := (graph (N:=RN) (V:=V)).
Notation env := (env (N:=RN) (V:=V)).
Notation op := (op (N:=RN) (V:=V)).
Notation pstate := (pstate (N:=RN) (V:=V) (S:=S)).
Notation M := (M (N:=RN) (V:=V) (S:=S)).
Context (EV : nat -> env).
Hypothesis Hok : vclass_ok VC.
Hypothesis HE : forall n, env_ok (EV n).
Hypothesis HX : exact_solver SV.
Ltac bindn H p1 a E := apply bind_ok in H; destruct H as (p1 & a & E & H).

Context (l1 : list (env * op)) (h1 : @heap V) (g1 : graph) (h0 : @heap V) (vs : list addr) (fs : list factor).
Hypothesis Hu : unfinalized VC ([], empty_graph) l1.
Hypothesis Hlive : Forall (fun a => a < length h0) vs.
Hypothesis Hwf : Forall (factor_wf VC h0 vs) fs.
Hypothesis Hact : some_active VC h0 fs.
Hypothesis Hbuf : Forall buf_indep fs.
Hypothesis Hshape : shape_contract VC h0 fs.

Definition onrun (h : @heap V) (g : graph) : Prop :=
  (exists l2, finalized_history VC l1 l2 h1 h g1 g) /\ get_all_factors g = fs /\ get_all_variables g = vs /\ revalued VC h0 h.
Lemma onrun_fin h g : onrun h g -> fin VC h g.
Proof. intros ((l2 & H) & _). destruct (finalized_facts VC Hok _ _ _ _ _ _ H) as (_ & F & _). exact F. Qed.
Lemma onrun_traced h g h' g' : onrun h g -> traced VC (h, g) (h', g') -> revalued VC h h' -> onrun h' g'.
Proof.
  intros H T R. pose proof (onrun_fin _ _ H) as Hf. destruct H as ((l2 & HF) & A & B & C).
  pose proof T as T'. apply (traced_keeps VC Hok) in T'; auto. simpl in T'. destruct T' as (_ & _ & Rg & _).
  split; [|split; [rewrite <- A; unfold get_all_factors; rewrite Rg; auto|split; [rewrite <- B; unfold get_all_variables; rewrite Rg; auto|eapply revalued_trans; eauto]]].
  destruct HF as (g0 & F1 & F2 & F3 & F4). destruct T as (lb & Lb1 & Lb2). exists (l2 ++ lb). exists g0. split; auto. split; auto.
  split; [apply Forall_app; auto|]. rewrite (run_app VC), F4. exact Lb2.
Qed.
Lemma onrun_jacobian h g g' Mx : onrun h g -> compute_sparse VC h g = (g', Ok Mx) -> jacobian_at VC h vs fs (sp_dense Mx) /\ onrun h g'.
Proof.
  intros H E. split.
  - destruct H as ((l2 & HF) & A & B & C). pose proof (sparse_is_jacobian VC Hok _ _ _ _ _ _ g' Mx HF Hu) as X. rewrite A, B in X. apply X; auto.
    + eapply Forall_impl; [|exact Hwf]. intros f Hf. eapply wf_pres; eauto. apply (revalued_hpres VC Hok). auto.
    + eapply (active_revalued VC Hok); eauto.
    + eapply contract_revalued; eauto.
  - eapply onrun_traced; [exact H| |apply revalued_refl].
    eapply (traced_one VC (EV 0) _ OSparse); simpl; auto. rewrite E. reflexivity.
Qed.
Lemma onrun_columns h g J : onrun h g -> jacobian_at VC h vs fs J -> mcols J = num_values g.
Proof.
  intros H (jss & _ & (_ & C & _)). pose proof (onrun_fin _ _ H) as Hf. destruct H as (_ & _ & B & _).
  rewrite C. unfold num_values. rewrite (fin_lay _ _ _ Hf). simpl. rewrite <- B. reflexivity.
Qed.

(** the step made with a solution *)
Lemma step_made h g (J : mat RN) l (r x : list RN) rate ck h' : onrun h g -> stacked h fs r -> jacobian_at VC h vs fs J -> damped_solution l J r x ->
  inc_loop VC ck h g (get_all_variables g) (map (fun y => nmul y rate) x) = (h', Ok tt) -> newton_step VC vs fs rate l h h'.
Proof.
  intros H Hr HJ Hx E. exists r, J, x. split; auto. split; auto. split; auto.
  assert (L : length (map (fun y : RN => nmul y rate) x) = num_values g).
  { rewrite map_length. etransitivity; [exact (proj1 Hx)|]. eapply onrun_columns; eauto. }
  pose proof (inc_updated VC Hok ck h g _ h' (onrun_fin _ _ H) L E) as U. destruct H as (_ & _ & B & _). rewrite B in U. exact U.
Qed.

(** ** Gauss-Newton *)
Lemma gn_moves (p p' : pstate) : onrun (p_heap p) (p_graph p) -> gn_step VC SV EV p = (p', Ok tt) -> ~ failure (ss_status (p_cur p')) ->
  newton_step VC vs fs (st_rate (p_set p)) 0 (p_heap p) (p_heap p') /\ onrun (p_heap p') (p_graph p').
Proof.
  intros H E Hs. destruct HX as (holds & X1 & X2 & X3).
  destruct (gn_step_inv VC SV EV Hok HE p p' (onrun_fin _ _ H) E Hs) as (r1 & g' & Mx & s2 & x & h2 & S1 & S2 & S3 & S4 & S5 & S6 & S7 & S8).
  destruct (onrun_jacobian _ _ _ _ H S2) as (HJ & H').
  assert (Hr : stacked (p_heap p) fs r1) by (destruct H as (_ & A & _); rewrite <- A; exact S1).
  destruct (X2 _ _ _ _ _ (X1 _ _ (gram_sym _)) S4) as (_ & X4). specialize (X4 S5).
  split.
  - rewrite S7. eapply step_made; [exact H'|exact Hr|exact HJ| |exact S6].
    eapply solves_damped; [| | | |exact X4]; [reflexivity|reflexivity| |].
    + intros i j Hi Hj. etransitivity; [apply jtj_at|]. destruct (i =? j); lra.
    + intros i Hi. etransitivity; [exact (f_equal (fun z : R => nth i (map (fun y : RN => nmul y (nlit (-1))) (mvmul (mtrans (sp_dense Mx)) r1)) z)
          (eq_trans lit_zero (eq_sym (Rmult_0_l (nlit (n:=RN) (-1))))))|].
      etransitivity; [exact (map_nth (fun y : R => (y * nlit (n:=RN) (-1))%R) _ 0%R i)|].
      etransitivity; [exact (f_equal (fun z : R => (nth i (mvmul (mtrans (sp_dense Mx)) r1) z * nlit (n:=RN) (-1))%R) (eq_sym lit_zero))|].
      rewrite (jtr_nth (sp_dense Mx) r1 i Hi). etransitivity; [exact (f_equal2 Rmult eq_refl (lit_int (-1)))|]. lra.
  - pose proof (frames_gn VC SV EV HE p p' _ E) as (T & _). eapply onrun_traced; [exact H|exact T|]. rewrite S7. eapply (inc_revalued VC); exact S6.
Qed.

(** what a Gauss-Newton step that ended with an exception did *)
Lemma bind_throw {A B} (m : M A) (f : A -> M B) p p' e : mbind m f p = (p', Throw e) ->
  m p = (p', Throw e) \/ exists p1 a, m p = (p1, Ok a) /\ f a p1 = (p', Throw e).
Proof. unfold mbind. destruct (m p) as [p1 [a|e1|u]]; intros H; [right; eauto|left; congruence|discriminate]. Qed.
Ltac bt H q a E := apply bind_throw in H; destruct H as [H|(q & a & E & H)].
Lemma gn_thrown (p p' : pstate) e : onrun (p_heap p) (p_graph p) -> gn_step VC SV EV p = (p', Throw e) ->
  p_heap p' = p_heap p \/ broken_off_step VC vs fs (st_rate (p_set p)) 0 (p_heap p) (p_heap p').
Proof.
  intros H E. destruct HX as (holds & X1 & X2 & X3). pose proof (onrun_fin _ _ H) as Hf. unfold gn_step in E.
  bt E q0 u0 F0; [left; unfold m_residual1 in E; destruct (compute_residual_into _ _ _ _); inversion E; reflexivity|]. destruct u0.
  pose proof F0 as Fx. apply (residual1_ok VC EV HE) in Fx; auto. destruct Fx as (A0 & A1 & A2 & A3 & A4 & A5 & A6).
  assert (As : p_solver q0 = p_solver p) by (unfold m_residual1 in F0; destruct (compute_residual_into _ _ _ _); inversion F0; reflexivity).
  bt E q1 J F1; [left; unfold m_sparse in E; destruct (compute_sparse _ _ _); inversion E; subst; exact A1|].
  unfold m_sparse in F1. destruct (compute_sparse VC (p_heap q0) (p_graph q0)) as [g' o] eqn:Es. injection F1 as Ep1 Eo.
  destruct o as [Mx|e1|u]; simpl in Eo; try discriminate. injection Eo as Eo. rewrite A1, A2 in Es.
  destruct (onrun_jacobian _ _ _ _ H Es) as (HJ & H').
  assert (B : p_heap q1 = p_heap p /\ p_graph q1 = g' /\ p_set q1 = p_set p /\ p_r1 q1 = p_r1 q0 /\ p_solver q1 = p_solver p).
  { subst q1. simpl. repeat split; congruence. }
  destruct B as (B1 & B2 & B3 & B4 & B5). clear Ep1.
  bt E q2 r1 F2; [discriminate|]. injection F2 as <- <-.
  bt E q3 b0 F3; [left; injection E as <- _; exact B1|]. injection F3 as <- Eb.
  unfold jtr in Eb. destruct (Nat.eqb_spec (mrows J) (length (p_r1 q1))) as [El|]; [|discriminate]. injection Eb as Eb.
  bt E q4 ok F4; [discriminate|]. unfold m_factorize in F4. injection F4 as Ep4 Eok.
  assert (C : p_heap q4 = p_heap p /\ p_graph q4 = g' /\ p_set q4 = p_set p /\ p_solver q4 = sv_compute SV (p_solver p) (jtj J)).
  { subst q4. simpl. rewrite B5. repeat split; congruence. }
  destruct C as (C1 & C2 & C3 & C4). clear Ep4. destruct ok; cbn [negb] in E; [|discriminate].
  bt E q5 s F5; [discriminate|]. injection F5 as <- <-.
  bt E q6 mn F6; [left; injection E as <- _; exact C1|]. injection F6 as <- Emn.
  bt E q7 mx F7; [left; injection E as <- _; exact C1|]. injection F7 as <- Emx.
  destruct (nltb mn _); [discriminate|]. destruct (nltb _ _); [discriminate|].
  bt E q8 xo F8; [unfold m_solve in E; destruct (sv_solve _ _ _); discriminate|].
  unfold m_solve in F8. destruct (sv_solve SV (p_solver q4) _) as [s2 x] eqn:Ev. injection F8 as Ep8 Exo. subst xo. simpl fst in E. simpl snd in E.
  assert (D : p_heap q8 = p_heap p /\ p_graph q8 = g' /\ p_set q8 = p_set p) by (subst q8; auto). clear Ep8. destruct D as (D1 & D2 & D3).
  destruct (sv_ok SV s2) eqn:Eok2; cbn [negb] in E; [|discriminate].
  bt E q9 st F9; [discriminate|]. injection F9 as <- <-.
  assert (Hr : stacked (p_heap p) fs (p_r1 q0)) by (destruct H as (_ & A & _); rewrite <- A; exact A6).
  rewrite C4 in Ev. destruct (X2 _ _ _ _ _ (X1 _ _ (gram_sym _)) Ev) as (_ & X4). specialize (X4 Eok2).
  assert (Hx : damped_solution 0 J (p_r1 q0) x).
  { eapply solves_damped; [| | | |exact X4]; [reflexivity|reflexivity| |].
    + intros i j Hi Hj. etransitivity; [apply jtj_at|]. destruct (i =? j); lra.
    + intros i Hi. rewrite <- Eb, B4.
      etransitivity; [exact (f_equal (fun z : R => nth i (map (fun y : RN => nmul y (nlit (-1))) (mvmul (mtrans J) (p_r1 q0))) z)
          (eq_trans lit_zero (eq_sym (Rmult_0_l (nlit (n:=RN) (-1))))))|].
      etransitivity; [exact (map_nth (fun y : R => (y * nlit (n:=RN) (-1))%R) _ 0%R i)|].
      etransitivity; [exact (f_equal (fun z : R => (nth i (mvmul (mtrans J) (p_r1 q0)) z * nlit (n:=RN) (-1))%R) (eq_sym lit_zero))|].
      rewrite (jtr_nth J (p_r1 q0) i Hi). etransitivity; [exact (f_equal2 Rmult eq_refl (lit_int (-1)))|]. lra. }
  subst J.
  assert (Broken : forall h2 o, inc_loop VC false (p_heap p) g' (get_all_variables g') (map (fun y : RN => nmul y (st_rate (p_set p))) x) = (h2, o) ->
    broken_off_step VC vs fs (st_rate (p_set p)) 0 (p_heap p) h2).
  { intros h2 o Ei. exists (p_r1 q0), (sp_dense Mx), x. split; auto. split; auto. split; auto. split; [eapply (inc_length VC); exact Ei|].
    assert (L : length (map (fun y : RN => nmul y (st_rate (p_set p))) x) = num_values g').
    { rewrite map_length. etransitivity; [exact (proj1 Hx)|]. eapply onrun_columns; eauto. }
    pose proof (inc_some VC Hok false (p_heap p) (p_heap p) g' [] _ _ _ _ (onrun_fin _ _ H') eq_refl L (hpres_refl VC true _) Ei) as U.
    destruct H' as (_ & _ & Bv & _). rewrite Bv in U. exact U. }
  bt E q10 u10 F10.
  - right. unfold m_apply in E. rewrite D1, D2, D3 in E. destruct (inc_loop _ _ _ _ _ _) as [h2 o] eqn:Ei. injection E as <- _. eapply Broken; reflexivity.
  - destruct u10. unfold m_apply in F10. rewrite D1, D2, D3 in F10. destruct (inc_loop _ _ _ _ _ _) as [h2 o] eqn:Ei. injection F10 as Ep10 ->.
    pose proof (Broken _ _ eq_refl) as Bk. right.
    bt E q11 u11 F11.
    + unfold m_residual2 in E. destruct (compute_residual_into _ _ _ _); inversion E; subst; exact Bk.
    + bt E q12 r2 F12; [discriminate|]. discriminate.
Qed.

Lemma gn_run n : forall p p', onrun (p_heap p) (p_graph p) -> st_method (p_set p) = GaussNewton -> healthy (p_cur p) -> p_caught p = false ->
  opt_loop VC SV EV n p = (p', Ok tt) ->
  exists k h, moves (newton_step VC vs fs (st_rate (p_set p)) 0) k (p_heap p) h /\ 
    (p_heap p' = h \/ p_caught p' = true /\ broken_off_step VC vs fs (st_rate (p_set p)) 0 h (p_heap p')) /\
    (p_caught p' = false -> ss_iter (p_cur p') = ss_iter (p_cur p) + k).
Proof.
  induction n; intros p p' H Hm Hh Hc0 E; cbn [opt_loop] in E.
  - inversion E; subst. exists 0, (p_heap p'). split; [constructor|]. split; auto.
  - destruct (one_step VC SV EV p) as [p1 [[]|e|u]] eqn:E1; [| |discriminate].
    2: { unfold m_fail, mupd in E. injection E as <-. unfold one_step in E1. rewrite Hm in E1. exists 0, (p_heap p). split; [constructor|].
         split; [|discriminate]. destruct (gn_thrown _ _ _ H E1) as [X|X]; [left; exact X|right; split; auto]. }
    pose proof (frames_one VC SV EV HE _ _ _ E1) as (_ & F1 & _ & _ & _ & _ & _ & F2).
    pose proof (hf_one VC SV EV _ _ _ E1 Hh) as H1. unfold one_step in E1. rewrite Hm in E1.
    destruct H1 as [H1|H1].
    + assert (NF : ~ failure (ss_status (p_cur p1))) by (apply not_fail; auto).
      destruct (gn_moves _ _ H E1 NF) as (St & On). pose proof (gn_iter VC SV EV _ _ E1 H1) as Hi.
      assert (Stop : p_heap p' = p_heap p1 -> ss_iter (p_cur p') = ss_iter (p_cur p1) ->
        exists k h, moves (newton_step VC vs fs (st_rate (p_set p)) 0) k (p_heap p) h /\
          (p_heap p' = h \/ p_caught p' = true /\ broken_off_step VC vs fs (st_rate (p_set p)) 0 h (p_heap p')) /\
          (p_caught p' = false -> ss_iter (p_cur p') = ss_iter (p_cur p) + k)).
      { intros A B. exists 1, (p_heap p'). rewrite A, B, Hi. split; [apply moves_one; auto|]. split; auto. intros _. lia. }
      assert (Go : opt_loop VC SV EV n p1 = (p', Ok tt) ->
        exists k h, moves (newton_step VC vs fs (st_rate (p_set p)) 0) k (p_heap p) h /\
          (p_heap p' = h \/ p_caught p' = true /\ broken_off_step VC vs fs (st_rate (p_set p)) 0 h (p_heap p')) /\
          (p_caught p' = false -> ss_iter (p_cur p') = ss_iter (p_cur p) + k)).
      { intros E2. destruct (IHn p1 p') as (k & h & A & B & C); auto; [congruence|congruence|]. exists (1 + k), h. rewrite F1 in A, B. split; [|split; auto].
        - eapply moves_app; [apply moves_one; exact St|exact A].
        - intros Hc. rewrite (C Hc), Hi. lia. }
      destruct (ss_status (p_cur p1)); try (inversion E; subst; apply Stop; reflexivity);
      repeat match type of E with (if ?b then _ else _) = _ => destruct b end; try (apply Go; exact E); inversion E; subst; apply Stop; reflexivity.
    + destruct H1 as (_ & H1). destruct (gn_failed VC SV EV _ _ E1 Hh H1) as (A & B & _).
      assert (p' = p1) by (destruct H1 as [X|[X|X]]; rewrite X in E; inversion E; auto). subst p'.
      exists 0, (p_heap p). rewrite A, B, Nat.add_0_r. split; [constructor|]. split; auto.
Qed.

(** ** Levenberg-Marquardt *)
Section Rollback.
Context (I : V -> Prop).
Hypothesis HI : undoable VC I.
Hypothesis HFz : factorising_solver SV.
Context (rate up down top : R).
Notation lmove := (lm_move VC vs fs rate up down top).
Definition same_settings (p : pstate) : Prop :=
  st_rate (p_set p) = rate /\ st_up (p_set p) = up /\ st_down (p_set p) = down /\ st_max_lambda (p_set p) = top.
Definition at_point (p : pstate) : @heap V * R := (p_heap p, ss_lambda (p_cur p)).
(** the loop variables fit the current state *)
Record lm_ready (J : mat RN) (cost : R) (p : pstate) : Prop := LmReady {
  lr_on : onrun (p_heap p) (p_graph p);
  lr_held : heldI I (p_heap p);
  lr_set : same_settings p;
  lr_jac : jacobian_at VC (p_heap p) vs fs J;
  lr_res : stacked (p_heap p) fs (p_r1 p);
  lr_cost : cost = nmul (n:=RN) (nlit (1#2)) (sqnorm (p_r1 p))
}.
Lemma ready_lam J cost p p1 : lm_ready J cost p -> p_heap p1 = p_heap p -> p_graph p1 = p_graph p -> p_set p1 = p_set p -> p_r1 p1 = p_r1 p ->
  lm_ready J cost p1.
Proof. intros [A B (C1 & C2 & C3 & C4) D E F] G1 G2 G3 G4. constructor; unfold same_settings; rewrite ?G1, ?G2, ?G3, ?G4; auto. Qed.

Lemma lm_system (J : mat RN) (l : R) (r b : list RN) s s2 x :
  jtr (Mat (mrows J) (mcols J) (fun i j => nneg (mat_at J i j))) r = Ok b ->
  sv_solve SV (sv_compute SV s (add_diag l (jtj J))) b = (s2, x) -> sv_ok SV s2 = true -> damped_solution l J r x.
Proof.
  intros Eb Es Eo. destruct HX as (holds & X1 & X2 & X3).
  destruct (X2 _ _ _ _ _ (X1 _ _ (damped_sym _ _)) Es) as (_ & X4). specialize (X4 Eo).
  eapply solves_damped; [| | | |exact X4]; [reflexivity|reflexivity| |].
  - intros i j Hi Hj. cbn [add_diag mat_at]. rewrite jtj_at. destruct (i =? j); [reflexivity|]. symmetry. apply Rplus_0_r.
  - intros i Hi. unfold jtr in Eb. destruct (_ =? _); [|discriminate]. injection Eb as <-. rewrite jtr_nth by exact Hi. cbn [mrows mat_at].
    transitivity (rsum (mrows J) (fun k => - 1 * (mat_at J k i * nth k r 0))%R); [apply rsum_ext; intros k Hk; change (nneg (mat_at J k i)) with (- mat_at J k i)%R; ring|].
    rewrite rsum_scal. match goal with |- ?a = ?b => change (@eq R a b) end. lra.
Qed.
Lemma half_lt a b : nltb (n:=RN) (nmul (nlit (1#2)) a) (nmul (nlit (1#2)) b) = true <-> (a < b)%R.
Proof. change (Rltb (nlit (n:=RN) (1#2) * a) (nlit (n:=RN) (1#2) * b) = true <-> (a < b)%R). rewrite lit_half. split; intros H; [apply Rltb_true in H; lra|apply Rltb_true; lra]. Qed.

Lemma lm_loop_moves n : forall J cost dx p p' acc dx', lm_ready J cost p -> lm_loop VC SV EV n J cost dx p = (p', Ok (acc, dx')) ->
  exists k, p_nfact p' = p_nfact p + k /\ moves lmove k (at_point p) (at_point p') /\ onrun (p_heap p') (p_graph p') /\ heldI I (p_heap p').
Proof.
  induction n; intros J cost dx p p' acc dx' HR E.
  - inversion E; subst. exists 0. rewrite Nat.add_0_r. split; auto. split; [constructor|]. split; [apply (lr_on _ _ _ HR)|apply (lr_held _ _ _ HR)].
  - cbn [lm_loop] in E. unfold mbind at 1, get at 1 in E. unfold mbind at 1, get at 1 in E. unfold mbind at 1, lift at 1 in E.
    destruct (jtr _ _) as [b0|e|u] eqn:Eb; [|discriminate..].
    unfold mbind at 1, m_factorize at 1 in E.
    assert (Retry : forall p1 dx1, lm_loop VC SV EV n J cost dx1 p1 = (p', Ok (acc, dx')) -> p_heap p1 = p_heap p -> p_graph p1 = p_graph p ->
       p_set p1 = p_set p -> p_r1 p1 = p_r1 p -> p_nfact p1 = Datatypes.S (p_nfact p) -> lmove (at_point p) (at_point p1) ->
       exists k, p_nfact p' = p_nfact p + k /\ moves lmove k (at_point p) (at_point p') /\ onrun (p_heap p') (p_graph p') /\ heldI I (p_heap p')).
    { intros p1 dx1 E1 A1 A2 A3 A4 A5 A6. destruct (IHn _ _ _ _ _ _ _ (ready_lam _ _ _ _ HR A1 A2 A3 A4) E1) as (k & B1 & B2 & B3 & B4).
      exists (1 + k). split; [rewrite B1, A5; lia|]. split; auto. eapply moves_app; [apply moves_one; exact A6|exact B2]. }
    assert (Up : forall p1 dx1, mbind m_up (fun _ => lm_loop VC SV EV n J cost dx1) p1 = (p', Ok (acc, dx')) -> p_heap p1 = p_heap p -> p_graph p1 = p_graph p ->
       p_set p1 = p_set p -> p_r1 p1 = p_r1 p -> p_nfact p1 = Datatypes.S (p_nfact p) -> p_cur p1 = p_cur p ->
       (ss_lambda (p_cur p) < 0)%R \/ ill_posed (ss_lambda (p_cur p)) J ->
       exists k, p_nfact p' = p_nfact p + k /\ moves lmove k (at_point p) (at_point p') /\ onrun (p_heap p') (p_graph p') /\ heldI I (p_heap p')).
    { intros p1 dx1 E1 A1 A2 A3 A4 A5 A6 A7. unfold mbind, m_up, m_lambda, mupd in E1. cbn beta iota in E1.
      eapply Retry; [exact E1|..]; auto. unfold at_point. simpl. rewrite A1, A6, A3. destruct (lr_set _ _ _ HR) as (_ & -> & _). eapply lm_unsolved; [exact (lr_jac _ _ _ HR)|exact A7]. }
    set (lam := ss_lambda (p_cur p)) in *.
    assert (Posed : forall P : Prop, ((0 <= lam)%R -> P) -> (lam < 0)%R \/ P).
    { intros P HP. destruct (Rlt_le_dec lam 0); auto. }
    match type of E with context [negb ?b] => destruct b eqn:Ok1 end; cbn [negb] in E;
      [|eapply Up; [exact E|..]; try reflexivity; apply Posed; intros Hl; exact (refused_posed SV HFz _ _ _ _ (fits_damped lam J Hl) Ok1)].
    unfold mbind at 1, get at 1 in E. unfold mbind at 1, lift at 1 in E.
    match type of E with context [vmin ?d] => destruct (vmin d) as [mn|e|u] eqn:Emn end; [|discriminate..].
    unfold mbind at 1, lift at 1 in E.
    match type of E with context [vmax ?d] => destruct (vmax d) as [mx|e|u] eqn:Emx end; [|discriminate..].
    match type of E with context [if ?b then _ else _] => destruct b eqn:Et end;
      [eapply Up; [exact E|..]; try reflexivity; apply Posed; intros Hl; exact (tested_posed SV HFz _ _ _ _ _ _ (fits_damped lam J Hl) Ok1 Emn Emx Et)|].
    unfold mbind at 1, m_solve at 1 in E. destruct (sv_solve SV _ _) as [s x] eqn:Es.
    destruct (sv_ok SV s) eqn:Eo; cbn [negb snd] in E;
      [|eapply Up; [exact E|..]; try reflexivity; apply Posed; intros Hl; exfalso;
        pose proof (solving_keeps SV HFz _ _ _ _ _ _ _ (fits_damped lam J Hl) Es) as K; rewrite Eo in K; rewrite Ok1 in K; discriminate].
    pose proof (lm_system _ _ _ _ _ _ _ Eb Es Eo) as Hx. clear Up Posed Et Emn Emx Ok1.
    unfold mbind at 1, get at 1 in E. cbv zeta in E. cbn [fst] in E.
    set (dx1 := map _ x) in *.
    unfold mbind at 1 in E.
    match type of E with context [values_of VC ?h ?vs] => change h with (p_heap p) in E; change vs with (get_all_variables (p_graph p)) in E end.
    destruct (values_of VC (p_heap p) (get_all_variables (p_graph p))) as [xs|e|u] eqn:Ev; [|discriminate..].
    unfold mbind at 1, m_apply at 1 in E. cbn [p_heap p_graph w_solver w_nfact] in E.
    destruct (inc_loop VC false (p_heap p) (p_graph p) (get_all_variables (p_graph p)) dx1) as [h2 o1] eqn:Ei.
    destruct o1 as [[]|e|u]; [|discriminate..].
    pose proof (onrun_fin _ _ (lr_on _ _ _ HR)) as Hf. pose proof (vars_nodup VC _ _ Hf) as ND.
    destruct (inc_moved VC I HI _ _ _ _ _ _ _ ND (lr_held _ _ _ HR) Ei) as (Hm & Hh2).
    assert (On2 : onrun h2 (p_graph p)).
    { eapply onrun_traced; [exact (lr_on _ _ _ HR)| |eapply (inc_revalued VC); exact Ei]. eapply (traced_inc VC EV HE). exact Ei. }
    assert (St : newton_step VC vs fs rate (ss_lambda (p_cur p)) (p_heap p) h2).
    { eapply step_made; [exact (lr_on _ _ _ HR)|exact (lr_res _ _ _ HR)|exact (lr_jac _ _ _ HR)|exact Hx|]. 
      destruct (lr_set _ _ _ HR) as (Hrate & _). rewrite <- Hrate. exact Ei. }
    unfold mbind at 1, m_residual2 at 1 in E. cbn [p_heap p_graph w_heap w_solver w_nfact p_r2 p_tick] in E.
    destruct (compute_residual_into _ _ _ _) as [buf o2] eqn:Er.
    destruct o2 as [[]|e|u]; [|discriminate..].
    assert (Hr2 : stacked h2 fs buf).
    { destruct On2 as (_ & A & _). rewrite <- A. eapply residual_into_inv; [apply HE|apply onrun_fin|exact Er]. 
      eapply onrun_traced; [exact (lr_on _ _ _ HR)| |eapply (inc_revalued VC); exact Ei]. eapply (traced_inc VC EV HE). exact Ei. }
    unfold mbind at 1, get at 1 in E. cbn [p_r2 w_tick w_r2] in E.
    rewrite (lr_cost _ _ _ HR) in E.
    destruct (nltb _ _) eqn:Ec.
    + unfold mbind, get, m_lambda, mupd, ret in E. cbn beta iota in E. apply pair_equal_spec in E. destruct E as [<- _].
      exists 1. split; [simpl; lia|]. split; [|split; [exact On2|exact Hh2]].
      apply moves_one. unfold at_point. cbn [p_heap p_cur w_cur ss_lambda w_tick w_r2 w_heap w_solver w_nfact p_set].
      rewrite r_nmax. destruct (lr_set _ _ _ HR) as (_ & _ & -> & _).
      replace (nlit (n:=RN) (1 # 1000000000000)) with (1 / 1000000000000)%R by (unfold nlit; simpl; unfold Q2R; simpl; lra).
      eapply lm_kept; [exact St|exact (lr_res _ _ _ HR)|exact Hr2|].
      apply half_lt in Ec. rewrite !sqnorm_rsum in Ec. exact Ec.
    + unfold mbind at 1, m_restore at 1 in E. cbn [p_heap p_graph w_tick w_r2 w_heap w_solver w_nfact] in E.
      pose proof (moved_restore VC _ _ _ _ ND Hm Ev) as Rs. rewrite Rs in E.
      unfold mbind at 1, get at 1 in E. unfold mbind at 1, m_lambda at 1, mupd at 1 in E.
      assert (Mv : lmove (at_point p) (p_heap p, nmin (N:=RN) (nmul (ss_lambda (p_cur p)) (st_up (p_set p))) (st_max_lambda (p_set p)))).
      { rewrite r_nmin. destruct (lr_set _ _ _ HR) as (_ & -> & _ & ->).
        eapply lm_undone; [exact St|exact (lr_res _ _ _ HR)|exact Hr2|].
        destruct (Rle_dec (sqnorm (N:=RN) (p_r1 p)) (sqnorm (N:=RN) buf)) as [Hle|Hn]; [rewrite !sqnorm_rsum in Hle; exact Hle|].
        exfalso. rewrite (proj2 (half_lt (sqnorm (N:=RN) buf) (sqnorm (N:=RN) (p_r1 p)))) in Ec; [discriminate|]. apply Rnot_le_lt. exact Hn. }
      destruct (nleb _ _).
      * inversion E; subst. exists 1. split; [simpl; lia|]. split; [apply moves_one; exact Mv|]. split; [exact (lr_on _ _ _ HR)|exact (lr_held _ _ _ HR)].
      * rewrite <- (lr_cost _ _ _ HR) in E. eapply Retry; [exact E|..]; try reflexivity. exact Mv.
Qed.

(** one iteration *)
Definition lm_entry (p : pstate) : R := if ss_iter (p_cur p) =? 0 then st_lambda0 (p_set p) else ss_lambda (p_cur p).
Lemma lm_step_moves (p p' : pstate) : onrun (p_heap p) (p_graph p) -> heldI I (p_heap p) -> same_settings p ->
  lm_step VC SV EV p = (p', Ok tt) ->
  exists k, p_nfact p' = p_nfact p + k /\ moves lmove k (p_heap p, lm_entry p) (at_point p') /\
    onrun (p_heap p') (p_graph p') /\ heldI I (p_heap p') /\ ss_iter (p_cur p') = Datatypes.S (ss_iter (p_cur p)).
Proof.
  intros H Hh Hset E. pose proof (onrun_fin _ _ H) as Hf.
  destruct (lm_step_spec VC SV EV Hok HE I HI p p' Hf Hh E) as (_ & _ & _ & _ & _ & _ & _ & _ & _ & _ & Hit & _).
  unfold lm_step in E.
  bindn E q1 a1 Q1. destruct a1. pose proof Q1 as F1. apply (residual1_ok VC EV HE) in F1; auto. destruct F1 as (A0 & A1 & A2 & A3 & A4 & A5 & A6).
  assert (N1 : p_nfact q1 = p_nfact p) by (unfold m_residual1 in Q1; destruct (compute_residual_into _ _ _ _); inversion Q1; reflexivity).
  bindn E q2 J Q2. pose proof Q2 as F2. apply (sparse_ok VC EV Hok HE) in F2; auto. destruct F2 as (B0 & B1 & B2 & B3 & B4 & B5 & B6).
  unfold m_sparse in Q2. destruct (compute_sparse VC (p_heap q1) (p_graph q1)) as [g' o] eqn:Es. injection Q2 as Ep1 Eo.
  destruct o as [Mx|e|u]; simpl in Eo; try discriminate. injection Eo as Eo. rewrite A1, A2 in Es.
  destruct (onrun_jacobian _ _ _ _ H Es) as (HJ & H').
  assert (N2 : p_nfact q2 = p_nfact p /\ p_graph q2 = g') by (subst q2; auto). destruct N2 as (N2 & G2). clear Ep1.
  bindn E q3 r1 Q3. injection Q3 as <- <-. bindn E q4 st Q4. injection Q4 as <- <-. bindn E q5 it Q5. injection Q5 as <- <-.
  bindn E q6 u6 Q6.
  assert (C : p_heap q6 = p_heap p /\ p_graph q6 = g' /\ p_set q6 = p_set p /\ p_r1 q6 = p_r1 q1 /\ p_nfact q6 = p_nfact p /\ ss_lambda (p_cur q6) = lm_entry p).
  { unfold lm_entry. rewrite B3, A3 in Q6.
    destruct (ss_iter (p_cur p) =? 0); inversion Q6; subst; simpl; rewrite ?B3, ?A3, ?B4, ?A4; repeat split; congruence. }
  destruct C as (C1 & C2 & C3 & C4 & C5 & C6). clear Q6.
  bindn E q7 res Q7. destruct res as [acc dx'].
  assert (HR : lm_ready J (nmul (n:=RN) (nlit (1#2)) (sqnorm (p_r1 q2))) q6).
  { constructor; rewrite ?C1, ?C2; auto.
    - unfold same_settings. rewrite C3. exact Hset.
    - rewrite <- Eo. exact HJ.
    - rewrite C4. destruct H as (_ & A & _). rewrite <- A. exact A6.
    - rewrite C4, B6. reflexivity. }
  destruct (lm_loop_moves _ _ _ _ _ _ _ _ HR Q7) as (k & D1 & D2 & D3 & D4).
  exists k.
  assert (X : p_nfact p' = p_nfact q7 /\ at_point p' = at_point q7 /\ p_graph p' = p_graph q7).
  { clear -E. unfold at_point. cbn [fst snd] in E. destruct acc.
    - bindn E q8 x8 Q8. injection Q8 as <- <-. injection E as <-. auto.
    - bindn E q8 x8 Q8. injection Q8 as <- <-. bindn E q9 x9 Q9. injection Q9 as <- <-. bindn E q10 x10 Q10. bindn E q11 x11 Q11. injection Q11 as <- <-.
      injection E as <-. destruct (nltb _ _); injection Q10 as <- <-; auto. }
  destruct X as (X1 & X2 & X3). rewrite X1, X2, X3, D1, C5. split; auto.
  assert (Hq : p_heap p' = p_heap q7) by (unfold at_point in X2; congruence). rewrite Hq. split; auto.
  unfold at_point in D2 at 1. rewrite C1, C6 in D2. exact D2.
Qed.

Lemma lm_run n : forall p p', onrun (p_heap p) (p_graph p) -> heldI I (p_heap p) -> same_settings p -> st_method (p_set p) = LevenbergMarquardt ->
  opt_loop VC SV EV (Datatypes.S n) p = (p', Ok tt) -> p_caught p' = false ->
  exists k, p_nfact p' = p_nfact p + k /\ moves lmove k (p_heap p, lm_entry p) (at_point p').
Proof.
  induction n as [|n IH]; intros p p' H Hh Hset Hm E Hc.
  all: cbn [opt_loop] in E; destruct (one_step VC SV EV p) as [p1 [[]|e|u]] eqn:E1; [|inversion E; subst; discriminate|discriminate].
  all: pose proof (frames_one VC SV EV HE _ _ _ E1) as (_ & F1 & _); unfold one_step in E1; rewrite Hm in E1.
  all: destruct (lm_step_moves p p1 H Hh Hset E1) as (k & A1 & A2 & A3 & A4 & A5).
  all: assert (Stop : p_nfact p' = p_nfact p1 -> at_point p' = at_point p1 ->
         exists k, p_nfact p' = p_nfact p + k /\ moves lmove k (p_heap p, lm_entry p) (at_point p')) by (intros -> ->; eauto).
  - destruct (ss_status (p_cur p1)); repeat match type of E with (if ?b then _ else _) = _ => destruct b end; inversion E; subst; apply Stop; reflexivity.
  - assert (Go : opt_loop VC SV EV (Datatypes.S n) p1 = (p', Ok tt) -> exists k, p_nfact p' = p_nfact p + k /\ moves lmove k (p_heap p, lm_entry p) (at_point p')).
    { intros E2. assert (Hs1 : same_settings p1) by (unfold same_settings; rewrite F1; exact Hset).
      destruct (IH p1 p' A3 A4 Hs1) as (k2 & B1 & B2); auto; [congruence|].
      exists (k + k2). split; [rewrite B1, A1; lia|]. eapply moves_app; [exact A2|]. unfold at_point at 1.
      unfold lm_entry in B2. rewrite A5 in B2. exact B2. }
    change (match ss_status (p_cur p1) with
      | SINGULAR_HESSIAN | ILL_CONDITIONED | FAILED => (p1, Ok tt)
      | _ => if nltb (ss_delta (p_cur p1)) (st_step_tol (p_set p1)) then m_status SUCCESS p1 else
        if nltb (nsub (ss_resnorm (p_cur p)) (ss_resnorm (p_cur p1))) nzero then
          m_status (if nleb (ss_resnorm (p_init p1)) (ss_resnorm (p_cur p1)) then DIVERGED else SUCCESS) p1
        else if nltb (nsub (ss_resnorm (p_cur p)) (ss_resnorm (p_cur p1))) (st_res_tol (p_set p1)) then m_status SUCCESS p1
        else if nltb (nmul (nlit 10) (ss_resnorm (p_init p1))) (ss_resnorm (p_cur p1)) then m_fail DIVERGED p1
        else opt_loop VC SV EV (Datatypes.S n) p1
      end = (p', Ok tt)) in E.
    destruct (ss_status (p_cur p1)); repeat match type of E with (if ?b then _ else _) = _ => destruct b end; try (apply Go; exact E); inversion E; subst; apply Stop; reflexivity.
Qed.
End Rollback.
End Runs.

Section Whole.
Context {V : Type} (VC : vclass RN V) {S : Type} (SV : solver RN S).
Notation graph := (graph (N:=RN) (V:=V)).
Notation pstate := (pstate (N:=RN) (V:=V) (S:=S)).
Context (EV : nat -> env (N:=RN) (V:=V)).
Hypothesis Hok : vclass_ok VC.
Hypothesis HE : forall n, env_ok (EV n).

Lemma begun_on l1 l2 h1 g1 (p : pstate) g r : finalized_history VC l1 l2 h1 (p_heap p) g1 (p_graph p) ->
  compute_residual (EV (p_tick p)) (p_heap p) (p_graph p) = (g, Ok r) ->
  onrun VC l1 h1 g1 (p_heap p) (get_all_variables (p_graph p)) (get_all_factors (p_graph p)) (p_heap p) g /\
  Forall (fun a => a < length (p_heap p)) (get_all_variables (p_graph p)).
Proof.
  intros HF Cr. split.
  - eapply (onrun_traced VC Hok) with (g := p_graph p); [| |apply revalued_refl].
    + split; [eauto|]. split; auto. split; auto. apply revalued_refl.
    + eapply (traced_one VC (EV (p_tick p)) _ OResidual); simpl; auto. rewrite Cr. reflexivity.
  - destruct (finalized_facts VC Hok _ _ _ _ _ _ HF) as (_ & Hf & _). exact (ri_live _ _ _ (fin_reg _ _ _ Hf)).
Qed.

Theorem gn_path l1 l2 h1 g1 (p p' : pstate) :
  exact_solver SV -> finalized_history VC l1 l2 h1 (p_heap p) g1 (p_graph p) -> unfinalized VC ([], empty_graph) l1 ->
  let vs := get_all_variables (p_graph p) in let fs := get_all_factors (p_graph p) in
  Forall (factor_wf VC (p_heap p) vs) fs -> some_active VC (p_heap p) fs -> Forall buf_indep fs -> shape_contract VC (p_heap p) fs ->
  st_method (p_set p) = GaussNewton -> optimize VC SV EV p = (p', Ok tt) ->
  exists k h, moves (newton_step VC vs fs (st_rate (p_set p)) 0) k (p_heap p) h /\
    (p_heap p' = h \/ p_caught p' = true /\ broken_off_step VC vs fs (st_rate (p_set p)) 0 h (p_heap p')) /\
    (p_caught p' = false -> ss_iter (p_cur p') = k).
Proof.
  intros HX HF Hu vs fs Hwf Hact Hbuf Hsh Hm E. apply optimize_ok in E. destruct E as (Hg & g & r0 & p2 & Cr & L & ->).
  destruct (begun_on _ _ _ _ p g r0 HF Cr) as (On & Hl).
  destruct (gn_run VC SV EV Hok HE HX l1 h1 g1 (p_heap p) vs fs Hu Hl Hwf Hact Hbuf Hsh (st_max_iter (p_set p)) (begin_run g r0 p) p2 On Hm) as (k & h & A & B & C);
    [split; simpl; auto|reflexivity|exact L|].
  exists k, h. split; [exact A|].
  assert (X : p_heap (end_run p2) = p_heap p2 /\ p_caught (end_run p2) = p_caught p2 /\ ss_iter (p_cur (end_run p2)) = ss_iter (p_cur p2)).
  { unfold end_run. destruct (ss_status (p_cur p2)); auto. }
  destruct X as (-> & -> & ->). split; auto.
Qed.

Theorem lm_path (I : V -> Prop) l1 l2 h1 g1 (p p' : pstate) :
  undoable VC I -> (forall a v, nth_error (p_heap p) a = Some v -> I v) ->
  factorising_solver SV -> finalized_history VC l1 l2 h1 (p_heap p) g1 (p_graph p) -> unfinalized VC ([], empty_graph) l1 ->
  let vs := get_all_variables (p_graph p) in let fs := get_all_factors (p_graph p) in let st := p_set p in
  Forall (factor_wf VC (p_heap p) vs) fs -> some_active VC (p_heap p) fs -> Forall buf_indep fs -> shape_contract VC (p_heap p) fs ->
  st_method st = LevenbergMarquardt -> 1 <= st_max_iter st -> optimize VC SV EV p = (p', Ok tt) -> p_caught p' = false ->
  exists k, p_nfact p' = p_nfact p + k /\
    moves (lm_move VC vs fs (st_rate st) (st_up st) (st_down st) (st_max_lambda st)) k
      (p_heap p, st_lambda0 st) (p_heap p', ss_lambda (p_cur p')).
Proof.
  intros HI Hh HFz HF Hu vs fs st Hwf Hact Hbuf Hsh Hm Hn E Hc. apply optimize_ok in E. destruct E as (Hg & g & r0 & p2 & Cr & L & ->).
  destruct (begun_on _ _ _ _ p g r0 HF Cr) as (On & Hl).
  destruct (st_max_iter (p_set p)) as [|n] eqn:En; [unfold st in Hn; lia|].
  assert (X : p_heap (end_run p2) = p_heap p2 /\ p_caught (end_run p2) = p_caught p2 /\ ss_lambda (p_cur (end_run p2)) = ss_lambda (p_cur p2) /\ p_nfact (end_run p2) = p_nfact p2).
  { unfold end_run. destruct (ss_status (p_cur p2)); auto. }
  destruct X as (X1 & X2 & X3 & X4). rewrite X1, X3, X4. rewrite X2 in Hc.
  assert (SS : same_settings (st_rate st) (st_up st) (st_down st) (st_max_lambda st) (begin_run g r0 p)) by (repeat split; auto).
  destruct (lm_run VC SV EV Hok HE (factorising_exact SV HFz) l1 h1 g1 (p_heap p) vs fs Hu Hl Hwf Hact Hbuf Hsh I HI HFz _ _ _ _ n (begin_run g r0 p) p2 On Hh SS Hm L Hc) as (k & A & B).
  exists k. split; [exact A|exact B].
Qed.
End Whole.
