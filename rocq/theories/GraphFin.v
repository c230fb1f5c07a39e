(** State of a finalized graph and its preservation by value operations. *)
From Coq Require Import List Arith ZArith Bool Lia Permutation.
From Verif Require Import Base Sparse Graph SpecGraph ListLemmas GraphLayout.
Import ListNotations.

Section Fin.
Context {N : num} {V : Type} (VC : vclass N V).
Notation factor := (factor (N:=N) (V:=V)).
Notation graph := (graph (N:=N) (V:=V)).
Notation env := (env (N:=N) (V:=V)).
Notation op := (op (N:=N) (V:=V)).
Hypothesis Hok : vclass_ok VC.

Lemma run_app s l1 l2 : run VC s (l1 ++ l2) = run VC (run VC s l1) l2.
Proof. revert s; induction l1 as [|[E o] t IH]; simpl; auto. Qed.

(** buffers of the factors *)
Definition comps_ok (fs : list factor) (comps : list (list (mat N))) : Prop := Forall2 buf_reach fs comps.

Record fin (h : heap) (g : graph) : Prop := Fin {
  fin_reg : reg_inv VC h g;
  fin_fine : factors_fine VC h g;
  fin_le : ncols VC h g <= nrows g;
  fin_lay : g_lay g = Layout true (vpl VC h g) (fpl VC h g) (nrows g) (ncols VC h g);
  fin_init : sc_init (g_sc g) = true;
  fin_rowidx : sc_rowidx (g_sc g) = map (fun c => sub c (cells_of VC h g)) (seq 0 (ncols VC h g));
  fin_data : map (@length N) (sc_data (g_sc g)) = cols_counts VC h g;
  fin_comps : comps_ok (rg_factors (g_reg g)) (sc_comps (g_sc g))
}.

Lemma final_graph_fin h g : reg_inv VC h g -> factors_fine VC h g -> ncols VC h g <= nrows g -> fin h (final_graph VC h g).
Proof.
  intros Hi Hf Hle.
  constructor; simpl; auto.
  - eapply reg_inv_heap; [apply hpres_refl| |exact Hi]. reflexivity.
  - rewrite map_map. etransitivity; [|apply map_id]. apply map_ext. intros; apply repeat_length.
  - apply Forall2_nth. rewrite repeat_length. split; auto. intros i f b Hfi Hb.
    rewrite nth_error_repeat' in Hb. destruct (i <? _); inversion Hb. constructor.
Qed.

(** ** Dependence of the layout on the heap *)
Section Transport.
Variables (h h' : @heap V).
Hypothesis Hp : hpres VC true h h'.

Lemma vp_list_pres vs col : Forall (fun a => a < length h) vs -> vp_list VC h' vs col = vp_list VC h vs col.
Proof.
  intros H. revert col. induction H as [|a t Ha _ IH]; simpl; intros col; auto.
  rewrite (idz_pres VC true h h' a Hp Ha), (width_pres VC h h' a Hp Ha), IH. reflexivity.
Qed.

Lemma occs_pres vp vars : vars_fine VC h vp vars -> occs VC h' vp vars = occs VC h vp vars.
Proof.
  induction 1 as [|p t (a & v & -> & Ha & Hv) _ IH]; simpl; auto. rewrite IH. f_equal.
  rewrite Ha. destruct (Hp _ _ Ha) as (v' & Ha' & I & S & C). rewrite Ha', C, I; auto.
Qed.

Lemma vars_fine_pres vp vars : vars_fine VC h vp vars -> vars_fine VC h' vp vars.
Proof.
  induction 1 as [|p t (a & v & -> & Ha & Hv) _ IH]; simpl; constructor; auto.
  destruct (Hp _ _ Ha) as (v' & Ha' & I & S & C). exists a, v'. rewrite I, C; auto.
Qed.

Lemma fp_list_pres vp fs i row :
  Forall (fun f => vars_fine VC h vp (f_vars f)) fs -> fp_list VC h' vp fs i row = fp_list VC h vp fs i row.
Proof.
  intros H. revert i row. induction H as [|f t Hf _ IH]; simpl; intros; auto. rewrite IH, (occs_pres _ _ Hf). auto.
Qed.

Lemma allcells_pres vp fs row :
  Forall (fun f => vars_fine VC h vp (f_vars f)) fs -> allcells VC h' vp fs row = allcells VC h vp fs row.
Proof.
  intros H. revert row. induction H as [|f t Hf _ IH]; simpl; intros; auto. rewrite IH.
  unfold fcells. rewrite (occs_pres _ _ Hf). auto.
Qed.

Lemma total_cols_pres vs : Forall (fun a => a < length h) vs -> total_cols VC h' vs = total_cols VC h vs.
Proof.
  intros H. unfold total_cols. f_equal. apply map_ext_in. intros a Ha. rewrite Forall_forall in H.
  apply width_pres; auto.
Qed.

Lemma col_start_pres vs k : Forall (fun a => a < length h) vs -> col_start VC h' vs k = col_start VC h vs k.
Proof.
  intros H. unfold col_start. f_equal. f_equal. apply map_ext_in. intros a Ha. rewrite Forall_forall in H.
  apply width_pres; auto.
Qed.

Context (g g' : graph) (Hr : g_reg g' = g_reg g).

Lemma vpl_pres : reg_inv VC h g -> vpl VC h' g' = vpl VC h g.
Proof. intros Hi. unfold vpl. rewrite Hr. apply vp_list_pres, Hi. Qed.
Lemma ncols_pres : reg_inv VC h g -> ncols VC h' g' = ncols VC h g.
Proof. intros Hi. unfold ncols. rewrite Hr. apply total_cols_pres, Hi. Qed.
Lemma nrows_pres : nrows g' = nrows g.
Proof. unfold nrows. rewrite Hr. auto. Qed.
Lemma factors_fine_pres : reg_inv VC h g -> factors_fine VC h g -> factors_fine VC h' g'.
Proof.
  intros Hi Hf. unfold factors_fine. rewrite Hr, vpl_pres by auto. eapply Forall_impl; [|exact Hf].
  simpl. intros f. apply vars_fine_pres.
Qed.
Lemma fpl_pres : reg_inv VC h g -> factors_fine VC h g -> fpl VC h' g' = fpl VC h g.
Proof. intros Hi Hf. unfold fpl. rewrite Hr, vpl_pres by auto. apply fp_list_pres. auto. Qed.
Lemma cells_of_pres : reg_inv VC h g -> factors_fine VC h g -> cells_of VC h' g' = cells_of VC h g.
Proof. intros Hi Hf. unfold cells_of. rewrite Hr, vpl_pres by auto. apply allcells_pres. auto. Qed.
Lemma cols_counts_pres : reg_inv VC h g -> factors_fine VC h g -> cols_counts VC h' g' = cols_counts VC h g.
Proof. intros Hi Hf. unfold cols_counts. rewrite cells_of_pres, ncols_pres by auto. auto. Qed.

Lemma fin_transport : fin h g -> g_lay g' = g_lay g ->
  sc_init (g_sc g') = true -> sc_rowidx (g_sc g') = sc_rowidx (g_sc g) ->
  map (@length N) (sc_data (g_sc g')) = map (@length N) (sc_data (g_sc g)) ->
  comps_ok (rg_factors (g_reg g)) (sc_comps (g_sc g')) -> fin h' g'.
Proof.
  intros [Fr Ff Fl Fy Fi Fx Fd Fc] Hl H1 H2 H3 H4. constructor.
  - eapply reg_inv_heap; [apply hpres_weaken; exact Hp|exact Hr|exact Fr].
  - apply factors_fine_pres; auto.
  - rewrite ncols_pres, nrows_pres; auto.
  - rewrite Hl, Fy, vpl_pres, fpl_pres, nrows_pres, ncols_pres; auto.
  - auto.
  - rewrite H2, Fx, cells_of_pres, ncols_pres; auto.
  - rewrite H3, Fd, cols_counts_pres; auto.
  - rewrite Hr; auto.
Qed.
End Transport.

(** ** Effect of the sparse computation on the auxiliary arrays *)
Lemma sparse_vars_lengths h (g : graph) vars js (data : list (list N)) cur data' cur' r :
  sparse_vars_loop VC h g vars js data cur = (data', cur', r) -> map (@length N) data' = map (@length N) data.
Proof.
  revert js data cur. induction vars as [|p t IH]; simpl; intros js data cur H; [inversion H; auto|].
  destruct js as [|J jt]; [inversion H; auto|]. destruct p as [a|]; [|inversion H; auto].
  destruct (hget h a) as [v| |]; try (inversion H; auto; fail).
  destruct (variable_placement g (vid VC v)) as [q|]; [|eauto].
  destruct (fill_data (block_values J (vp_index q)) data cur) as [[d1 c1] [|e|u]] eqn:F;
    apply fill_data_lengths in F; destruct F as [F _].
  - rewrite <- F. eauto.
  - inversion H; subst; auto.
  - inversion H; subst; auto.
Qed.

Lemma sparse_loop_lengths h (g : graph) n i comps (data : list (list N)) cur comps' data' r fs :
  comps_ok fs comps ->
  (forall k fp f, alookup Nat.eqb k (ly_fplace (g_lay g)) = Some fp -> fp_factor fp = Some f -> nth_error fs k = Some f) ->
  sparse_factors_loop VC h g n i comps data cur = (comps', data', r) ->
  map (@length N) data' = map (@length N) data /\ comps_ok fs comps'.
Proof.
  intros Hc Hf. revert i comps data cur Hc. induction n; simpl; intros i comps data cur Hc H.
  - inversion H; subst; auto.
  - destruct (alookup Nat.eqb i _) as [fp|] eqn:L; [|inversion H; subst; auto].
    destruct (nth_error comps i) as [b|] eqn:Hb; [|inversion H; subst; auto].
    destruct (fp_factor fp) as [f|] eqn:Ff; [|inversion H; subst; auto].
    specialize (Hf _ _ _ L Ff).
    assert (Hu : forall js, js = fst (f_jac f h b) -> comps_ok fs (lupd i js comps)).
    { intros js ->. unfold comps_ok in *. apply Forall2_nth in Hc. destruct Hc as [Lc Hc].
      apply Forall2_nth. rewrite lupd_length. split; auto. intros k f' b' Hf' Hb'.
      rewrite lupd_nth in Hb'. destruct (Nat.eqb_spec i k); subst; simpl in Hb'; eauto.
      destruct (_ <? _); [|eauto]. inversion Hb'; subst. replace f' with f by congruence.
      apply br_step. eauto. }
    destruct (f_jac f h b) as [js [[]|e|u]] eqn:J.
    + destruct (sparse_vars_loop VC h g (f_vars f) js data cur) as [[d1 c1] [|e|u]] eqn:S;
        apply sparse_vars_lengths in S.
      * apply IHn in H; auto. destruct H as [H1 H2]. split; auto. congruence.
      * inversion H; subst; auto.
      * inversion H; subst; auto.
    + inversion H; subst; auto.
    + inversion H; subst; auto.
Qed.

Lemma fpl_lookup_factor h (g : graph) k fp f : fin h g ->
  alookup Nat.eqb k (ly_fplace (g_lay g)) = Some fp -> fp_factor fp = Some f ->
  nth_error (rg_factors (g_reg g)) k = Some f.
Proof.
  intros Hf L F. rewrite (fin_lay _ _ Hf) in L. simpl in L. unfold fpl in L.
  destruct (nth_error (rg_factors (g_reg g)) k) as [f'|] eqn:E.
  - pose proof (fp_list_lookup VC h (vpl VC h g) _ 0 0 _ _ E) as L'. simpl in L'. rewrite L in L'.
    inversion L'; subst. simpl in F. auto.
  - apply nth_error_None in E. pose proof (fp_list_lookup_none VC h (vpl VC h g) _ 0 0 _ E) as L'. simpl in L'. congruence.
Qed.

Lemma compute_sparse_fin h (g g' : graph) r : compute_sparse VC h g = (g', r) -> fin h g -> fin h g'.
Proof.
  intros H Hf. pose proof (compute_sparse_reg _ _ _ _ _ H) as (R & L & _).
  unfold compute_sparse in H. rewrite (fin_lay _ _ Hf) in H. simpl in H. rewrite (fin_init _ _ Hf) in H. simpl in H.
  destruct (sparse_factors_loop VC h g _ 0 _ _ _) as [[comps data] o] eqn:S.
  destruct (sparse_loop_lengths _ _ _ _ _ _ _ _ _ _ _ (fin_comps _ _ Hf) (fun k fp f => fpl_lookup_factor h g k fp f Hf) S) as [S1 S2].
  assert (D : sc_init (g_sc g') = true /\ sc_rowidx (g_sc g') = sc_rowidx (g_sc g) /\ sc_data (g_sc g') = data /\ sc_comps (g_sc g') = comps).
  { destruct o as [|e|u].
    - destruct (sc_valid (g_sc g)).
      + destruct (copy_sparse _ _ _ _) as [m [|e|u]]; inversion H; subst; simpl; auto.
      + destruct (populate _ _ _ _ _) as [m|e|u]; inversion H; subst; simpl; auto.
    - inversion H; subst; simpl; auto.
    - inversion H; subst; simpl; auto. }
  destruct D as (D1 & D2 & D3 & D4).
  apply (fin_transport h h (hpres_refl VC true h) g g' R Hf L D1 D2); [rewrite D3; auto|rewrite D4; auto].
Qed.

Lemma step_value_keeps E s o s' ans : step VC E s o = (s', ans) -> value_op o ->
  g_reg (snd s') = g_reg (snd s) /\ g_lay (snd s') = g_lay (snd s).
Proof.
  destruct s as [h g]. intros Es Hv. destruct o; simpl in *; try contradiction;
    repeat match goal with
    | H : context [let '(_, _) := ?t in _] |- _ => destruct t eqn:?
    end; inversion Es; subst; clear Es; simpl; auto.
  - apply compute_residual_reg in Heqp. tauto.
  - apply compute_dense_reg in Heqp. tauto.
  - apply compute_both_reg in Heqp. tauto.
  - apply compute_sparse_reg in Heqp. tauto.
Qed.

Lemma step_fin E s o s' ans : step VC E s o = (s', ans) -> value_op o -> fin (fst s) (snd s) -> fin (fst s') (snd s').
Proof.
  intros Es Hv Hf. pose proof (step_heap_pres _ Hok _ _ _ _ _ Es) as [_ Hp]. specialize (Hp Hv).
  destruct (step_value_keeps _ _ _ _ _ Es Hv) as [Hr Hl].
  destruct s as [h g], s' as [h' g']. simpl in *.
  assert (Hsame : g_sc g' = g_sc g -> fin h' g').
  { intros E'. apply (fin_transport h h' Hp g g' Hr Hf Hl); rewrite E'; auto; apply Hf. }
  destruct o; simpl in *; try contradiction;
    repeat match goal with
    | H : context [let '(_, _) := ?t in _] |- _ => destruct t eqn:?
    end; inversion Es; subst; clear Es; simpl; auto.
  - apply compute_residual_reg in Heqp. apply Hsame. tauto.
  - apply compute_dense_reg in Heqp. apply Hsame. tauto.
  - apply compute_both_reg in Heqp. apply Hsame. tauto.
  - eapply compute_sparse_fin; eauto.
Qed.

Lemma run_value l s : Forall (fun eo : env * op => env_ok (fst eo) /\ value_op (snd eo)) l ->
  fin (fst s) (snd s) ->
  fin (fst (run VC s l)) (snd (run VC s l)) /\ hpres VC true (fst s) (fst (run VC s l)) /\
  g_reg (snd (run VC s l)) = g_reg (snd s) /\ g_lay (snd (run VC s l)) = g_lay (snd s).
Proof.
  revert s. induction l as [|[E o] t IH]; simpl; intros s Hl Hf.
  - split; auto. split; auto. apply hpres_refl.
  - inversion Hl as [|x y [_ Hv] Ht]; subst. simpl in Hv.
    destruct (step VC E s o) as [s' ans] eqn:Es. simpl.
    pose proof (step_heap_pres _ Hok _ _ _ _ _ Es) as [_ Hp]. specialize (Hp Hv).
    destruct (step_value_keeps _ _ _ _ _ Es Hv) as [Hr Hly].
    destruct (IH s' Ht (step_fin _ _ _ _ _ Es Hv Hf)) as (A & B & C & D).
    split; auto. split; [eapply hpres_trans; eauto|]. split; congruence.
Qed.

Lemma finalized_facts l1 l2 h1 h (g1 g : graph) : finalized_history VC l1 l2 h1 h g1 g ->
  fin h1 g1 /\ fin h g /\ hpres VC true h1 h /\ g_reg g = g_reg g1 /\ g_lay g = g_lay g1.
Proof.
  intros (g0 & R1 & F & Hl & R2).
  pose proof (run_reg_inv VC Hok l1 ([], empty_graph) (reg_inv_empty VC [])) as Hi. rewrite R1 in Hi. simpl in Hi.
  destruct (finalize_ok_fine VC _ _ _ Hi F) as (Hf & Hle & ->).
  pose proof (final_graph_fin _ _ Hi Hf Hle) as Hfin.
  destruct (run_value l2 (h1, final_graph VC h1 g0) Hl Hfin) as (A & B & C & D). rewrite R2 in *. simpl in *.
  auto.
Qed.
End Fin.
