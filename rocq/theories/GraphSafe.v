(** Absence of undefined behaviour after a successful finalization. *)
From Coq Require Import List Arith ZArith Bool Lia Permutation.
From Verif Require Import Base Sparse Graph SpecGraph ListLemmas GraphLayout GraphFin GraphBasic GraphVec GraphDense GraphSparse.
Import ListNotations.

Section Safe.
Context {N : num} {V : Type} (VC : vclass N V).
Notation factor := (factor (N:=N) (V:=V)).
Notation graph := (graph (N:=N) (V:=V)).
Notation env := (env (N:=N) (V:=V)).
Notation op := (op (N:=N) (V:=V)).
Hypothesis Hok : vclass_ok VC.

Definition entry_ok (g : graph) (e : nat * fplacement) : Prop :=
  exists f, nth_error (get_all_factors g) (fst e) = Some f /\ fp_factor (snd e) = Some f /\
       fp_rindex (snd e) = row_start (get_all_factors g) (fst e) /\ fp_rdim (snd e) = f_rsize f.

Lemma residual_loop_safe h (g : graph) L buf : Forall (entry_ok g) L -> Forall (factor_safe VC h) (get_all_factors g) ->
  length buf = nrows g -> forall buf' u, residual_loop h L buf <> (buf', UB u).
Proof.
  intros HL HS. rewrite Forall_forall in HS. revert buf. induction HL as [|[k fp] t (f & Hk & Hf & Hr & Hd) _ IH]; simpl; intros buf Hb buf' u.
  - discriminate.
  - simpl in *. rewrite Hf. destruct (HS f (nth_error_In _ _ Hk)) as (S1 & S2 & _).
    destruct (f_res_ref f h) as [r|e|u'] eqn:R; [|discriminate|exfalso; eapply S1; eauto].
    specialize (S2 _ eq_refl). unfold write_segment. rewrite Hr, Hd, S2, Nat.eqb_refl.
    pose proof (row_start_le _ _ _ Hk) as Hle. unfold nrows in Hb. fold (get_all_factors g) in Hb.
    rewrite (proj2 (Nat.leb_le _ _)) by lia. apply IH.
    unfold nrows. fold (get_all_factors g). rewrite !app_length, firstn_length, skipn_length. lia.
Qed.

Lemma dense_vars_safe h (g : graph) row rs vars js J : vars_fine VC h (vpl VC h g) vars -> length vars <= length js ->
  forall J' u, dense_vars_loop VC h g row rs vars js J <> (J', UB u).
Proof.
  intros Hv. revert js J. induction Hv as [|p t (a & v & -> & Ha & _) _ IH]; simpl; intros js J HL J' u; [discriminate|].
  destruct js as [|B jt]; simpl in HL; [lia|]. unfold hget. rewrite Ha.
  destruct (mat_is_empty B). { destruct (vconst VC v); [apply IH; lia|discriminate]. }
  destruct (variable_placement g (vid VC v)); [|apply IH; lia].
  destruct (_ || _); [discriminate|]. destruct (negb _); [discriminate|]. destruct (negb _); [discriminate|]. apply IH; lia.
Qed.

Lemma dense_loop_safe h (g : graph) L J : fin VC h g -> Forall (entry_ok g) L -> Forall (factor_safe VC h) (get_all_factors g) ->
  forall J' u, dense_loop VC h g L J <> (J', UB u).
Proof.
  intros Hf HL HS. pose proof (fin_fine _ _ _ Hf) as Hfine. unfold factors_fine in Hfine. fold (get_all_factors g) in Hfine.
  rewrite Forall_forall in HS, Hfine. revert J.
  induction HL as [|[k fp] t (f & Hk & Hff & Hr & Hd) _ IH]; simpl; intros J J' u; [discriminate|].
  simpl in *. rewrite Hff. pose proof (nth_error_In _ _ Hk) as Hin. destruct (HS f Hin) as (_ & _ & S3).
  destruct (S3 [] (br_nil f)) as [S4 S5]. destruct (f_jac f h []) as [js [[]|e|u']]; simpl in *.
  - destruct (S5 eq_refl) as [HLen _].
    pose proof (dense_vars_safe h g (fp_rindex fp) (fp_rdim fp) (f_vars f) js J (Hfine f Hin) HLen) as D.
    destruct (dense_vars_loop _ _ _ _ _ _ _ _) as [J1 [[]|e|u']]; [apply IH|discriminate|exfalso; eapply D; eauto].
  - discriminate.
  - exfalso. eapply S4; eauto.
Qed.

Lemma fill_data_safe cells (data : list (list N)) cur : Forall (fun p => fst p < length cur) cells ->
  (forall d c u, fill_data cells data cur <> (d, c, UB u)) /\
  (forall d c r, fill_data cells data cur = (d, c, r) -> length c = length cur).
Proof.
  intros H. revert data cur H. induction cells as [|[c x] t IH]; simpl; intros data cur H; [split; [discriminate|intros d c r E; inversion E; auto]|].
  inversion H; subst. simpl in *.
  destruct (nth_error cur c) as [k|] eqn:Ek; [|apply nth_error_None in Ek; lia].
  destruct (nth_error data c); [|split; [discriminate|intros d c' r E; inversion E; auto]].
  destruct (k <? length l); [|split; [discriminate|intros d c' r E; inversion E; auto]].
  destruct (IH (put2 c k x data) (lupd c (S k) cur)) as [A B]; [rewrite lupd_length; auto|]. split; auto.
  intros d c' r E. rewrite (B _ _ _ E). apply lupd_length.
Qed.

Lemma block_values_bound (B : mat N) off n : off + mcols B <= n -> Forall (fun p => fst p < n) (block_values B off).
Proof. intros H. apply (gcells_fst_bound (mrows B) off (mcols B) (fun r c => mat_at B r c)). auto. Qed.

Lemma sparse_vars_safe h (g : graph) rs vars js (data : list (list N)) cur : fin VC h g ->
  (forall p, In p vars -> exists a v, p = Some a /\ nth_error h a = Some v /\ (vconst VC v = false -> In a (get_all_variables g))) ->
  blocks_ok VC h rs vars js -> length cur = ncols VC h g ->
  (forall d c u, sparse_vars_loop VC h g vars js data cur <> (d, c, UB u)) /\
  (forall d c r, sparse_vars_loop VC h g vars js data cur = (d, c, r) -> length c = ncols VC h g).
Proof.
  intros Hf. revert js data cur. induction vars as [|p t IH]; simpl; intros js data cur Hl Hb Hc.
  - split; [discriminate|]. intros d c r E. inversion E; subst; auto.
  - destruct js as [|B jt]; [destruct Hb as [L _]; simpl in L; lia|].
    destruct (Hl p (or_introl eq_refl)) as (a & v & -> & Ha & Hv). unfold hget. rewrite Ha.
    pose proof (blocks_ok_tail _ _ _ _ _ _ _ Hb) as Hbt. destruct Hb as [_ Hb]. specialize (Hb 0 a v B eq_refl Ha eq_refl).
    assert (Hlt : forall p, In p t -> exists a v, p = Some a /\ nth_error h a = Some v /\ (vconst VC v = false -> In a (get_all_variables g)))
      by (intros p Hp; apply Hl; auto).
    destruct (variable_placement g (vid VC v)) as [q|] eqn:P; [|apply IH; auto].
    assert (Hbound : Forall (fun p => fst p < length cur) (block_values B (vp_index q))).
    { destruct (vconst VC v) eqn:C.
      - assert (Eb : block_values B (vp_index q) = []).
        { unfold block_values. destruct Hb as [E0|E0]; rewrite E0; simpl; auto. induction (seq 0 (mrows B)); simpl; auto. }
        rewrite Eb. constructor.
      - apply block_values_bound. destruct (fin_placed VC h g Hf a v (Hv eq_refl) Ha) as (m0 & Hm0 & Hpl).
        rewrite Hpl in P. inversion P; subst q. simpl. destruct Hb as [_ ->].
        pose proof (col_start_le VC h _ _ _ Hm0) as Hcl. rewrite (width_nonconst VC h a v Ha C) in Hcl. rewrite Hc. exact Hcl. }
    destruct (fill_data_safe _ data cur Hbound) as [A1 A2].
    destruct (fill_data (block_values B (vp_index q)) data cur) as [[d1 c1] [[]|e|u]] eqn:F.
    + apply IH; auto. rewrite (A2 _ _ _ eq_refl). auto.
    + split; [discriminate|]. intros d c r E. inversion E; subst. rewrite (A2 _ _ _ eq_refl). auto.
    + exfalso. eapply A1; eauto.
Qed.

Lemma sparse_factors_safe h (g : graph) n i comps (data : list (list N)) cur : fin VC h g ->
  Forall (factor_safe VC h) (get_all_factors g) -> Forall (lists_members VC h (get_all_variables g)) (get_all_factors g) ->
  comps_ok (get_all_factors g) comps -> i + n <= length (get_all_factors g) -> length cur = ncols VC h g ->
  forall c d u, sparse_factors_loop VC h g n i comps data cur <> (c, d, UB u).
Proof.
  intros Hf HS HM. revert i comps data cur. induction n; simpl; intros i comps data cur Hc Hn Hcur c d u; [discriminate|].
  destruct (nth_error (get_all_factors g) i) as [f|] eqn:Hi; [|apply nth_error_None in Hi; lia].
  pose proof (proj1 (Forall2_nth _ _ _) Hc) as [Hcl Hcn].
  destruct (nth_error comps i) as [b|] eqn:Hb; [|apply nth_error_None in Hb; lia].
  rewrite (fin_lay _ _ _ Hf). cbn [ly_fplace]. unfold fpl.
  pose proof (fp_list_lookup VC h (vpl VC h g) (rg_factors (g_reg g)) 0 0 i f Hi) as L. simpl in L. rewrite L. cbn [fp_factor].
  pose proof (nth_error_In _ _ Hi) as Hin. pose proof (Hcn _ _ _ Hi Hb) as Hreach.
  rewrite Forall_forall in HS, HM. destruct (HS f Hin) as (_ & _ & S3). destruct (S3 b Hreach) as [S4 S5].
  pose proof (fin_fine _ _ _ Hf) as Hfine. unfold factors_fine in Hfine. rewrite Forall_forall in Hfine.
  destruct (f_jac f h b) as [js [[]|e|u']] eqn:J; simpl in S4, S5; [|discriminate|exfalso; eapply S4; eauto].
  destruct (sparse_vars_safe h g (f_rsize f) (f_vars f) js data cur Hf) as [A1 A2]; auto.
  { intros p Hp. specialize (Hfine f Hin). unfold vars_fine in Hfine. rewrite Forall_forall in Hfine.
    destruct (Hfine p Hp) as (a & v & -> & Ha & _). exists a, v. split; auto. split; auto. intros C. eapply (HM f Hin); eauto. }
  destruct (sparse_vars_loop VC h g (f_vars f) js data cur) as [[d1 c1] [[]|e|u']] eqn:SV.
  - apply IHn; auto.
    + unfold comps_ok. apply Forall2_nth. rewrite lupd_length. split; auto. intros k f' b' Hf' Hb'.
      rewrite lupd_nth in Hb'. destruct (Nat.eqb_spec i k); subst; simpl in Hb'; eauto.
      destruct (_ <? _); [|eauto]. inversion Hb'; subst. replace f' with f by congruence.
      replace b' with (fst (f_jac f h b)) by (rewrite J; auto). apply br_step. auto.
    + lia.
    + apply (A2 _ _ _ eq_refl).
  - discriminate.
  - exfalso. eapply A1; eauto.
Qed.

(** dimensions of the Eigen matrix *)
Definition sdim (h : @heap V) (g : graph) : Prop :=
  sp_rows (sc_mat (g_sc g)) = nrows g /\ length (sp_cols (sc_mat (g_sc g))) = ncols VC h g.

Lemma populate_col_safe col rows (vals : list N) (m : spmat N) : length rows = length vals -> col < length (sp_cols m) ->
  Forall (fun r => r < sp_rows m) rows ->
  exists m', populate_col col rows vals m = Ok m' /\ sp_rows m' = sp_rows m /\ length (sp_cols m') = length (sp_cols m).
Proof.
  revert vals m. induction rows as [|r t IH]; intros [|x xs] m HL Hc Hr; simpl in *; try discriminate; eauto.
  inversion Hr; subst. unfold sp_put. rewrite (proj2 (Nat.ltb_lt _ _)) by auto.
  destruct (nth_error (sp_cols m) col) as [sc|] eqn:E; [|apply nth_error_None in E; lia]. simpl.
  destruct (IH xs (SpMat (sp_rows m) (lupd col (col_put r x sc) (sp_cols m)))) as (m' & E' & A & B); auto.
  - simpl. rewrite lupd_length. auto.
  - exists m'. simpl in *. rewrite lupd_length in B. auto.
Qed.

Lemma populate_safe n col (rows : list (list nat)) (data : list (list N)) (m : spmat N) :
  col + n = length rows -> map (@length nat) rows = map (@length N) data -> length (sp_cols m) = length rows ->
  Forall (Forall (fun r => r < sp_rows m)) rows ->
  exists m', populate n col rows data m = Ok m' /\ sp_rows m' = sp_rows m /\ length (sp_cols m') = length (sp_cols m).
Proof.
  revert col m. induction n; simpl; intros col m HL Hm Hlen Hr; eauto.
  assert (Hld : length data = length rows) by (rewrite <- (map_length (@length N) data), <- Hm, map_length; auto).
  destruct (nth_error rows col) as [r|] eqn:Er; [|apply nth_error_None in Er; lia].
  destruct (nth_error data col) as [d|] eqn:Ed; [|apply nth_error_None in Ed; lia].
  assert (Hrd : length r = length d).
  { assert (X : nth_error (map (@length nat) rows) col = nth_error (map (@length N) data) col) by (rewrite Hm; auto).
    rewrite !nth_error_map, Er, Ed in X. simpl in X. congruence. }
  destruct (populate_col_safe col r d m Hrd) as (m1 & E1 & A1 & B1); [lia| |].
  { rewrite Forall_forall in Hr. apply Hr. eapply nth_error_In; eauto. }
  assert (Hgoal : exists m', populate n (S col) rows data m1 = Ok m' /\ sp_rows m' = sp_rows m /\ length (sp_cols m') = length (sp_cols m)).
  { destruct (IHn (S col) m1) as (m' & E' & A & B); auto; try lia. rewrite A1; auto. exists m'. split; auto. split; congruence. }
  destruct r; rewrite E1; simpl; auto.
Qed.

Lemma copy_loop_safe n col run total (rows : list (list nat)) (data : list (list N)) mem : col + n = length rows ->
  length data = length rows -> forall m u, copy_loop n col run total rows data mem <> (m, UB u).
Proof.
  revert col run mem. induction n; simpl; intros col run mem HL Hd m u; [discriminate|].
  destruct (nth_error rows col) as [r|] eqn:Er; [|apply nth_error_None in Er; lia].
  destruct (nth_error data col) as [d|] eqn:Ed; [|apply nth_error_None in Ed; lia].
  destruct (negb _); [discriminate|]. destruct (_ =? 0); [apply IHn; lia|]. destruct (_ <=? _); [discriminate|].
  destruct (_ <? _); [discriminate|]. apply IHn; lia.
Qed.

Lemma cols_of_memory_length (cols : list (spcol N)) mem : length (cols_of_memory cols mem) = length cols.
Proof. revert mem. induction cols; simpl; auto. Qed.

Lemma cells_rows_bound h (g : graph) c : Forall (fun r => r < nrows g) (sub c (cells_of VC h g)).
Proof.
  unfold cells_of, nrows, total_rows. generalize (rg_factors (g_reg g)) as fs. intros fs.
  assert (H : forall row, Forall (fun r => r < row + list_sum (map f_rsize fs)) (sub c (allcells VC h (vpl VC h g) fs row))).
  { induction fs as [|f t IH]; simpl; intros row; [constructor|]. rewrite sub_app. apply Forall_app. split.
    - unfold fcells. induction (occs VC h (vpl VC h g) (f_vars f)) as [|[b d] l IHl]; simpl; [constructor|].
      rewrite sub_app. apply Forall_app. split; auto. rewrite sub_gcells. destruct (_ && _); [|constructor].
      apply Forall_forall. intros x Hx. apply in_map_iff in Hx. destruct Hx as (r & <- & Hr). apply in_seq in Hr. lia.
    - eapply Forall_impl; [|apply IH]. simpl. intros; lia. }
  apply (H 0).
Qed.

Lemma compute_sparse_dim h (g g' : graph) r : fin VC h g -> sdim h g -> compute_sparse VC h g = (g', r) -> sdim h g'.
Proof.
  intros Hf [S1 S2] H. pose proof (compute_sparse_reg _ _ _ _ _ H) as (R & L & _). unfold compute_sparse in H.
  assert (Hn : ncols VC h g' = ncols VC h g) by (apply (ncols_pres VC h h); auto using hpres_refl, fin_reg).
  assert (Hr : nrows g' = nrows g) by (apply nrows_pres; auto). unfold sdim. rewrite Hn, Hr. clear Hn Hr.
  destruct (negb (ly_final (g_lay g))); [inversion H; subst; auto|].
  destruct (negb (sc_init (g_sc g))); [inversion H; subst; auto|].
  destruct (sparse_factors_loop VC h g _ 0 _ _ _) as [[comps data] o] eqn:S.
  destruct (sparse_loop_lengths VC _ _ _ _ _ _ _ _ _ _ _ (fin_comps _ _ _ Hf) (fun k fp f => fpl_lookup_factor VC h g k fp f Hf) S) as [D1 _].
  destruct o as [[]|e|u]; [|inversion H; subst; auto..].
  destruct (sc_valid (g_sc g)).
  - unfold copy_sparse in H. destruct (_ =? 0); [inversion H; subst; auto|].
    destruct (copy_loop _ _ _ _ _ _ _) as [mem o]. assert (X : length (cols_of_memory (sp_cols (sc_mat (g_sc g))) mem) = ncols VC h g)
      by (rewrite cols_of_memory_length; auto).
    destruct o as [[]|e|u]; inversion H; subst; simpl; auto.
  - destruct (populate_safe (ncols VC h g) 0 (sc_rowidx (g_sc g)) data (sc_mat (g_sc g))) as (m' & E & A & B).
    + rewrite (fin_rowidx _ _ _ Hf), map_length, seq_length. auto.
    + rewrite D1, (fin_data _ _ _ Hf), (fin_rowidx _ _ _ Hf), map_map. auto.
    + rewrite (fin_rowidx _ _ _ Hf), map_length, seq_length. auto.
    + rewrite (fin_rowidx _ _ _ Hf), S1. apply Forall_forall. intros l Hl. apply in_map_iff in Hl. destruct Hl as (c & <- & _). apply cells_rows_bound.
    + rewrite (fin_lay _ _ _ Hf) in H. cbn [ly_nval] in H. rewrite E in H. inversion H; subst; simpl. split; congruence.
Qed.

Lemma compute_sparse_safe h (g : graph) : fin VC h g -> sdim h g ->
  Forall (factor_safe VC h) (get_all_factors g) -> Forall (lists_members VC h (get_all_variables g)) (get_all_factors g) ->
  forall g' u, compute_sparse VC h g <> (g', UB u).
Proof.
  intros Hf [S1 S2] HS HM g' u. unfold compute_sparse.
  destruct (negb (ly_final (g_lay g))); [discriminate|].
  destruct (negb (sc_init (g_sc g))); [discriminate|].
  destruct (sparse_factors_loop VC h g _ 0 _ _ _) as [[comps data] o] eqn:S.
  destruct (sparse_loop_lengths VC _ _ _ _ _ _ _ _ _ _ _ (fin_comps _ _ _ Hf) (fun k fp f => fpl_lookup_factor VC h g k fp f Hf) S) as [D1 _].
  destruct o as [[]|e|u'].
  - assert (L1 : length (sc_rowidx (g_sc g)) = ncols VC h g) by (rewrite (fin_rowidx _ _ _ Hf), map_length, seq_length; auto).
    assert (L2 : length data = ncols VC h g).
    { rewrite <- (map_length (@length N)), D1, (fin_data _ _ _ Hf). unfold cols_counts. rewrite map_length, seq_length. auto. }
    rewrite (fin_lay _ _ _ Hf). cbn [ly_nval].
    destruct (sc_valid (g_sc g)).
    + unfold copy_sparse. destruct (_ =? 0); [discriminate|].
      pose proof (copy_loop_safe (ncols VC h g) 0 0 (sp_nonzeros (sc_mat (g_sc g))) (sc_rowidx (g_sc g)) data (sp_memory (sc_mat (g_sc g)))) as K.
      destruct (copy_loop _ _ _ _ _ _ _) as [mem [[]|e|u']]; try discriminate. exfalso. eapply K; eauto. congruence.
    + destruct (populate_safe (ncols VC h g) 0 (sc_rowidx (g_sc g)) data (sc_mat (g_sc g))) as (m' & E & A & B); auto.
      * rewrite D1, (fin_data _ _ _ Hf), (fin_rowidx _ _ _ Hf), map_map. auto.
      * congruence.
      * rewrite (fin_rowidx _ _ _ Hf), S1. apply Forall_forall. intros l Hl. apply in_map_iff in Hl. destruct Hl as (c & <- & _). apply cells_rows_bound.
      * rewrite E. discriminate.
  - discriminate.
  - exfalso. eapply (sparse_factors_safe h g (length (rg_factors (g_reg g))) 0 (sc_comps (g_sc g))); eauto.
    + apply (fin_comps _ _ _ Hf).
    + rewrite (fin_lay _ _ _ Hf). cbn [ly_nval]. apply repeat_length.
Qed.

Lemma inc_loop_safe ck h0 h (g : graph) pre vs (dx : list N) :
  fin VC h0 g -> get_all_variables g = pre ++ vs -> length dx = num_values g -> hpres VC true h0 h ->
  (forall a v x u, In a vs -> nth_error h a = Some v -> length x = vsize VC v -> vinc VC v x <> UB u) ->
  forall h' u, inc_loop VC ck h g vs dx <> (h', UB u).
Proof.
  intros Hf. revert h pre. induction vs as [|a t IH]; simpl; intros h pre Hvs Hdx Hp Hsafe h' u; [discriminate|].
  assert (Hin : In a (get_all_variables g)) by (rewrite Hvs; apply in_or_app; simpl; auto).
  pose proof (ri_live _ _ _ (fin_reg _ _ _ Hf)) as Hlive. rewrite Forall_forall in Hlive.
  specialize (Hlive a Hin). destruct (nth_error h0 a) as [v0|] eqn:Ev0; [|apply nth_error_None in Ev0; lia].
  destruct (Hp _ _ Ev0) as (v & Ev & Hid & Hsz & Hcn). specialize (Hcn eq_refl).
  unfold hget. rewrite Ev.
  assert (Hk : nth_error (get_all_variables g) (length pre) = Some a).
  { rewrite Hvs. rewrite nth_error_app2 by lia. rewrite Nat.sub_diag. auto. }
  assert (Hvs' : get_all_variables g = (pre ++ [a]) ++ t) by (rewrite <- app_assoc; auto).
  destruct (vconst VC v) eqn:C; [apply (IH h (pre ++ [a])); auto; intros b w x u0 Hb; apply Hsafe; auto|].
  pose proof (fin_vplace VC h0 g (length pre) a Hf Hk) as Hpl. unfold idz in Hpl. rewrite Ev0, <- Hid in Hpl.
  rewrite Hpl. cbn [vp_index vp_dim].
  assert (W : width VC h0 a = vsize VC v) by (rewrite (width_nonconst _ _ _ _ Ev0); congruence).
  assert (Hle : col_start VC h0 (get_all_variables g) (length pre) + width VC h0 a <= length dx).
  { rewrite Hdx. unfold num_values. rewrite (fin_lay _ _ _ Hf). apply col_start_le. auto. }
  rewrite (proj2 (Nat.leb_le _ _) Hle). rewrite andb_false_r.
  rewrite segment_slice by auto.
  unfold hupd, hget. rewrite Ev.
  assert (Hsl : length (slice (col_start VC h0 (get_all_variables g) (length pre)) (width VC h0 a) dx) = vsize VC v).
  { unfold slice. rewrite firstn_length, skipn_length. lia. }
  destruct (vinc VC v _) as [v'|e|u'] eqn:I.
  - apply (IH (lupd a v' h) (pre ++ [a])); auto.
    2: { intros b w x u0 Hb Hw. rewrite lupd_nth in Hw. destruct (Nat.eqb_spec a b); subst; simpl in Hw; [|eapply Hsafe; eauto].
      exfalso. pose proof (vars_nodup VC h0 g Hf) as ND. rewrite Hvs in ND. apply NoDup_remove_2 in ND. apply ND. apply in_or_app. auto. }
    pose proof (ok_inc _ Hok _ _ _ I) as (I1 & I2 & I3).
    eapply hpres_trans; [exact Hp|]. intros b w Hb. rewrite lupd_nth.
    destruct (Nat.eqb_spec a b); subst; simpl.
    + rewrite (proj2 (Nat.ltb_lt _ _)) by (apply nth_error_Some; congruence). exists v'. split; auto.
      replace w with v in * by congruence. unfold same_obj; auto.
    + exists w. unfold same_obj; auto.
  - discriminate.
  - exfalso. eapply (Hsafe a); eauto.
Qed.

Lemma sdim_step (E : env) s o s' ans : step VC E s o = (s', ans) -> value_op o ->
  fin VC (fst s) (snd s) -> sdim (fst s) (snd s) -> sdim (fst s') (snd s').
Proof.
  intros Es Hv Hf Hi. pose proof (step_heap_pres _ Hok _ _ _ _ _ Es) as [_ Hp]. specialize (Hp Hv).
  destruct (step_value_keeps VC _ _ _ _ _ Es Hv) as [Hr Hl].
  destruct s as [h g], s' as [h' g']. simpl in *.
  assert (Hsame : g_sc g' = g_sc g -> sdim h' g').
  { intros E1. destruct Hi as [A B]. split; rewrite E1.
    - rewrite (nrows_pres g g' Hr). auto.
    - rewrite (ncols_pres VC h h' Hp g g' Hr (fin_reg _ _ _ Hf)). auto. }
  destruct o; simpl in *; try contradiction;
    repeat match goal with
    | H : context [let '(_, _) := ?t in _] |- _ => destruct t eqn:?
    end; inversion Es; subst; clear Es; simpl; auto.
  - apply compute_residual_reg in Heqp. apply Hsame. tauto.
  - apply compute_dense_reg in Heqp. apply Hsame. tauto.
  - apply compute_both_reg in Heqp. apply Hsame. tauto.
  - eapply compute_sparse_dim; eauto.
Qed.
Lemma sdim_run l s : Forall (fun eo : env * op => env_ok (fst eo) /\ value_op (snd eo)) l ->
  fin VC (fst s) (snd s) -> sdim (fst s) (snd s) -> sdim (fst (run VC s l)) (snd (run VC s l)).
Proof.
  revert s. induction l as [|[E o] t IH]; simpl; intros s Hl Hf Hi; auto.
  inversion Hl as [|x y [He Hv] Ht]; subst. simpl in *. destruct (step VC E s o) as [s' ans] eqn:Es. simpl.
  apply IH; auto.
  - eapply (step_fin VC Hok); eauto.
  - eapply sdim_step; eauto.
Qed.

Lemma finalized_sdim l1 l2 h1 h (g1 g : graph) : finalized_history VC l1 l2 h1 h g1 g -> sdim h g.
Proof.
  intros HF. destruct (finalized_facts VC Hok _ _ _ _ _ _ HF) as (Hf1 & _).
  destruct HF as (g0 & R1 & F & Hl & R2).
  pose proof (reachable_reg VC Hok _ _ _ R1) as Hi.
  destruct (finalize_ok_fine VC _ _ _ Hi F) as (_ & _ & ->).
  pose proof (sdim_run l2 (h1, final_graph VC h1 g0) Hl Hf1) as D. rewrite R2 in D. apply D.
  split; [reflexivity|].
  change (length (map (fun n => SpCol (N:=N) n []) (cols_counts VC h1 g0)) = ncols VC h1 g0).
  unfold cols_counts. rewrite !map_length, seq_length. auto.
Qed.

Lemma order_forall (E : env) h (g : graph) : env_ok E -> fin VC h g -> Forall (entry_ok g) (e_order E (ly_fplace (g_lay g))).
Proof.
  intros He Hf. destruct (order_entries VC E h g He Hf) as (_ & _ & H). apply Forall_forall. intros [k fp] Hin. apply (H k fp Hin).
Qed.

Lemma residual_into_safe (E : env) h (g : graph) buf : env_ok E -> fin VC h g -> Forall (factor_safe VC h) (get_all_factors g) ->
  forall b u, compute_residual_into E h g buf <> (b, UB u).
Proof.
  intros He Hf HS b u. unfold compute_residual_into. destruct (negb _); [discriminate|].
  apply (residual_loop_safe h g); auto.
  - eapply order_forall; eauto.
  - rewrite (fin_lay _ _ _ Hf). cbn [ly_nres]. destruct (Nat.eqb_spec (length buf) (nrows g)); auto. apply (proj2 He).
Qed.
Lemma residual_safe (E : env) h (g : graph) : env_ok E -> fin VC h g -> Forall (factor_safe VC h) (get_all_factors g) ->
  forall g' u, compute_residual E h g <> (g', UB u).
Proof.
  intros He Hf HS g' u. unfold compute_residual. destruct (negb _); [discriminate|].
  match goal with |- context [compute_residual_into E h g ?b] => pose proof (residual_into_safe E h g b He Hf HS) as R;
    destruct (compute_residual_into E h g b) as [buf [[]|e|u']] end; try discriminate.
  exfalso. eapply R; eauto.
Qed.
Lemma dense_safe (E : env) h (g : graph) : env_ok E -> fin VC h g -> Forall (factor_safe VC h) (get_all_factors g) ->
  forall g' u, compute_dense VC E h g <> (g', UB u).
Proof.
  intros He Hf HS g' u. unfold compute_dense. destruct (negb _); [discriminate|].
  match goal with |- context [dense_loop VC h g ?L ?J] => pose proof (dense_loop_safe h g L J Hf (order_forall E h g He Hf) HS) as R;
    destruct (dense_loop VC h g L J) as [buf [[]|e|u']] end; try discriminate.
  exfalso. eapply R; eauto.
Qed.

Lemma no_undefined l1 l2 h1 h (g1 g : graph) (E : env) o : finalized_history VC l1 l2 h1 h g1 g -> env_ok E -> compute_op o ->
  Forall (factor_safe VC h) (get_all_factors g) -> Forall (lists_members VC h (get_all_variables g)) (get_all_factors g) ->
  (forall a v x u, In a (get_all_variables g) -> nth_error h a = Some v -> length x = vsize VC v -> vinc VC v x <> UB u) ->
  ~ undefined (snd (step VC E (h, g) o)).
Proof.
  intros HF He Ho HS HM Hinc. destruct (finalized_facts VC Hok _ _ _ _ _ _ HF) as (_ & Hf & _).
  pose proof (finalized_sdim _ _ _ _ _ _ HF) as Hd.
  destruct o; simpl in Ho; try contradiction; simpl.
  - pose proof (residual_safe E h g He Hf HS) as R. destruct (compute_residual E h g) as [g' [x|e|u]]; simpl; auto. exfalso. eapply R; eauto.
  - pose proof (residual_into_safe E h g buf He Hf HS) as R. destruct (compute_residual_into E h g buf) as [g' [x|e|u]]; simpl; auto. exfalso. eapply R; eauto.
  - pose proof (dense_safe E h g He Hf HS) as R. destruct (compute_dense VC E h g) as [g' [x|e|u]]; simpl; auto. exfalso. eapply R; eauto.
  - unfold compute_both. destruct (negb _); simpl; auto.
    pose proof (dense_safe E h g He Hf HS) as R. destruct (compute_dense VC E h g) as [g' [x|e|u]] eqn:D; simpl; auto; [|exfalso; eapply R; eauto].
    assert (Hf' : fin VC h g').
    { apply (step_fin VC Hok E (h, g) ODense (h, g') (AMat (Ok x))); simpl; auto. rewrite D. auto. }
    pose proof (compute_dense_reg _ _ _ _ _ _ D) as (D1 & _).
    pose proof (residual_safe E h g' He Hf') as R'. unfold get_all_factors in R'. rewrite D1 in R'. specialize (R' HS).
    destruct (compute_residual E h g') as [g2 [y|e|u]]; simpl; auto. exfalso; eapply R'; eauto.
  - pose proof (compute_sparse_safe h g Hf Hd HS HM) as R. destruct (compute_sparse VC h g) as [g' [x|e|u]]; simpl; auto. exfalso; eapply R; eauto.
  - unfold apply_increment. destruct (negb _); simpl; auto. destruct (Nat.eqb_spec (length dx) (num_values g)); simpl; auto.
    pose proof (inc_loop_safe true h h g [] (get_all_variables g) dx Hf eq_refl e (hpres_refl VC true h) Hinc) as R.
    destruct (inc_loop VC true h g (get_all_variables g) dx) as [h' [[]|e'|u]]; simpl; auto. exfalso; eapply R; eauto.
Qed.
End Safe.
