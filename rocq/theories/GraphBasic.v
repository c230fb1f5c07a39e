(** Proofs about registries, layout, residual vector and value vectors. *)
From Coq Require Import List Arith ZArith Bool Lia Permutation.
From Verif Require Import Base Sparse Graph SpecGraph ListLemmas GraphLayout GraphFin.
Import ListNotations.

Section Basic.
Context {N : num} {V : Type} (VC : vclass N V).
Notation factor := (factor (N:=N) (V:=V)).
Notation graph := (graph (N:=N) (V:=V)).
Notation env := (env (N:=N) (V:=V)).
Notation op := (op (N:=N) (V:=V)).
Hypothesis Hok : vclass_ok VC.

(** ** C01, C02 *)
Lemma step_reg_lists E s o s' ans : step VC E s o = (s', ans) ->
  rg_vars (g_reg (snd s')) = rg_vars (g_reg (snd s)) ++
     match o, ans with OAddVar (Some a), AUnit (Ok _) => [a] | _, _ => [] end /\
  rg_factors (g_reg (snd s')) = rg_factors (g_reg (snd s)) ++
     match o, ans with OAddFactor (Some f), AUnit (Ok _) => [f] | _, _ => [] end.
Proof.
  intros Es.
  assert (Hsame : g_reg (snd s') = g_reg (snd s) ->
     rg_vars (g_reg (snd s')) = rg_vars (g_reg (snd s)) ++ [] /\
     rg_factors (g_reg (snd s')) = rg_factors (g_reg (snd s)) ++ []).
  { intros R. rewrite R, !app_nil_r. auto. }
  destruct s as [h g]. simpl in *. destruct o; simpl in Es;
    repeat match goal with
    | H : context [let '(_, _) := ?t in _] |- _ => destruct t eqn:?
    end; inversion Es; subst; clear Es; simpl in *; auto;
    try (apply Hsame; match goal with
    | H : finalize_structure _ _ _ = _ |- _ => eapply finalize_reg; eauto
    | H : compute_residual _ _ _ = _ |- _ => eapply compute_residual_reg; eauto
    | H : compute_dense _ _ _ _ = _ |- _ => eapply compute_dense_reg; eauto
    | H : compute_both _ _ _ _ = _ |- _ => eapply compute_both_reg; eauto
    | H : compute_sparse _ _ _ = _ |- _ => eapply compute_sparse_reg; eauto
    end; fail).
  - unfold add_variable in Heqp0. destruct p as [a|]; [|inversion Heqp0; subst; auto].
    unfold hget in Heqp0. destruct (nth_error h a) as [v|]; [|inversion Heqp0; subst; auto].
    destruct (alookup Z.eqb (vid VC v) (rg_vmap (g_reg g))); inversion Heqp0; subst; simpl; auto.
    rewrite app_nil_r. auto.
  - unfold add_factor in Heqp0. destruct p as [f|]; [|inversion Heqp0; subst; auto].
    destruct (alookup Z.eqb (f_id f) (rg_fmap (g_reg g))); inversion Heqp0; subst; simpl; auto.
    rewrite app_nil_r. auto.
Qed.

Lemma accepted_vars_run l s :
  rg_vars (g_reg (snd (run VC s l))) = rg_vars (g_reg (snd s)) ++ accepted_vars VC s l.
Proof.
  revert s. induction l as [|[E o] t IH]; simpl; intros s; [rewrite app_nil_r; auto|].
  destruct (step VC E s o) as [s' ans] eqn:Es. simpl. rewrite IH.
  destruct (step_reg_lists _ _ _ _ _ Es) as [-> _]. rewrite <- app_assoc. f_equal.
  destruct o as [[|]| | | | | | | | | | | | | | ]; auto; destruct ans as [[| |]| | |]; auto.
Qed.
Lemma accepted_factors_run l s :
  rg_factors (g_reg (snd (run VC s l))) = rg_factors (g_reg (snd s)) ++ accepted_factors VC s l.
Proof.
  revert s. induction l as [|[E o] t IH]; simpl; intros s; [rewrite app_nil_r; auto|].
  destruct (step VC E s o) as [s' ans] eqn:Es. simpl. rewrite IH.
  destruct (step_reg_lists _ _ _ _ _ Es) as [_ ->]. rewrite <- app_assoc. f_equal.
  destruct o as [|[|]| | | | | | | | | | | | |]; auto; destruct ans as [[| |]| | |]; auto.
Qed.

Lemma get_variable_spec h (g : graph) id a : reg_inv VC h g ->
  get_variable g id = Some a <-> In a (get_all_variables g) /\ idz VC h a = id.
Proof.
  intros Hi. unfold get_variable, get_all_variables. rewrite (ri_vmap _ _ _ Hi). split.
  - intros H. apply alookup_in in H; auto. apply in_map_iff in H. destruct H as (b & E & Hb). inversion E; subst; auto.
  - intros [Hin <-]. apply alookup_nodup; auto.
    + rewrite map_map. simpl. apply Hi.
    + apply in_map_iff. exists a; auto.
Qed.

Lemma add_variable_spec h (g : graph) a v : reg_inv VC h g -> nth_error h a = Some v ->
  (In (vid VC v) (map (idz VC h) (get_all_variables g)) -> add_variable VC h g (Some a) = (g, Throw EDupVariable)) /\
  (~ In (vid VC v) (map (idz VC h) (get_all_variables g)) ->
     snd (add_variable VC h g (Some a)) = Ok tt /\
     get_all_variables (fst (add_variable VC h g (Some a))) = get_all_variables g ++ [a]).
Proof.
  intros Hi Ha. unfold add_variable, hget. rewrite Ha, (ri_vmap _ _ _ Hi).
  destruct (alookup Z.eqb (vid VC v) _) as [b|] eqn:L.
  - split; auto. intros H. exfalso. apply H. apply alookup_in in L; auto.
    apply in_map_iff in L. destruct L as (c & E & Hc). inversion E; subst. apply in_map_iff. exists b; auto.
  - rewrite alookup_vmap_none in L. split; [tauto|auto].
Qed.

Lemma add_factor_spec h (g : graph) f : reg_inv VC h g ->
  (In (f_id f) (map f_id (get_all_factors g)) -> add_factor g (Some f) = (g, Throw EDupFactor)) /\
  (~ In (f_id f) (map f_id (get_all_factors g)) ->
     snd (add_factor g (Some f)) = Ok tt /\
     get_all_factors (fst (add_factor g (Some f))) = get_all_factors g ++ [f]).
Proof.
  intros Hi. unfold add_factor. rewrite (ri_fmap _ _ _ Hi).
  destruct (alookup Z.eqb (f_id f) _) as [b|] eqn:L.
  - split; auto. intros H. exfalso. apply H. apply alookup_in in L; auto.
    apply in_map_iff in L. destruct L as (c & E & Hc). inversion E; subst. apply in_map_iff. exists b; auto.
  - apply alookup_none in L; auto. rewrite map_map in L. simpl in L. split; [tauto|auto].
Qed.

Lemma reachable_reg l h (g : graph) : run VC ([], empty_graph) l = (h, g) -> reg_inv VC h g.
Proof.
  intros R. pose proof (run_reg_inv VC Hok l ([], empty_graph) (reg_inv_empty VC [])) as Hi. rewrite R in Hi. auto.
Qed.

Lemma var_registry l h (g : graph) : run VC ([], empty_graph) l = (h, g) ->
  get_all_variables g = accepted_vars VC ([], empty_graph) l /\
  NoDup (map (idz VC h) (get_all_variables g)) /\
  (forall id a, get_variable g id = Some a <-> In a (get_all_variables g) /\ idz VC h a = id) /\
  (forall a v, nth_error h a = Some v ->
     (In (vid VC v) (map (idz VC h) (get_all_variables g)) -> add_variable VC h g (Some a) = (g, Throw EDupVariable)) /\
     (~ In (vid VC v) (map (idz VC h) (get_all_variables g)) ->
        snd (add_variable VC h g (Some a)) = Ok tt /\
        get_all_variables (fst (add_variable VC h g (Some a))) = get_all_variables g ++ [a])).
Proof.
  intros R. pose proof (reachable_reg _ _ _ R) as Hi. split; [|split; [|split]].
  - pose proof (accepted_vars_run l ([], empty_graph)) as A. rewrite R in A. exact A.
  - apply Hi.
  - intros. apply get_variable_spec; auto.
  - intros. apply add_variable_spec; auto.
Qed.

Lemma factor_registry l h (g : graph) : run VC ([], empty_graph) l = (h, g) ->
  get_all_factors g = accepted_factors VC ([], empty_graph) l /\
  NoDup (map f_id (get_all_factors g)) /\
  (forall f,
     (In (f_id f) (map f_id (get_all_factors g)) -> add_factor g (Some f) = (g, Throw EDupFactor)) /\
     (~ In (f_id f) (map f_id (get_all_factors g)) ->
        snd (add_factor g (Some f)) = Ok tt /\
        get_all_factors (fst (add_factor g (Some f))) = get_all_factors g ++ [f])).
Proof.
  intros R. pose proof (reachable_reg _ _ _ R) as Hi. split; [|split].
  - pose proof (accepted_factors_run l ([], empty_graph)) as A. rewrite R in A. exact A.
  - apply Hi.
  - intros. eapply add_factor_spec; eauto.
Qed.

(** ** C03, C04 *)
Lemma fin_vplace h (g : graph) k a : fin VC h g -> nth_error (get_all_variables g) k = Some a ->
  variable_placement g (idz VC h a) =
    Some (VPlacement a (col_start VC h (get_all_variables g) k) (width VC h a)).
Proof.
  intros Hf Hk. unfold variable_placement. rewrite (fin_lay _ _ _ Hf). simpl. unfold vpl.
  rewrite (vp_list_lookup VC h _ 0 k a (ri_nodup _ _ _ (fin_reg _ _ _ Hf)) Hk). reflexivity.
Qed.

Lemma fin_vplace_none h (g : graph) id : fin VC h g -> ~ In id (map (idz VC h) (get_all_variables g)) ->
  variable_placement g id = None.
Proof.
  intros Hf Hn. unfold variable_placement. rewrite (fin_lay _ _ _ Hf). simpl. apply vp_list_lookup_none. auto.
Qed.

Lemma columns_tile l1 l2 h1 h (g1 g : graph) : finalized_history VC l1 l2 h1 h g1 g ->
  let vs := get_all_variables g in
  num_values g = total_cols VC h vs /\
  (forall k a, nth_error vs k = Some a ->
     variable_placement g (idz VC h a) = Some (VPlacement a (col_start VC h vs k) (width VC h a))) /\
  (forall id, ~ In id (map (idz VC h) vs) -> variable_placement g id = None) /\
  (forall j, j < num_values g -> exists k a, nth_error vs k = Some a /\
     col_start VC h vs k <= j < col_start VC h vs k + width VC h a) /\
  (forall k k' a a' j, nth_error vs k = Some a -> nth_error vs k' = Some a' ->
     col_start VC h vs k <= j < col_start VC h vs k + width VC h a ->
     col_start VC h vs k' <= j < col_start VC h vs k' + width VC h a' -> k = k').
Proof.
  intros HF vs. destruct (finalized_facts VC Hok _ _ _ _ _ _ HF) as (_ & Hf & _).
  assert (Hn : num_values g = total_cols VC h vs) by (unfold num_values; rewrite (fin_lay _ _ _ Hf); reflexivity).
  split; auto. split; [intros; apply fin_vplace; auto|]. split; [intros; apply (fin_vplace_none h); auto|]. split.
  - intros j Hj. rewrite Hn in Hj. destruct (psum_cover _ _ Hj) as (k & d & Hk & Hj').
    apply nth_error_map_some in Hk. destruct Hk as (a & Hk & ->). exists k, a. auto.
  - intros k k' a a' j Hk Hk' Hj Hj'. apply (psum_disjoint (map (width VC h) vs) k k' (width VC h a) (width VC h a') j); auto.
    + rewrite nth_error_map, Hk; auto.
    + rewrite nth_error_map, Hk'; auto.
Qed.

Lemma fin_fplace h (g : graph) k f : fin VC h g -> nth_error (get_all_factors g) k = Some f ->
  alookup Nat.eqb k (ly_fplace (g_lay g)) = Some (FPlacement (Some f) (row_start (get_all_factors g) k) (f_rsize f)
            (map fst (occs VC h (vpl VC h g) (f_vars f))) (map snd (occs VC h (vpl VC h g) (f_vars f)))).
Proof.
  intros Hf Hk. rewrite (fin_lay _ _ _ Hf). simpl. exact (fp_list_lookup VC h (vpl VC h g) _ 0 0 _ _ Hk).
Qed.

Lemma rows_tile l1 l2 h1 h (g1 g : graph) : finalized_history VC l1 l2 h1 h g1 g ->
  let fs := get_all_factors g in
  num_residuals g = total_rows fs /\
  (forall k f, nth_error fs k = Some f -> exists fp, factor_placement g (Z.of_nat k) = Some fp /\
     fp_factor fp = Some f /\ fp_rindex fp = row_start fs k /\ fp_rdim fp = f_rsize f) /\
  (forall i, i < num_residuals g -> exists k f, nth_error fs k = Some f /\
     row_start fs k <= i < row_start fs k + f_rsize f) /\
  (forall k k' f f' i, nth_error fs k = Some f -> nth_error fs k' = Some f' ->
     row_start fs k <= i < row_start fs k + f_rsize f ->
     row_start fs k' <= i < row_start fs k' + f_rsize f' -> k = k').
Proof.
  intros HF fs. destruct (finalized_facts VC Hok _ _ _ _ _ _ HF) as (_ & Hf & _).
  assert (Hn : num_residuals g = total_rows fs) by (unfold num_residuals; rewrite (fin_lay _ _ _ Hf); reflexivity).
  split; auto. split; [|split].
  - intros k f Hk. eexists. unfold factor_placement.
    destruct (Z.ltb_spec (Z.of_nat k) 0); [lia|]. rewrite Nat2Z.id. split; [apply (fin_fplace h); eauto|]. auto.
  - intros i Hi. rewrite Hn in Hi. destruct (psum_cover _ _ Hi) as (k & d & Hk & Hi').
    apply nth_error_map_some in Hk. destruct Hk as (f & Hk & ->). exists k, f. auto.
  - intros k k' f f' i Hk Hk' Hj Hj'. apply (psum_disjoint (map f_rsize fs) k k' (f_rsize f) (f_rsize f') i); auto.
    + rewrite nth_error_map, Hk; auto.
    + rewrite nth_error_map, Hk'; auto.
Qed.

(** ** C05 *)
Lemma vpl_lookup_some h (g : graph) id : reg_inv VC h g ->
  alookup Z.eqb id (vpl VC h g) <> None <-> In id (map (idz VC h) (get_all_variables g)).
Proof.
  intros Hi. unfold vpl. split.
  - intros H. destruct (in_dec Z.eq_dec id (map (idz VC h) (get_all_variables g))); auto.
    exfalso. apply H. apply vp_list_lookup_none. auto.
  - intros H E. apply alookup_none in E; auto. rewrite vp_list_keys in E. auto.
Qed.

Lemma factor_cols_no_ub h vp vars u : (forall a, In (Some a) vars -> exists v, nth_error h a = Some v) ->
  factor_cols VC h vp vars <> UB u.
Proof.
  induction vars as [|[a|] t IH]; simpl; intros H; try discriminate.
  destruct (H a) as [v Hv]; auto. unfold hget. rewrite Hv. simpl.
  assert (IHt : factor_cols VC h vp t <> UB u) by (apply IH; intros; apply H; auto).
  destruct (vconst VC v); auto. destruct (alookup Z.eqb (vid VC v) vp); [|discriminate].
  destruct (factor_cols VC h vp t); try discriminate; auto.
Qed.

Lemma place_factors_no_ub h vp (fs : list factor) i row m m' u : Forall (pointers_live h) fs ->
  place_factors VC h vp fs i row m <> (m', UB u).
Proof.
  intros H. revert i row m. induction H as [|f t Hf _ IH]; simpl; intros i row m; [discriminate|].
  destruct (factor_cols VC h vp (f_vars f)) as [[c d]| |] eqn:E; [apply IH|discriminate|].
  exfalso. revert E. apply factor_cols_no_ub. auto.
Qed.

Lemma vars_fine_iff h (g : graph) f : reg_inv VC h g -> pointers_live h f ->
  vars_fine VC h (vpl VC h g) (f_vars f) <-> ~ lists_null f /\ ~ lists_unregistered VC h (get_all_variables g) f.
Proof.
  intros Hi Hl. unfold vars_fine. rewrite Forall_forall. split.
  - intros H. split.
    + intros Hn. destruct (H _ Hn) as (a & v & E & _). discriminate.
    + intros (a & v & Hin & Ha & Hc & Hn). destruct (H _ Hin) as (b & w & E & Hb & Hw). inversion E; subst b.
      replace w with v in * by congruence. apply Hn. apply vpl_lookup_some; auto.
  - intros [Hn Hu] [a|] Hin; [|tauto]. destruct (Hl _ Hin) as [v Hv]. exists a, v. repeat split; auto.
    intros Hc. apply vpl_lookup_some; auto.
    destruct (in_dec Z.eq_dec (vid VC v) (map (idz VC h) (get_all_variables g))) as [|Hni]; auto.
    exfalso. apply Hu. exists a, v. auto.
Qed.

Lemma finalize_iff l h (g : graph) : run VC ([], empty_graph) l = (h, g) -> Forall (pointers_live h) (get_all_factors g) ->
  let bad := Exists (fun f => lists_null f \/ lists_unregistered VC h (get_all_variables g) f) (get_all_factors g) \/
             total_rows (get_all_factors g) < total_cols VC h (get_all_variables g) in
  (bad -> exists e, snd (finalize_structure VC h g) = Throw e) /\
  (~ bad -> snd (finalize_structure VC h g) = Ok tt).
Proof.
  intros R Hl bad. pose proof (reachable_reg _ _ _ R) as Hi.
  split.
  - intros Hb. destruct (finalize_structure VC h g) as [g' [[]|e|u]] eqn:F; simpl; eauto; exfalso.
    + destruct (finalize_ok_fine VC _ _ _ Hi F) as (Hf & Hle & _).
      destruct Hb as [Hb|Hb]; [|unfold ncols, nrows, get_all_factors, get_all_variables in *; lia].
      apply Exists_exists in Hb. destruct Hb as (f & Hin & Hb).
      unfold factors_fine in Hf. rewrite Forall_forall in Hf. specialize (Hf _ Hin).
      rewrite Forall_forall in Hl. apply vars_fine_iff in Hf; auto. tauto.
    + unfold finalize_structure in F.
      rewrite (place_vars_closed VC h (rg_vars (g_reg g)) 0 []) in F; [|apply Hi|simpl; apply Hi].
      change ([] ++ vp_list VC h (rg_vars (g_reg g)) 0) with (vpl VC h g) in F.
      destruct (place_factors VC h (vpl VC h g) (rg_factors (g_reg g)) 0 0 []) as [fps [nr|e|u']] eqn:P.
      * assert (Hf : factors_fine VC h g) by (eapply place_factors_ok; eauto).
        pose proof (finalize_closed VC h g Hi Hf) as C. unfold finalize_structure in C.
        rewrite (place_vars_closed VC h (rg_vars (g_reg g)) 0 []) in C; [|apply Hi|simpl; apply Hi].
        change ([] ++ vp_list VC h (rg_vars (g_reg g)) 0) with (vpl VC h g) in C. rewrite P in C.
        rewrite C in F. destruct (_ <? _); discriminate.
      * discriminate.
      * exact (place_factors_no_ub _ _ _ _ _ _ _ _ Hl P).
  - intros Hb. assert (Hf : factors_fine VC h g).
    { unfold factors_fine. rewrite Forall_forall in *. intros f Hin. apply vars_fine_iff; auto.
      split; intros X; apply Hb; left; apply Exists_exists; exists f; auto. }
    rewrite finalize_closed by auto. destruct (Nat.ltb_spec (nrows g) (ncols VC h g)); auto.
    exfalso. apply Hb. right. auto.
Qed.

(** ** C06 *)
Definition res_stack (h : heap) (fs : list factor) (rs : list (list N)) : Prop :=
  Forall2 (fun f r => f_res_ref f h = Ok r /\ length r = f_rsize f) fs rs.

Lemma residual_loop_spec h (fs : list factor) rs (L : list (nat * fplacement)) buf :
  res_stack h fs rs -> length buf = total_rows fs ->
  NoDup (map fst L) ->
  (forall k fp, In (k, fp) L -> exists f, nth_error fs k = Some f /\ fp_factor fp = Some f /\
       fp_rindex fp = row_start fs k /\ fp_rdim fp = f_rsize f) ->
  exists buf', residual_loop h L buf = (buf', Ok tt) /\ length buf' = length buf /\
    (forall k f r i x, nth_error fs k = Some f -> nth_error rs k = Some r -> nth_error r i = Some x ->
       In k (map fst L) -> nth_error buf' (row_start fs k + i) = Some x) /\
    (forall k f i, nth_error fs k = Some f -> i < f_rsize f -> ~ In k (map fst L) ->
       nth_error buf' (row_start fs k + i) = nth_error buf (row_start fs k + i)).
Proof.
  intros Hrs. pose proof (proj1 (Forall2_nth _ _ _) Hrs) as [Hlen Hnth].
  revert buf. induction L as [|[k fp] t IH]; simpl; intros buf Hb ND HL.
  - exists buf. repeat split; auto. intros; contradiction.
  - destruct (HL k fp) as (f & Hk & Hff & Hri & Hrd); auto. rewrite Hff.
    assert (Hkr : k < length rs) by (rewrite <- Hlen; apply nth_error_Some; congruence).
    destruct (nth_error rs k) as [r|] eqn:Hr; [|apply nth_error_None in Hr; lia].
    destruct (Hnth _ _ _ Hk Hr) as [Hres Hrl]. rewrite Hres.
    pose proof (psum_le_total (map f_rsize fs) k (f_rsize f)) as Hle.
    rewrite nth_error_map, Hk in Hle. specialize (Hle eq_refl). fold (total_rows fs) in Hle.
    change (psum (map f_rsize fs) k) with (row_start fs k) in Hle.
    unfold write_segment. rewrite Hri, Hrd, Hb, Hrl, Nat.eqb_refl.
    rewrite (proj2 (Nat.leb_le _ _) Hle).
    set (buf1 := firstn (row_start fs k) buf ++ r ++ skipn (row_start fs k + f_rsize f) buf).
    assert (Hb1 : length buf1 = total_rows fs).
    { unfold buf1. rewrite !app_length, firstn_length, skipn_length, Hrl. lia. }
    inversion ND as [|? ? Hnin ND']; subst.
    destruct (IH buf1 Hb1 ND') as (buf' & E & L' & S1 & S2); [intros; apply HL; auto|].
    exists buf'. split; auto. split; [congruence|].
    assert (Hother : forall k' f' i, nth_error fs k' = Some f' -> i < f_rsize f' -> k' <> k ->
       nth_error buf1 (row_start fs k' + i) = nth_error buf (row_start fs k' + i)).
    { intros k' f' i Hk' Hi Hne. unfold buf1.
      assert (Hdis : row_start fs k' + i < row_start fs k \/ row_start fs k + f_rsize f <= row_start fs k' + i).
      { destruct (lt_dec (row_start fs k' + i) (row_start fs k)); auto.
        destruct (le_dec (row_start fs k + f_rsize f) (row_start fs k' + i)); auto. exfalso. apply Hne.
        apply (psum_disjoint (map f_rsize fs) k' k (f_rsize f') (f_rsize f) (row_start fs k' + i)).
        - rewrite nth_error_map, Hk'; auto.
        - rewrite nth_error_map, Hk; auto.
        - change (psum (map f_rsize fs) k') with (row_start fs k'). lia.
        - change (psum (map f_rsize fs) k) with (row_start fs k). lia. }
      assert (Lf : length (firstn (row_start fs k) buf) = row_start fs k) by (rewrite firstn_length; lia).
      destruct Hdis.
      - rewrite nth_error_app1 by lia. apply nth_error_firstn_lt. lia.
      - rewrite nth_error_app2 by lia. rewrite nth_error_app2 by lia. rewrite nth_error_skipn_plus. f_equal. lia. }
    split.
    + intros k' f' r' i x Hk' Hr' Hx [<-|Hin].
      * assert (i < length r') by (apply nth_error_Some; congruence).
        replace r' with r in * by congruence. replace f' with f in * by congruence.
        rewrite (S2 k f i); auto; try lia. unfold buf1.
        assert (Lf : length (firstn (row_start fs k) buf) = row_start fs k) by (rewrite firstn_length; lia).
        rewrite nth_error_app2 by lia. rewrite Lf. replace (row_start fs k + i - row_start fs k) with i by lia.
        rewrite nth_error_app1 by lia. auto.
      * eapply S1; eauto.
    + intros k' f' i Hk' Hi Hnin'. rewrite (S2 k' f' i); auto. apply (Hother k' f' i); auto.
Qed.

Lemma fpl_entries h (g : graph) k fp : In (k, fp) (fpl VC h g) ->
  exists f, nth_error (rg_factors (g_reg g)) k = Some f /\ fp_factor fp = Some f /\
       fp_rindex fp = row_start (rg_factors (g_reg g)) k /\ fp_rdim fp = f_rsize f.
Proof.
  intros Hin. unfold fpl in *. set (fs := rg_factors (g_reg g)) in *. set (vp := vpl VC h g) in *.
  assert (NDk : NoDup (map fst (fp_list VC h vp fs 0 0))) by (rewrite fp_list_keys; apply seq_NoDup).
  apply (alookup_nodup Nat.eqb (fun a b => Nat.eqb_spec a b)) in Hin; auto.
  destruct (nth_error fs k) as [f|] eqn:E.
  - exists f. pose proof (fp_list_lookup VC h vp fs 0 0 k f E) as L. simpl in L. rewrite Hin in L.
    inversion L; subst; auto.
  - apply nth_error_None in E. pose proof (fp_list_lookup_none VC h vp fs 0 0 k E) as L. simpl in L. congruence.
Qed.

Lemma order_entries (E : env) h (g : graph) : env_ok E -> fin VC h g ->
  let L := e_order E (ly_fplace (g_lay g)) in
  NoDup (map fst L) /\ (forall k, k < length (get_all_factors g) -> In k (map fst L)) /\
  (forall k fp, In (k, fp) L -> exists f, nth_error (get_all_factors g) k = Some f /\ fp_factor fp = Some f /\
       fp_rindex fp = row_start (get_all_factors g) k /\ fp_rdim fp = f_rsize f).
Proof.
  intros [Ho _] Hf L. unfold L. rewrite (fin_lay _ _ _ Hf). simpl.
  pose proof (Ho (fpl VC h g)) as P. pose proof (Permutation_map fst P) as Pk.
  unfold fpl in Pk at 2. rewrite fp_list_keys in Pk.
  split; [|split].
  - apply (Permutation_NoDup (Permutation_sym Pk)), seq_NoDup.
  - intros k Hk. apply (Permutation_in _ (Permutation_sym Pk)). apply in_seq. unfold get_all_factors in Hk. lia.
  - intros k fp Hin. apply (Permutation_in _ P) in Hin. apply (fpl_entries h g k fp Hin).
Qed.

Lemma concat_char (rs : list (list N)) (fs : list factor) h buf :
  res_stack h fs rs -> length buf = total_rows fs ->
  (forall k f r i x, nth_error fs k = Some f -> nth_error rs k = Some r -> nth_error r i = Some x ->
       nth_error buf (row_start fs k + i) = Some x) -> buf = concat rs.
Proof.
  intros Hrs Hb Hc. assert (Hlens : map (@length N) rs = map f_rsize fs).
  { clear - Hrs. induction Hrs as [|f r fs rs [_ E] _ IH]; simpl; auto. rewrite IH, E. auto. }
  pose proof (proj1 (Forall2_nth _ _ _) Hrs) as [Hlen Hnth].
  apply list_ext_nth. intros i.
  destruct (lt_dec i (total_rows fs)) as [Hi|Hi].
  - destruct (psum_cover (map f_rsize fs) i Hi) as (k & d & Hk & Hr).
    apply nth_error_map_some in Hk. destruct Hk as (f & Hk & ->).
    assert (Hkr : k < length rs) by (rewrite <- Hlen; apply nth_error_Some; congruence).
    destruct (nth_error rs k) as [r|] eqn:Er; [|apply nth_error_None in Er; lia].
    destruct (Hnth _ _ _ Hk Er) as [_ Hrl].
    pose proof (concat_nth rs k r (i - psum (map f_rsize fs) k) Er) as Cn. rewrite Hlens in Cn.
    specialize (Cn ltac:(lia)). replace (psum (map f_rsize fs) k + (i - psum (map f_rsize fs) k)) with i in Cn by lia.
    rewrite Cn. destruct (nth_error r (i - psum (map f_rsize fs) k)) as [x|] eqn:Ex.
    + pose proof (Hc _ _ _ _ _ Hk Er Ex) as Hx. unfold row_start in Hx. fold (psum (map f_rsize fs) k) in Hx.
      rewrite <- Hx. f_equal. lia.
    + apply nth_error_None in Ex. lia.
  - rewrite (proj2 (nth_error_None _ _)) by lia. symmetry. apply nth_error_None.
    rewrite concat_length_sum, Hlens. fold (total_rows fs). lia.
Qed.

Lemma residual_into_spec (E : env) h (g : graph) buf rs : env_ok E -> fin VC h g -> res_stack h (get_all_factors g) rs ->
  compute_residual_into E h g buf = (concat rs, Ok tt).
Proof.
  intros He Hf Hrs. destruct (order_entries E h g He Hf) as (ND & Hall & HL).
  unfold compute_residual_into. rewrite (fin_lay _ _ _ Hf). simpl.
  set (buf1 := if length buf =? nrows g then buf else e_junk E (nrows g)).
  assert (Hb1 : length buf1 = total_rows (get_all_factors g)).
  { unfold buf1. destruct (Nat.eqb_spec (length buf) (nrows g)); auto. apply He. }
  rewrite (fin_lay _ _ _ Hf) in *. simpl in *.
  destruct (residual_loop_spec h (get_all_factors g) rs _ buf1 Hrs Hb1 ND HL) as (buf' & Er & Lb & S1 & _).
  rewrite Er. f_equal. eapply concat_char; eauto; try congruence.
  intros k f r i x Hk Hr Hx. eapply S1; eauto. apply Hall. apply nth_error_Some. congruence.
Qed.

Lemma compute_residual_spec (E : env) h (g : graph) rs : env_ok E -> fin VC h g -> res_stack h (get_all_factors g) rs ->
  exists g', compute_residual E h g = (g', Ok (concat rs)) /\ residual g' = Ok (concat rs).
Proof.
  intros He Hf Hrs. unfold compute_residual.
  assert (Hfin : negb (ly_final (g_lay g)) = false) by (rewrite (fin_lay _ _ _ Hf); reflexivity). rewrite Hfin.
  rewrite (residual_into_spec E h g _ rs He Hf Hrs). eexists. split; [reflexivity|]. reflexivity.
Qed.

Lemma residual_stack l1 l2 h1 h (g1 g : graph) rs (E : env) : finalized_history VC l1 l2 h1 h g1 g -> env_ok E ->
  Forall2 (fun f r => f_res_ref f h = Ok r /\ length r = f_rsize f) (get_all_factors g) rs ->
  (exists g', compute_residual E h g = (g', Ok (concat rs)) /\ residual g' = Ok (concat rs)) /\
  (forall buf, compute_residual_into E h g buf = (concat rs, Ok tt)).
Proof.
  intros HF He Hrs. destruct (finalized_facts VC Hok _ _ _ _ _ _ HF) as (_ & Hf & _). split.
  - apply compute_residual_spec; auto.
  - intros buf. apply residual_into_spec; auto.
Qed.

(** ** C10 *)
Definition fresh_flags (g : graph) : Prop :=
  ly_final (g_lay g) = false /\ dc_jac_valid (g_dc g) = false /\ dc_res_valid (g_dc g) = false /\ sc_valid (g_sc g) = false.

Lemma step_fresh E s o : fresh_flags (snd s) -> (o = OFinalize -> snd (step VC E s o) <> AUnit (Ok tt)) ->
  fresh_flags (snd (fst (step VC E s o))) /\
  (compute_op o -> threw (snd (step VC E s o)) /\ fst (step VC E s o) = s).
Proof.
  destruct s as [h g]. simpl. intros Hfr Hnf. pose proof Hfr as (F1 & F2 & F3 & F4). destruct o; simpl in *.
  - unfold add_variable. destruct p as [a|]; simpl; [|tauto]. unfold hget.
    destruct (nth_error h a); simpl; [|tauto]. destruct (alookup _ _ _); simpl; tauto.
  - unfold add_factor. destruct p as [f|]; simpl; [|tauto]. destruct (alookup _ _ _); simpl; tauto.
  - destruct (finalize_structure VC h g) as [g' r] eqn:F. simpl in *. split; [|tauto].
    specialize (Hnf eq_refl). unfold finalize_structure in F.
    destruct (place_vars VC h _ 0 []) as [[vp nc]| |]; try (inversion F; subst; auto; fail).
    destruct (place_factors VC h vp _ 0 0 []) as [fps [nr| |]]; try (inversion F; subst; unfold fresh_flags; simpl; auto; fail).
    destruct (nr <? nc); [inversion F; subst; unfold fresh_flags; simpl; auto|].
    destruct (obind _ _) as [[cnt rows]| |]; inversion F; subst; unfold fresh_flags; simpl; auto. congruence.
  - unfold compute_residual. rewrite F1. simpl. tauto.
  - unfold compute_residual_into. rewrite F1. simpl. tauto.
  - unfold compute_dense. rewrite F1. simpl. tauto.
  - unfold compute_both. rewrite F1. simpl. tauto.
  - unfold compute_sparse. rewrite F1. simpl. tauto.
  - tauto.
  - destruct (set_variable_values_from_vector VC h g x); simpl; tauto.
  - unfold apply_increment. rewrite F1. simpl. tauto.
  - tauto.
  - destruct (hupd _ _ _); simpl; tauto.
  - destruct (hupd _ _ _); simpl; tauto.
  - destruct (hupd _ _ _); simpl; tauto.
Qed.

Lemma unfinalized_fresh l s : fresh_flags (snd s) -> unfinalized VC s l -> fresh_flags (snd (run VC s l)).
Proof.
  revert s. induction l as [|[E o] t IH]; simpl; intros s Hf Hu; auto. destruct Hu as [H1 H2].
  apply IH; auto. apply step_fresh; auto.
Qed.

Lemma nothing_before l h (g : graph) : run VC ([], empty_graph) l = (h, g) -> unfinalized VC ([], empty_graph) l ->
  (forall E o, compute_op o -> threw (snd (step VC E (h, g) o)) /\ fst (step VC E (h, g) o) = (h, g)) /\
  (exists e, jacobian g = Throw e) /\ (exists e, residual g = Throw e) /\ (exists e, sparse_jacobian g = Throw e).
Proof.
  intros R Hu. pose proof (unfinalized_fresh l ([], empty_graph)) as Hf. rewrite R in Hf. simpl in Hf.
  assert (F : fresh_flags g) by (apply Hf; [repeat split|auto]).
  split.
  - intros E o Ho. apply (step_fresh E (h, g) o); auto. intros ->. destruct Ho.
  - destruct F as (F1 & F2 & F3 & F4). unfold jacobian, residual, sparse_jacobian. rewrite F2, F3, F4. repeat split; eexists; reflexivity.
Qed.
End Basic.
