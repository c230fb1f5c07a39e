(** Results of the compute calls depend on the current variable values only. *)
From Coq Require Import List Arith ZArith Bool Lia Permutation.
From Verif Require Import Base Sparse Graph SpecGraph ListLemmas GraphLayout GraphFin GraphBasic GraphVec GraphDense GraphSparse.
Import ListNotations.

Section Fresh.
Context {N : num} {V : Type} (VC : vclass N V).
Notation factor := (factor (N:=N) (V:=V)).
Notation graph := (graph (N:=N) (V:=V)).
Notation env := (env (N:=N) (V:=V)).
Hypothesis Hok : vclass_ok VC.

Lemma recompute_fresh l1 l2 l2' h1 h (g1 g g' : graph) (E E' : env) :
  finalized_history VC l1 l2 h1 h g1 g -> finalized_history VC l1 l2' h1 h g1 g' -> env_ok E -> env_ok E' ->
  (forall rs, Forall2 (fun f r => f_res_ref f h = Ok r /\ length r = f_rsize f) (get_all_factors g) rs ->
     exists r, snd (compute_residual E h g) = Ok r /\ snd (compute_residual E' h g') = Ok r) /\
  (forall jss, unfinalized VC ([], empty_graph) l1 ->
     Forall (factor_wf VC h (get_all_variables g)) (get_all_factors g) ->
     Forall2 (fun f js => f_jac f h [] = (js, Ok tt) /\ blocks_ok VC h (f_rsize f) (f_vars f) js) (get_all_factors g) jss ->
     (exists J J', snd (compute_dense VC E h g) = Ok J /\ snd (compute_dense VC E' h g') = Ok J' /\ mat_eq J J') /\
     (some_active VC h (get_all_factors g) -> Forall buf_indep (get_all_factors g) ->
      exists M M', snd (compute_sparse VC h g) = Ok M /\ snd (compute_sparse VC h g') = Ok M' /\
                   mat_eq (sp_dense M) (sp_dense M'))).
Proof.
  intros HF HF' He He'. destruct (finalized_facts VC Hok _ _ _ _ _ _ HF) as (_ & _ & _ & R & _).
  destruct (finalized_facts VC Hok _ _ _ _ _ _ HF') as (_ & _ & _ & R' & _).
  assert (Ef : get_all_factors g' = get_all_factors g) by (unfold get_all_factors; congruence).
  assert (Ev : get_all_variables g' = get_all_variables g) by (unfold get_all_variables; congruence).
  split.
  - intros rs Hrs. destruct (residual_stack VC Hok _ _ _ _ _ _ _ _ HF He Hrs) as [(x & A & _) _].
    rewrite <- Ef in Hrs. destruct (residual_stack VC Hok _ _ _ _ _ _ _ _ HF' He' Hrs) as [(x' & A' & _) _].
    exists (concat rs). rewrite A, A'. auto.
  - intros jss Hu Hw Hj. assert (HL : length jss = length (get_all_factors g)) by (symmetry; apply (proj1 (proj1 (Forall2_nth _ _ _) Hj))).
    split.
    + destruct (dense_jacobian VC Hok _ _ _ _ _ _ _ _ HF Hu He Hw Hj) as (x & J & A & _ & B).
      rewrite <- Ef, <- Ev in Hw. rewrite <- Ef in Hj.
      destruct (dense_jacobian VC Hok _ _ _ _ _ _ _ _ HF' Hu He' Hw Hj) as (x' & J' & A' & _ & B').
      rewrite Ef, Ev in B'. exists J, J'. rewrite A, A'. split; auto. split; auto. eapply assembled_unique; eauto.
    + intros Ha Hb. destruct (sparse_jacobian_ok VC Hok _ _ _ _ _ _ _ HF Hu Hw Ha Hb Hj) as (x & J & A & _ & B).
      rewrite <- Ef, <- Ev in Hw. rewrite <- Ef in Hj, Ha, Hb.
      destruct (sparse_jacobian_ok VC Hok _ _ _ _ _ _ _ HF' Hu Hw Ha Hb Hj) as (x' & J' & A' & _ & B').
      rewrite Ef, Ev in B'. exists J, J'. rewrite A, A'. split; auto. split; auto. eapply assembled_unique; eauto.
Qed.

(** finalization (also a repeated one) at a moment where no Jacobian had been computed yet *)
Lemma dense_not_cached l1 l2 h1 h (g1 g : graph) e : finalized_history VC l1 l2 h1 h g1 g ->
  jacobian g1 = Throw e -> dense_inv VC h g.
Proof.
  intros HF Hj. destruct (finalized_facts VC Hok _ _ _ _ _ _ HF) as (Hf1 & _). destruct HF as (g0 & _ & _ & Hl & R2).
  pose proof (dense_inv_run VC Hok l2 (h1, g1) Hl Hf1) as D. rewrite R2 in D. apply D.
  intros X. simpl in X. unfold jacobian in Hj. rewrite X in Hj. discriminate.
Qed.
Lemma sparse_not_cached l1 l2 h1 h (g1 g : graph) e : finalized_history VC l1 l2 h1 h g1 g ->
  sparse_jacobian g1 = Throw e -> wf_all VC h g -> sinv VC h g.
Proof.
  intros HF Hj Hw. destruct (finalized_facts VC Hok _ _ _ _ _ _ HF) as (Hf1 & Hf & Hp & Hr & Hly).
  pose proof (hpres_back VC _ _ _ _ Hp (fin_reg _ _ _ Hf1) (fin_fine _ _ _ Hf1) Hr Hw) as Hw1.
  destruct HF as (g0 & R1 & F & Hl & R2).
  pose proof (reachable_reg VC Hok _ _ _ R1) as Hi.
  destruct (finalize_ok_fine VC _ _ _ Hi F) as (_ & _ & ->).
  assert (Hs : sc_valid (g_sc g0) = false).
  { unfold sparse_jacobian in Hj. simpl in Hj. destruct (sc_valid (g_sc g0)); auto; discriminate. }
  pose proof (sinv_run VC Hok l2 (h1, final_graph VC h1 g0) Hl Hf1 Hw1 (sinv_final VC h1 g0 Hs)) as D. rewrite R2 in D. auto.
Qed.

Lemma refinalized_jacobians l1 l2 h1 h (g1 g : graph) jss :
  finalized_history VC l1 l2 h1 h g1 g ->
  Forall (factor_wf VC h (get_all_variables g)) (get_all_factors g) ->
  Forall2 (fun f js => f_jac f h [] = (js, Ok tt) /\ blocks_ok VC h (f_rsize f) (f_vars f) js) (get_all_factors g) jss ->
  (forall e E, jacobian g1 = Throw e -> env_ok E ->
     exists g' J, compute_dense VC E h g = (g', Ok J) /\ assembled VC h (get_all_variables g) (get_all_factors g) jss J) /\
  (forall e, sparse_jacobian g1 = Throw e -> some_active VC h (get_all_factors g) -> Forall buf_indep (get_all_factors g) ->
     exists g' M, compute_sparse VC h g = (g', Ok M) /\ assembled VC h (get_all_variables g) (get_all_factors g) jss (sp_dense M)).
Proof.
  intros HF Hw Hj. destruct (finalized_facts VC Hok _ _ _ _ _ _ HF) as (_ & Hf & _). split.
  - intros e E He1 He. destruct (compute_dense_ok VC E h g jss) as (g' & J & A & _ & B); eauto. eapply dense_not_cached; eauto.
  - intros e He1 Ha Hb. destruct (compute_sparse_ok VC h g jss) as (g' & M & A & _ & B); eauto. eapply sparse_not_cached; eauto.
Qed.

(** a factor's id coincides with its insertion index *)
Lemma placement_by_index l1 l2 h1 h (g1 g : graph) : finalized_history VC l1 l2 h1 h g1 g ->
  (forall k f, nth_error (get_all_factors g) k = Some f -> f_id f = Z.of_nat k) ->
  forall id, match factor_placement g id with
             | Some fp => exists f, In f (get_all_factors g) /\ f_id f = id /\ fp_factor fp = Some f
             | None => ~ In id (map f_id (get_all_factors g))
             end.
Proof.
  intros HF Hid id. destruct (finalized_facts VC Hok _ _ _ _ _ _ HF) as (_ & Hf & _).
  destruct (rows_tile VC Hok _ _ _ _ _ _ HF) as (_ & HP & _).
  destruct (factor_placement g id) as [fp|] eqn:P.
  - unfold factor_placement in P. destruct (Z.ltb_spec id 0); [discriminate|].
    rewrite (fin_lay _ _ _ Hf) in P. cbn [ly_fplace] in P. apply alookup_in in P.
    2:{ intros; apply Nat.eqb_spec. }
    destruct (order_entries VC (Env (fun l => l) (fun n => repeat nzero n)) h g) as (_ & _ & Hen); auto.
    { split; intros; simpl; [apply Permutation_refl|apply repeat_length]. }
    simpl in Hen. rewrite (fin_lay _ _ _ Hf) in Hen. cbn [ly_fplace] in Hen. destruct (Hen _ _ P) as (f & Hk & Hff & _). exists f. split; [eapply nth_error_In; eauto|].
    split; auto. rewrite (Hid _ _ Hk). apply Z2Nat.id. auto.
  - intros Hin. apply in_map_iff in Hin. destruct Hin as (f & <- & Hin). apply In_nth_error in Hin. destruct Hin as [k Hk].
    destruct (HP k f Hk) as (fp & E & _). rewrite (Hid _ _ Hk) in P. congruence.
Qed.
End Fresh.
