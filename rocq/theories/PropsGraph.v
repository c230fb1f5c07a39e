(** Properties C01-C16 of FactorGraph.  All theorems hold for every scalar type [N], every class of variables [VC] whose
    setters keep id, size and constant flag ([vclass_ok]) and arbitrary factor classes.  Statements use SpecGraph only
    (besides the model functions themselves); each is followed by a concrete case. *)
From Coq Require Import List Arith ZArith Bool Permutation Lia.
From Verif Require Import Base Sparse Graph SpecGraph GraphBasic GraphVec GraphDense GraphSparse GraphSafe GraphFresh Toy.
Import ListNotations.

Section Props.
Context {N : num} {V : Type} (VC : vclass N V).
Notation factor := (factor (N:=N) (V:=V)).
Notation graph := (graph (N:=N) (V:=V)).
Notation env := (env (N:=N) (V:=V)).
Notation op := (op (N:=N) (V:=V)).
Hypothesis Hok : vclass_ok VC.

(** C01 *)
Theorem C01_variable_registry : forall l h (g : graph), run VC ([], empty_graph) l = (h, g) ->
  get_all_variables g = accepted_vars VC ([], empty_graph) l /\
  NoDup (map (idz VC h) (get_all_variables g)) /\
  (forall id a, get_variable g id = Some a <-> In a (get_all_variables g) /\ idz VC h a = id) /\
  (forall a v, nth_error h a = Some v ->
     (In (vid VC v) (map (idz VC h) (get_all_variables g)) -> add_variable VC h g (Some a) = (g, Throw EDupVariable)) /\
     (~ In (vid VC v) (map (idz VC h) (get_all_variables g)) ->
        snd (add_variable VC h g (Some a)) = Ok tt /\
        get_all_variables (fst (add_variable VC h g (Some a))) = get_all_variables g ++ [a])).
Proof. exact (var_registry VC Hok). Qed.

(** C02 *)
Theorem C02_factor_registry : forall l h (g : graph), run VC ([], empty_graph) l = (h, g) ->
  get_all_factors g = accepted_factors VC ([], empty_graph) l /\
  NoDup (map f_id (get_all_factors g)) /\
  (forall f,
     (In (f_id f) (map f_id (get_all_factors g)) -> add_factor g (Some f) = (g, Throw EDupFactor)) /\
     (~ In (f_id f) (map f_id (get_all_factors g)) ->
        snd (add_factor g (Some f)) = Ok tt /\
        get_all_factors (fst (add_factor g (Some f))) = get_all_factors g ++ [f])).
Proof. exact (factor_registry VC Hok). Qed.

(** C03: after any successful finalization and any value operations since *)
Theorem C03_columns_tile : forall l1 l2 h1 h (g1 g : graph), finalized_history VC l1 l2 h1 h g1 g ->
  let vs := get_all_variables g in
  num_values g = total_cols VC h vs /\
  (forall k a, nth_error vs k = Some a ->
     variable_placement g (idz VC h a) = Some (VPlacement a (col_start VC h vs k) (width VC h a))) /\
  (forall id, ~ In id (map (idz VC h) vs) -> variable_placement g id = None) /\
  (forall j, j < num_values g -> exists k a, nth_error vs k = Some a /\
     col_start VC h vs k <= j < col_start VC h vs k + width VC h a) /\
  (forall k k' a a' j, nth_error vs k = Some a -> nth_error vs k' = Some a' ->
     col_start VC h vs k <= j < col_start VC h vs k + width VC h a ->
     col_start VC h vs k' <= j < col_start VC h vs k' + width VC h a' -> k = k').
Proof. exact (columns_tile VC Hok). Qed.

(** C04 *)
Theorem C04_rows_tile : forall l1 l2 h1 h (g1 g : graph), finalized_history VC l1 l2 h1 h g1 g ->
  let fs := get_all_factors g in
  num_residuals g = total_rows fs /\
  (forall k f, nth_error fs k = Some f -> exists fp, factor_placement g (Z.of_nat k) = Some fp /\
     fp_factor fp = Some f /\ fp_rindex fp = row_start fs k /\ fp_rdim fp = f_rsize f) /\
  (forall i, i < num_residuals g -> exists k f, nth_error fs k = Some f /\
     row_start fs k <= i < row_start fs k + f_rsize f) /\
  (forall k k' f f' i, nth_error fs k = Some f -> nth_error fs k' = Some f' ->
     row_start fs k <= i < row_start fs k + f_rsize f ->
     row_start fs k' <= i < row_start fs k' + f_rsize f' -> k = k').
Proof. exact (rows_tile VC Hok). Qed.

(** C05, first half *)
Theorem C05_finalize_iff : forall l h (g : graph), run VC ([], empty_graph) l = (h, g) ->
  Forall (pointers_live h) (get_all_factors g) ->
  let bad := Exists (fun f => lists_null f \/ lists_unregistered VC h (get_all_variables g) f) (get_all_factors g) \/
             total_rows (get_all_factors g) < total_cols VC h (get_all_variables g) in
  (bad -> exists e, snd (finalize_structure VC h g) = Throw e) /\
  (~ bad -> snd (finalize_structure VC h g) = Ok tt).
Proof. exact (finalize_iff VC Hok). Qed.

(** C05, second half.  The hypotheses on factors concern the factors' own code; [lists_members] excludes factors that
    list a different object with the id of a graph variable, which finalize_structure() does not notice. *)
Theorem C05_no_undefined_behaviour : forall l1 l2 h1 h (g1 g : graph) (E : env) (o : op),
  finalized_history VC l1 l2 h1 h g1 g -> env_ok E -> compute_op o ->
  Forall (factor_safe VC h) (get_all_factors g) ->
  Forall (lists_members VC h (get_all_variables g)) (get_all_factors g) ->
  (forall a v x u, In a (get_all_variables g) -> nth_error h a = Some v -> length x = vsize VC v -> vinc VC v x <> UB u) ->
  ~ undefined (snd (step VC E (h, g) o)).
Proof. exact (no_undefined VC Hok). Qed.

(** C06 *)
Theorem C06_residual_stack : forall l1 l2 h1 h (g1 g : graph) rs (E : env),
  finalized_history VC l1 l2 h1 h g1 g -> env_ok E ->
  Forall2 (fun f r => f_res_ref f h = Ok r /\ length r = f_rsize f) (get_all_factors g) rs ->
  (exists g', compute_residual E h g = (g', Ok (concat rs)) /\ residual g' = Ok (concat rs)) /\
  (forall buf, compute_residual_into E h g buf = (concat rs, Ok tt)).
Proof. exact (residual_stack VC Hok). Qed.

(** C07: on every call after the first successful finalization *)
Theorem C07_dense_jacobian : forall l1 l2 h1 h (g1 g : graph) (E : env) jss,
  finalized_history VC l1 l2 h1 h g1 g -> unfinalized VC ([], empty_graph) l1 -> env_ok E ->
  Forall (factor_wf VC h (get_all_variables g)) (get_all_factors g) ->
  Forall2 (fun f js => f_jac f h [] = (js, Ok tt) /\ blocks_ok VC h (f_rsize f) (f_vars f) js) (get_all_factors g) jss ->
  exists g' J, compute_dense VC E h g = (g', Ok J) /\ jacobian g' = Ok J /\
    assembled VC h (get_all_variables g) (get_all_factors g) jss J.
Proof. exact (dense_jacobian VC Hok). Qed.

(** C08.  [some_active]: at least one factor lists an optimised variable; otherwise the second call throws, see
    [C08_no_active_refuted]. *)
Theorem C08_sparse_equals_dense : forall l1 l2 h1 h (g1 g : graph) (E : env) jss,
  finalized_history VC l1 l2 h1 h g1 g -> unfinalized VC ([], empty_graph) l1 -> env_ok E ->
  Forall (factor_wf VC h (get_all_variables g)) (get_all_factors g) ->
  some_active VC h (get_all_factors g) -> Forall buf_indep (get_all_factors g) ->
  Forall2 (fun f js => f_jac f h [] = (js, Ok tt) /\ blocks_ok VC h (f_rsize f) (f_vars f) js) (get_all_factors g) jss ->
  exists g' M g'' J, compute_sparse VC h g = (g', Ok M) /\ compute_dense VC E h g = (g'', Ok J) /\
    mat_eq (sp_dense M) J /\ assembled VC h (get_all_variables g) (get_all_factors g) jss (sp_dense M).
Proof. exact (sparse_eq_dense VC Hok). Qed.

(** C09: two different histories of value updates and compute calls that end in the same variable values *)
Theorem C09_depends_on_current_values : forall l1 l2 l2' h1 h (g1 g g' : graph) (E E' : env),
  finalized_history VC l1 l2 h1 h g1 g -> finalized_history VC l1 l2' h1 h g1 g' -> env_ok E -> env_ok E' ->
  (forall rs, Forall2 (fun f r => f_res_ref f h = Ok r /\ length r = f_rsize f) (get_all_factors g) rs ->
     exists r, snd (compute_residual E h g) = Ok r /\ snd (compute_residual E' h g') = Ok r) /\
  (forall jss, unfinalized VC ([], empty_graph) l1 ->
     Forall (factor_wf VC h (get_all_variables g)) (get_all_factors g) ->
     Forall2 (fun f js => f_jac f h [] = (js, Ok tt) /\ blocks_ok VC h (f_rsize f) (f_vars f) js) (get_all_factors g) jss ->
     (exists J J', snd (compute_dense VC E h g) = Ok J /\ snd (compute_dense VC E' h g') = Ok J' /\ mat_eq J J') /\
     (some_active VC h (get_all_factors g) -> Forall buf_indep (get_all_factors g) ->
      exists M M', snd (compute_sparse VC h g) = Ok M /\ snd (compute_sparse VC h g') = Ok M' /\
                   mat_eq (sp_dense M) (sp_dense M'))).
Proof. exact (recompute_fresh VC Hok). Qed.

(** C10 *)
Theorem C10_nothing_before_finalize : forall l h (g : graph),
  run VC ([], empty_graph) l = (h, g) -> unfinalized VC ([], empty_graph) l ->
  (forall E o, compute_op o -> threw (snd (step VC E (h, g) o)) /\ fst (step VC E (h, g) o) = (h, g)) /\
  (exists e, jacobian g = Throw e) /\ (exists e, residual g = Throw e) /\ (exists e, sparse_jacobian g = Throw e).
Proof. exact (nothing_before VC). Qed.

(** C11 *)
Theorem C11_vector_round_trip : forall l1 l2 h1 h (g1 g : graph), finalized_history VC l1 l2 h1 h g1 g ->
  each_nonconst VC h (get_all_variables g) (sized VC) ->
  let x0 := concat (map (vval VC) (nonconst VC h (get_all_variables g))) in
  get_variable_vector VC h g = Ok x0 /\ length x0 = num_values g /\
  (each_nonconst VC h (get_all_variables g) (restores VC) ->
     set_variable_values_from_vector VC h g x0 = (h, Ok tt)) /\
  (each_nonconst VC h (get_all_variables g) (verbatim VC) -> forall x, length x = num_values g ->
     exists h', set_variable_values_from_vector VC h g x = (h', Ok tt) /\ get_variable_vector VC h' g = Ok x).
Proof. exact (vector_round_trip VC Hok). Qed.

(** C12 *)
Theorem C12_apply_increment : forall l1 l2 h1 h (g1 g : graph), finalized_history VC l1 l2 h1 h g1 g -> forall dx,
  (length dx <> num_values g -> exists e, apply_increment VC h g dx = (h, Throw e)) /\
  (length dx = num_values g ->
   (forall k a v, nth_error (get_all_variables g) k = Some a -> nth_error h a = Some v -> vconst VC v = false ->
      exists v', vinc VC v (slice (col_start VC h (get_all_variables g) k) (vsize VC v) dx) = Ok v') ->
   exists h', apply_increment VC h g dx = (h', Ok tt) /\
     updated VC h h' (get_all_variables g)
       (fun k v => vinc VC v (slice (col_start VC h (get_all_variables g) k) (vsize VC v) dx))).
Proof. exact (apply_increment_spec VC Hok). Qed.

(** C13, calls on the graph object (any of them, in any state, successful or not) *)
Theorem C13_graph_calls_keep_constants : forall l s,
  Forall (fun eo : env * op => graph_op (snd eo)) l -> const_kept VC (fst s) (fst (run VC s l)).
Proof. exact (graph_ops_const VC). Qed.

(** C14, the part that holds: the residual after any number of finalizations, and the Jacobians if none had been computed
    before the last finalization.  Missing: Jacobians when one was computed before, see the refutations below. *)
Theorem C14_refinalize_residual_partial : forall l1 l2 h1 h (g1 g : graph) rs (E : env),
  finalized_history VC l1 l2 h1 h g1 g -> env_ok E ->
  Forall2 (fun f r => f_res_ref f h = Ok r /\ length r = f_rsize f) (get_all_factors g) rs ->
  exists g', compute_residual E h g = (g', Ok (concat rs)).
Proof.
  intros l1 l2 h1 h g1 g rs E HF He Hrs. destruct (residual_stack VC Hok _ _ _ _ _ _ _ _ HF He Hrs) as [(g' & A & _) _]. eauto.
Qed.
Theorem C14_refinalize_jacobians_partial : forall l1 l2 h1 h (g1 g : graph) jss,
  finalized_history VC l1 l2 h1 h g1 g ->
  Forall (factor_wf VC h (get_all_variables g)) (get_all_factors g) ->
  Forall2 (fun f js => f_jac f h [] = (js, Ok tt) /\ blocks_ok VC h (f_rsize f) (f_vars f) js) (get_all_factors g) jss ->
  (forall e E, jacobian g1 = Throw e -> env_ok E ->
     exists g' J, compute_dense VC E h g = (g', Ok J) /\ assembled VC h (get_all_variables g) (get_all_factors g) jss J) /\
  (forall e, sparse_jacobian g1 = Throw e -> some_active VC h (get_all_factors g) -> Forall buf_indep (get_all_factors g) ->
     exists g' M, compute_sparse VC h g = (g', Ok M) /\ assembled VC h (get_all_variables g) (get_all_factors g) jss (sp_dense M)).
Proof. exact (refinalized_jacobians VC Hok). Qed.

(** C15, the part that holds: ids equal to insertion indices.  Missing: all other ids, see the refutation below. *)
Theorem C15_placement_by_index_partial : forall l1 l2 h1 h (g1 g : graph), finalized_history VC l1 l2 h1 h g1 g ->
  (forall k f, nth_error (get_all_factors g) k = Some f -> f_id f = Z.of_nat k) ->
  forall id, match factor_placement g id with
             | Some fp => exists f, In f (get_all_factors g) /\ f_id f = id /\ fp_factor fp = Some f
             | None => ~ In id (map f_id (get_all_factors g))
             end.
Proof. exact (placement_by_index VC Hok). Qed.
End Props.
Print Assumptions C01_variable_registry.
Print Assumptions C02_factor_registry.
Print Assumptions C03_columns_tile.
Print Assumptions C04_rows_tile.
Print Assumptions C05_finalize_iff.
Print Assumptions C05_no_undefined_behaviour.
Print Assumptions C06_residual_stack.
Print Assumptions C07_dense_jacobian.
Print Assumptions C08_sparse_equals_dense.
Print Assumptions C09_depends_on_current_values.
Print Assumptions C10_nothing_before_finalize.
Print Assumptions C11_vector_round_trip.
Print Assumptions C12_apply_increment.
Print Assumptions C13_graph_calls_keep_constants.
Print Assumptions C14_refinalize_residual_partial.
Print Assumptions C14_refinalize_jacobians_partial.
Print Assumptions C15_placement_by_index_partial.

(** ** Concrete cases *)
Local Open Scope Z_scope.

(** C01-C04: a rejected duplicate, a constant variable, ids out of order *)
Example C01_case : get_all_variables ex_g = [0; 1; 2]%nat /\ get_variable ex_g 9 = Some 1%nat /\ get_variable ex_g 1 = None /\
  map f_id (get_all_factors ex_g) = [10; 4; 7].
Proof. vm_compute. auto. Qed.
Example C03_case : finalized_history toyclass ex_l1 ex_l2 ex_h1 ex_h ex_g1 ex_g /\
  num_values ex_g = 3%nat /\ num_residuals ex_g = 4%nat /\
  map (fun id => option_map (fun p => (vp_index p, vp_dim p)) (variable_placement ex_g id)) [5; 9; 2; 1]
  = [Some (0, 2); Some (2, 0); Some (2, 1); None]%nat.
Proof. split; [exact ex_finalized|]. vm_compute. auto. Qed.
Example C05_case : Forall (pointers_live ex_h1) (get_all_factors (snd ex_s0)) /\ snd (finalize_structure toyclass ex_h1 (snd ex_s0)) = Ok tt.
Proof.
  split; [|vm_compute; reflexivity]. apply Forall_forall. intros f Hf a Ha. simpl in Hf.
  destruct Hf as [<-|[<-|[<-|[]]]]; simpl in Ha; destruct Ha as [Ha|[Ha|[]]]; inversion Ha; subst; vm_compute; eauto.
Qed.
Example C05_safe_case : Forall (factor_safe toyclass ex_h) (get_all_factors ex_g) /\
  Forall (lists_members toyclass ex_h (get_all_variables ex_g)) (get_all_factors ex_g) /\
  (forall a v x u, In a (get_all_variables ex_g) -> nth_error ex_h a = Some v -> length x = vsize toyclass v -> vinc toyclass v x <> UB u).
Proof. split; [exact ex_safe|split; [exact ex_members|intros a v x u _ _; exact (toy_inc_safe v x u)]]. Qed.
(** a factor listing an unregistered variable is rejected *)
Example C05_reject_case :
  snd (finalize_structure toyclass [ToyVar 5 [1] false; ToyVar 6 [1] false]
     (snd (run toyclass ([ToyVar 5 [1] false; ToyVar 6 [1] false], empty_graph)
        [(env_id, OAddVar (Some 0%nat)); (env_id, OAddFactor (Some (lin_factor 1 [0%nat; 1%nat] [B11; B11] [0])))])))
  = Throw ENoPlacement.
Proof. vm_compute. reflexivity. Qed.
Example C06_case : Forall2 (fun f r => f_res_ref f ex_h = Ok r /\ length r = f_rsize f) (get_all_factors ex_g) ex_rs /\
  snd (compute_residual env_rev ex_h ex_g) = Ok [51; 75; 83; 45].
Proof. split; [exact ex_res|vm_compute; reflexivity]. Qed.
Example C07_case : unfinalized toyclass ([], empty_graph) ex_l1 /\
  Forall (factor_wf toyclass ex_h (get_all_variables ex_g)) (get_all_factors ex_g) /\
  Forall2 (fun f js => f_jac f ex_h [] = (js, Ok tt) /\ blocks_ok toyclass ex_h (f_rsize f) (f_vars f) js) (get_all_factors ex_g) ex_jss /\
  omap rows_of (snd (compute_dense toyclass env_rev ex_h ex_g)) = Ok [[1; 2; 7]; [5; 6; 8]; [0; 0; 9]; [3; 4; 0]].
Proof. split; [exact ex_unfinalized|split; [exact ex_wf|split; [exact ex_blocks|vm_compute; reflexivity]]]. Qed.
Example C08_case : some_active toyclass ex_h (get_all_factors ex_g) /\ Forall buf_indep (get_all_factors ex_g) /\
  omap (fun m => rows_of (sp_dense m)) (snd (compute_sparse toyclass ex_h ex_g)) = Ok [[1; 2; 7]; [5; 6; 8]; [0; 0; 9]; [3; 4; 0]].
Proof. split; [exact ex_active|split; [exact ex_indep|vm_compute; reflexivity]]. Qed.
(** the same values reached without any compute call *)
Example C09_case : exists l2', l2' <> ex_l2 /\ exists g', finalized_history toyclass ex_l1 l2' ex_h1 ex_h ex_g1 g'.
Proof.
  exists [(env_id, OSetVal 0%nat [2; 3]); (env_id, OSetVal 2%nat [6])]. split; [discriminate|]. exists ex_g1.
  destruct ex_finalized as (g0 & A & B & _). exists g0. split; auto. split; auto. split.
  - repeat constructor; simpl; auto; apply env_id_ok.
  - match goal with |- _ = ?r => vm_cast_no_check (eq_refl r) end.
Qed.
Example C11_case : each_nonconst toyclass ex_h (get_all_variables ex_g) (sized toyclass) /\
  each_nonconst toyclass ex_h (get_all_variables ex_g) (restores toyclass) /\
  each_nonconst toyclass ex_h (get_all_variables ex_g) (verbatim toyclass) /\
  get_variable_vector toyclass ex_h ex_g = Ok [2; 3; 6].
Proof.
  split; [intros a v _ _ _; reflexivity|split; [|split]].
  - intros a v _ _ _. unfold restores. simpl. unfold toy_set. rewrite Nat.eqb_refl. destruct v; reflexivity.
  - intros a v _ _ _ x Hx. simpl in *. unfold toy_set. rewrite (proj2 (Nat.eqb_eq _ _) Hx). eexists. split; reflexivity.
  - vm_compute. reflexivity.
Qed.
Example C12_case : fst (apply_increment toyclass ex_h ex_g [10; 20; 30]) =
  [ToyVar 5 [12; 23] false; ToyVar 9 [3] true; ToyVar 2 [36] false].
Proof. vm_compute. reflexivity. Qed.
Example C13_case : Forall (fun eo : tenv * top => graph_op (snd eo)) [(env_id, OApplyInc [1; 1; 1]); (env_id, OSetVec [4; 4; 4])] /\
  fst (run toyclass (ex_h, ex_g) [(env_id, OApplyInc [1; 1; 1]); (env_id, OSetVec [4; 4; 4])]) =
  [ToyVar 5 [4; 4] false; ToyVar 9 [3] true; ToyVar 2 [4] false].
Proof. split; [repeat constructor|vm_compute; reflexivity]. Qed.

(** ** Refutations.  Re-finalization: the example graph, Jacobians computed, then one variable made constant and the structure
    finalized again. *)
Definition re_l1 : list (tenv * top) := ex_l1 ++ [(env_id, OFinalize); (env_id, ODense); (env_id, OSparse); (env_id, OSetConst 0%nat true);
  (env_id, OSetConst 1%nat false)].
Definition re_h := fst (run toyclass ([], empty_graph) re_l1).
Definition re_g := fst (finalize_structure toyclass re_h (snd (run toyclass ([], empty_graph) re_l1))).
Definition re_jss : list (list (mat NZ)) := map (fun f => fst (f_jac f re_h [])) (get_all_factors re_g).
Lemma re_finalized : finalized_history toyclass re_l1 [] re_h re_h re_g re_g.
Proof.
  exists (snd (run toyclass ([], empty_graph) re_l1)). split; [apply surjective_pairing|]. split; [|split; [constructor|reflexivity]].
  assert (H : snd (finalize_structure toyclass re_h (snd (run toyclass ([], empty_graph) re_l1))) = Ok tt) by (vm_compute; reflexivity).
  unfold re_g. rewrite <- H. apply surjective_pairing.
Qed.
Lemma re_h_value : re_h = [ToyVar 5 [1; 2] true; ToyVar 9 [3] false; ToyVar 2 [4] false].
Proof. vm_compute. reflexivity. Qed.
Lemma re_vars : get_all_variables re_g = [0; 1; 2]%nat.
Proof. vm_compute. reflexivity. Qed.
Lemma re_factors : get_all_factors re_g = [F1; F2; F3].
Proof. vm_cast_no_check (eq_refl [F1; F2; F3]). Qed.
Lemma re_blocks : Forall2 (fun f js => f_jac f re_h [] = (js, Ok tt) /\ blocks_ok toyclass re_h (f_rsize f) (f_vars f) js)
  (get_all_factors re_g) re_jss.
Proof.
  unfold re_jss. rewrite re_factors, re_h_value.
  repeat constructor; simpl;
    try (intros q a v J Hq Ha HJ; destruct q as [|[|q]]; simpl in Hq; inversion Hq; subst; simpl in Ha; inversion Ha; subst;
         inversion HJ; subst; simpl; auto); destruct q; discriminate.
Qed.
Lemma re_wf : Forall (factor_wf toyclass re_h (get_all_variables re_g)) (get_all_factors re_g).
Proof.
  rewrite re_vars, re_factors, re_h_value. apply Forall_forall. intros f Hf. simpl in Hf. split; [|split].
  - destruct Hf as [<-|[<-|[<-|[]]]]; simpl; lia.
  - intros p Hp. assert (Hp' : In p [Some 0; Some 1; Some 2]%nat).
    { destruct Hf as [<-|[<-|[<-|[]]]]; simpl in *; tauto. }
    simpl in Hp'. destruct Hp' as [<-|[<-|[<-|[]]]]; eexists; eexists; (split; [reflexivity|]); (split; [reflexivity|]).
    + split; [intros C; discriminate C|]. intros b [<-|[<-|[<-|[]]]]; vm_compute; congruence.
    + split; [intros _; simpl; split; auto; lia|]. intros b [<-|[<-|[<-|[]]]]; vm_compute; congruence.
    + split; [intros _; simpl; split; auto; lia|]. intros b [<-|[<-|[<-|[]]]]; vm_compute; congruence.
  - destruct Hf as [<-|[<-|[<-|[]]]]; vm_compute; repeat (constructor; [simpl; intuition congruence|]); constructor.
Qed.
Lemma re_active : some_active toyclass re_h (get_all_factors re_g).
Proof. rewrite re_factors, re_h_value. exists F2, 1%nat, (ToyVar 9 [3] false). simpl. auto. Qed.
Lemma re_indep : Forall buf_indep (get_all_factors re_g).
Proof. rewrite re_factors, <- ex_factors. exact ex_indep. Qed.

(** the stale matrix keeps its old size (4 x 3 instead of 4 x 2) and its old entries; no exception is thrown *)
Theorem C14_dense_after_refinalize_refuted :
  ~ (forall l1 l2 h1 h (g1 g : tgraph) (E : tenv) jss,
       finalized_history toyclass l1 l2 h1 h g1 g -> env_ok E ->
       Forall (factor_wf toyclass h (get_all_variables g)) (get_all_factors g) ->
       Forall2 (fun f js => f_jac f h [] = (js, Ok tt) /\ blocks_ok toyclass h (f_rsize f) (f_vars f) js) (get_all_factors g) jss ->
       forall J, snd (compute_dense toyclass E h g) = Ok J ->
         assembled toyclass h (get_all_variables g) (get_all_factors g) jss J).
Proof.
  intros H. pose proof (H _ _ _ _ _ _ env_id _ re_finalized env_id_ok re_wf re_blocks) as A.
  destruct (compute_dense toyclass env_id re_h re_g) as [g' [J|e|u]] eqn:D.
  - specialize (A J eq_refl). destruct A as (_ & A & _).
    assert (X : omap mcols (snd (compute_dense toyclass env_id re_h re_g)) = Ok 3%nat) by (vm_compute; reflexivity).
    rewrite D in X. simpl in X. inversion X. rewrite A in H1. revert H1. vm_compute. congruence.
  - assert (X : omap mcols (snd (compute_dense toyclass env_id re_h re_g)) = Ok 3%nat) by (vm_compute; reflexivity). rewrite D in X. discriminate.
  - assert (X : omap mcols (snd (compute_dense toyclass env_id re_h re_g)) = Ok 3%nat) by (vm_compute; reflexivity). rewrite D in X. discriminate.
Qed.
Print Assumptions C14_dense_after_refinalize_refuted.

(** the sparse Jacobian can no longer be computed at all *)
Theorem C14_sparse_after_refinalize_refuted :
  ~ (forall l1 l2 h1 h (g1 g : tgraph) jss,
       finalized_history toyclass l1 l2 h1 h g1 g ->
       Forall (factor_wf toyclass h (get_all_variables g)) (get_all_factors g) ->
       some_active toyclass h (get_all_factors g) -> Forall buf_indep (get_all_factors g) ->
       Forall2 (fun f js => f_jac f h [] = (js, Ok tt) /\ blocks_ok toyclass h (f_rsize f) (f_vars f) js) (get_all_factors g) jss ->
       exists M, snd (compute_sparse toyclass h g) = Ok M).
Proof.
  intros H. destruct (H _ _ _ _ _ _ _ re_finalized re_wf re_active re_indep re_blocks) as [M A].
  assert (X : snd (compute_sparse toyclass re_h re_g) = Throw ERunningIndex) by (vm_compute; reflexivity). congruence.
Qed.
Print Assumptions C14_sparse_after_refinalize_refuted.

(** C14_refinalize_*_partial: two finalizations, constant flags changed in between, no Jacobian computed *)
Definition re2_l1 : list (tenv * top) := ex_l1 ++ [(env_id, OFinalize); (env_id, OResidual); (env_id, OSetConst 0%nat true); (env_id, OSetConst 1%nat false)].
Definition re2_h := fst (run toyclass ([], empty_graph) re2_l1).
Definition re2_g := fst (finalize_structure toyclass re2_h (snd (run toyclass ([], empty_graph) re2_l1))).
Example C14_case : finalized_history toyclass re2_l1 [] re2_h re2_h re2_g re2_g /\
  jacobian re2_g = Throw ENotValid /\ sparse_jacobian re2_g = Throw ENotValid /\
  re2_h = re_h /\ get_all_factors re2_g = get_all_factors re_g /\
  omap rows_of (snd (compute_dense toyclass env_id re2_h re2_g)) = Ok [[0; 7]; [0; 8]; [9; 9]; [9; 0]].
Proof.
  split.
  - exists (snd (run toyclass ([], empty_graph) re2_l1)). split; [apply surjective_pairing|]. split; [|split; [constructor|reflexivity]].
    assert (H : snd (finalize_structure toyclass re2_h (snd (run toyclass ([], empty_graph) re2_l1))) = Ok tt) by (vm_compute; reflexivity).
    unfold re2_g. rewrite <- H. apply surjective_pairing.
  - repeat split; match goal with |- _ = ?r => vm_cast_no_check (eq_refl r) end.
Qed.

(** C15: in the example (factor ids 10, 4, 7) the id 10 is not found, and an id that exists nowhere is *)
Theorem C15_factor_placement_refuted :
  ~ (forall l1 l2 h1 h (g1 g : tgraph) id, finalized_history toyclass l1 l2 h1 h g1 g ->
       match factor_placement g id with
       | Some fp => exists f, In f (get_all_factors g) /\ f_id f = id /\ fp_factor fp = Some f
       | None => ~ In id (map f_id (get_all_factors g))
       end).
Proof.
  intros H. specialize (H _ _ _ _ _ _ 10 ex_finalized).
  assert (X : factor_placement ex_g 10 = None) by (vm_compute; reflexivity). rewrite X in H. apply H. rewrite ex_factors. simpl. auto.
Qed.
Print Assumptions C15_factor_placement_refuted.
(** the lookup can silently return another factor: ids 1 and 0 inserted in this order *)
Definition sw_l1 : list (tenv * top) := [ (env_id, ONew (ToyVar 5 [1] false)); (env_id, OAddVar (Some 0%nat));
  (env_id, OAddFactor (Some (lin_factor 1 [0%nat] [B11] [0]))); (env_id, OAddFactor (Some (lin_factor 0 [0%nat] [B11] [0]))); (env_id, OFinalize)].
Example C15_wrong_factor : option_map (fun fp => option_map f_id (fp_factor fp))
  (factor_placement (snd (run toyclass ([], empty_graph) sw_l1)) 0) = Some (Some 1).
Proof. vm_compute. reflexivity. Qed.
Example C15_case : exists l1 h (g : tgraph), finalized_history toyclass l1 [] h h g g /\
  (forall k f, nth_error (get_all_factors g) k = Some f -> f_id f = Z.of_nat k) /\ length (get_all_factors g) = 2%nat.
Proof.
  set (l1 := [ (env_id, ONew (ToyVar 5 [1] false)); (env_id, OAddVar (Some 0%nat));
    (env_id, OAddFactor (Some (lin_factor 0 [0%nat] [B11] [0]))); (env_id, OAddFactor (Some (lin_factor 1 [0%nat] [B11] [0])))] : list (tenv * top)).
  exists l1, (fst (run toyclass ([], empty_graph) l1)), (fst (finalize_structure toyclass (fst (run toyclass ([], empty_graph) l1)) (snd (run toyclass ([], empty_graph) l1)))).
  split; [|split].
  - exists (snd (run toyclass ([], empty_graph) l1)). split; [apply surjective_pairing|]. split; [|split; [constructor|reflexivity]].
    assert (H : snd (finalize_structure toyclass (fst (run toyclass ([], empty_graph) l1)) (snd (run toyclass ([], empty_graph) l1))) = Ok tt) by (vm_compute; reflexivity).
    destruct (finalize_structure toyclass (fst (run toyclass ([], empty_graph) l1)) (snd (run toyclass ([], empty_graph) l1))).
    simpl in *. congruence.
  - intros [|[|k]] f Hk; [inversion Hk; reflexivity|inversion Hk; reflexivity|]. destruct k; discriminate.
  - reflexivity.
Qed.

(** C16: one factor listing the same variable twice, blocks 9 and 9 (total derivative 18) *)
Definition dup_l1 : list (tenv * top) := [ (env_id, ONew (ToyVar 5 [1] false)); (env_id, OAddVar (Some 0%nat));
  (env_id, OAddFactor (Some (lin_factor 1 [0%nat; 0%nat] [B11; B11] [0])))].
Definition dup_h := fst (run toyclass ([], empty_graph) dup_l1).
Definition dup_g := fst (finalize_structure toyclass dup_h (snd (run toyclass ([], empty_graph) dup_l1))).
Lemma dup_finalized : finalized_history toyclass dup_l1 [] dup_h dup_h dup_g dup_g.
Proof.
  exists (snd (run toyclass ([], empty_graph) dup_l1)). split; [apply surjective_pairing|]. split; [|split; [constructor|reflexivity]].
  assert (H : snd (finalize_structure toyclass dup_h (snd (run toyclass ([], empty_graph) dup_l1))) = Ok tt) by (vm_compute; reflexivity).
  unfold dup_g. rewrite <- H. apply surjective_pairing.
Qed.
(** the statement of C16 for a graph whose only factor lists its only variable twice *)
Theorem C16_repeated_variable_dense_refuted :
  ~ (forall l1 h (g : tgraph) f a B1 B2, finalized_history toyclass l1 [] h h g g -> unfinalized toyclass ([], empty_graph) l1 ->
       get_all_factors g = [f] -> get_all_variables g = [a] -> f_vars f = [Some a; Some a] -> f_jac f h [] = ([B1; B2], Ok tt) ->
       blocks_ok toyclass h (f_rsize f) (f_vars f) [B1; B2] ->
       forall J r c, snd (compute_dense toyclass env_id h g) = Ok J -> (r < f_rsize f)%nat -> (c < width toyclass h a)%nat ->
         mat_at J r c = mat_at B1 r c + mat_at B2 r c).
Proof.
  intros H. specialize (H dup_l1 dup_h dup_g (lin_factor 1 [0%nat; 0%nat] [B11; B11] [0]) 0%nat B11 B11 dup_finalized).
  assert (X : omap (fun J => mat_at J 0 0) (snd (compute_dense toyclass env_id dup_h dup_g)) = Ok 9) by (vm_compute; reflexivity).
  destruct (snd (compute_dense toyclass env_id dup_h dup_g)) as [J|e|u]; try discriminate.
  assert (Hb : blocks_ok toyclass dup_h 1 [Some 0%nat; Some 0%nat] [B11; B11]).
  { split; [simpl; lia|]. intros q a v J0 Hq Ha HJ. destruct q as [|[|q]]; simpl in Hq; inversion Hq; subst; inversion Ha; subst; inversion HJ; subst; simpl; auto.
    destruct q; discriminate. }
  simpl in X. injection X as X. specialize (H ltac:(repeat (split; [discriminate|]); exact I) eq_refl eq_refl eq_refl eq_refl Hb J 0%nat 0%nat eq_refl).
  assert (Y : mat_at J 0 0 = 9 + 9) by (apply H; vm_compute; lia). rewrite X in Y. discriminate.
Qed.
Print Assumptions C16_repeated_variable_dense_refuted.
(** sparse: the first call keeps one of the two blocks, every later call throws *)
Theorem C16_repeated_variable_sparse_refuted :
  omap (fun M => rows_of (sp_dense M)) (snd (compute_sparse toyclass dup_h dup_g)) = Ok [[9]] /\
  snd (compute_sparse toyclass dup_h (fst (compute_sparse toyclass dup_h dup_g))) = Throw ESparseBounds.
Proof. vm_compute. auto. Qed.
Print Assumptions C16_repeated_variable_sparse_refuted.

(** C08 without an active variable: first call fine, second call throws *)
Definition na_l1 : list (tenv * top) := [ (env_id, ONew (ToyVar 5 [1] true)); (env_id, OAddVar (Some 0%nat));
  (env_id, OAddFactor (Some (lin_factor 1 [0%nat] [B11] [0])))].
Definition na_h := fst (run toyclass ([], empty_graph) na_l1).
Definition na_g := fst (finalize_structure toyclass na_h (snd (run toyclass ([], empty_graph) na_l1))).
Theorem C08_no_active_refuted :
  (exists M, snd (compute_sparse toyclass na_h na_g) = Ok M) /\
  snd (compute_sparse toyclass na_h (fst (compute_sparse toyclass na_h na_g))) = Throw ENullValuePtr.
Proof. vm_compute. eauto. Qed.
Print Assumptions C08_no_active_refuted.
