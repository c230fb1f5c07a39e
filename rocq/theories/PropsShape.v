(** Properties C47 and C48 (overloads and shapes of the library's 18 factor classes), and C05, C06 and C09 for graphs made of library
    objects.  For every number system.  Statements use SpecGraph, SpecFactor.shaped and SpecShape; proofs are in FactorShape and
    FactorSafe. *)
From Coq Require Import List Arith ZArith Bool Lia.
From Verif Require Import Base Sparse Graph Geom Vars FactorsLin FactorsGeo FactorLib SpecGraph SpecFactor SpecShape FactorShape FactorSafe Toy.
Import ListNotations.
Local Open Scope nat_scope.

Section Props.
Context {N : num}.
Notation heap := (@heap (lvar N)).
Notation graph := (graph (N:=N) (V:=lvar N)).
Notation env := (env (N:=N) (V:=lvar N)).
Notation op := (op (N:=N) (V:=lvar N)).

(** C47: same numbers, same exceptions, same undefined behaviour, in every state *)
Theorem C47_overloads_agree : forall (f : lib_factor N) (h : heap), f_res (build f) h = f_res_ref (build f) h.
Proof. exact overloads_agree. Qed.
(** correctly used, residual_size() numbers *)
Theorem C47_residual_size : forall (f : lib_factor N) (h : heap), well_used h f ->
  exists r, f_res (build f) h = Ok r /\ length r = f_rsize (build f).
Proof. exact residual_size_ok. Qed.

(** C48, the part that holds.  Missing: a generic prior on a constant variable, and a coordinate transform whose output vector has
    neither zero nor five elements; see the refutations. *)
Theorem C48_shapes_partial : forall (f : lib_factor N) (h : heap) J0,
  well_used h f -> ~ constant_generic_prior h f -> ~ odd_transform_buffer f J0 ->
  (exists J, f_jac (build f) h J0 = (J, Ok tt) /\ shaped h (f_rsize (build f)) (f_vars (build f)) J) \/
  (may_refuse f /\ exists J, f_jac (build f) h J0 = (J, Throw EDegenerate)).
Proof. exact jac_shapes. Qed.
(** two (empty) matrices for one variable *)
Theorem C48_constant_generic_prior_refuted : forall id a prior sg (h : heap) v J0, nth_error h a = Some v -> l_const v = true ->
  f_jac (build (LGenericPrior id a prior sg)) h J0 = ([mempty; mempty], Ok tt) /\
  ~ shaped h (length prior) (f_vars (build (LGenericPrior id a prior sg))) [mempty; mempty].
Proof. exact constant_prior_two. Qed.
(** an output vector left with [n] elements by something else is resized to two, then written at index 2: out of bounds *)
Theorem C48_transform_buffer_refuted : forall (f : lib_factor N) (h : heap) J0, well_used h f -> odd_transform_buffer f J0 ->
  exists J, f_jac (build f) h J0 = (J, UB UBIndex).
Proof. exact transform_overruns. Qed.

(** C05 for programs that use library classes correctly: no hypothesis about the factors' code is left *)
Theorem C05_library_graphs : forall l1 l2 h1 (h : heap) (g1 g : graph) (E : env) (o : op),
  finalized_history (lib N) l1 l2 h1 h g1 g -> careful ([], empty_graph) l1 -> careful (h1, g1) l2 -> env_ok E -> compute_op o ->
  Forall (lists_members (lib N) h (get_all_variables g)) (get_all_factors g) ->
  ~ undefined (snd (step (lib N) E (h, g) o)).
Proof. exact no_undefined_lib. Qed.
(** C06 for the same programs: the residual vector can always be computed *)
Theorem C06_library_graphs : forall l1 l2 h1 (h : heap) (g1 g : graph) (E : env),
  finalized_history (lib N) l1 l2 h1 h g1 g -> careful ([], empty_graph) l1 -> careful (h1, g1) l2 -> env_ok E ->
  exists rs, Forall2 (fun f r => f_res f h = Ok r /\ length r = f_rsize f) (get_all_factors g) rs /\
    snd (compute_residual E h g) = Ok (concat rs).
Proof. exact residual_lib. Qed.
(** C09, the hypothesis on the factors' code: what an earlier call left in the vector does not matter, in any state *)
Theorem C09_library_factors : forall f : lib_factor N, buf_indep (build f).
Proof. exact lib_buf_indep. Qed.
End Props.
Print Assumptions C47_overloads_agree.
Print Assumptions C47_residual_size.
Print Assumptions C48_shapes_partial.
Print Assumptions C48_constant_generic_prior_refuted.
Print Assumptions C48_transform_buffer_refuted.
Print Assumptions C05_library_graphs.
Print Assumptions C06_library_graphs.
Print Assumptions C09_library_factors.

(** ** Concrete cases, over the integers so that they compute *)
Local Open Scope Z_scope.
Notation lenv := (env (N:=NZ) (V:=lvar NZ)).
Notation lop := (op (N:=NZ) (V:=lvar NZ)).
Definition lib_env : lenv := Env (@rev _) (fun n => repeat 7 n).
Definition a_pose (id x : Z) : lvar NZ := LVar id false (KPose (N:=NZ) [x; 0; 0; 0; 0; 0] m3id).
Definition a_land (id x : Z) : lvar NZ := LVar id false (KLandmark (N:=NZ) [x; 0; 0]).
Definition a_gen (id : Z) (l : list Z) : lvar NZ := LVar id false (KGeneric (N:=NZ) l).
(** one variable of every class *)
Definition world : @heap (lvar NZ) :=
  [a_pose 0 0; a_pose 1 5; a_land 2 3; LVar 3 false (KRot (N:=NZ) [0; 0; 0] m3id); a_gen 4 [1; 2; 3]; a_gen 5 [2]; a_gen 6 [3; 4];
   LVar 7 true (KInv (N:=NZ) v3zero (V3 1 0 0) 0 9 [1]); LVar 8 false (KPlane (N:=NZ) (V3 0 0 1) (-2)); LVar 9 false (KPose2 (N:=NZ) [1; 2; 0]);
   LVar 10 false (KPose2 (N:=NZ) [4; 4; 0])].
Ltac here := eexists; split; [reflexivity|split; [reflexivity|cbn; try exact I; try reflexivity; try lia; try (split; [exact I|reflexivity])]].
Example C48_case : Forall (well_used world)
  [LGenericPrior 0 4%nat [0; 0; 0] 1; LGenericBetween 1 4%nat 2%nat 4%nat 3%nat 1; LLinearVelocity 2 0%nat 1%nat 4%nat 3%nat 1 1 2%nat; LPositionPrior 3 0%nat v3zero 1; LOrientationPrior 4 0%nat m3id 1;
   LRotationPrior 5 3%nat m3id 1; LPositionBetween 6 0%nat 1%nat 2%nat 1 true; LOrientationBetween 7 0%nat 1%nat 3%nat 1; LBearing 8 0%nat 2%nat (V3 1 0 0) 1; LInverseRange 9 0%nat 7%nat (V3 1 0 0) 1;
   LProjection 10 0%nat 2%nat (V3 1 0 0) 1 0; LBearing2 11 9%nat 6%nat 0 1; LRangeBearing2 12 9%nat 6%nat 1 0 1 1; LPose2Prior 13 9%nat v3zero 1 1; LPose2Between 14 9%nat 10%nat 4%nat 1 1 false;
   LPlane 15 2%nat 8%nat 1 None; LPlanePrior 16 8%nat (V3 0 0 1) 2 1 1; LTransform 17 3%nat 4%nat 5%nat 2%nat 2%nat 1].
Proof. repeat (constructor; [cbn [well_used]; repeat split; here|]). constructor. Qed.
Example C48_reuse_case : exists J, f_jac (build (LPositionBetween 6 0%nat 1%nat 2%nat 1 true)) world [mempty; mzero 4 4] = (J, Ok tt) /\ map mrows J = [3; 3; 3]%nat /\ map mcols J = [6; 6; 3]%nat.
Proof. eexists. split; [reflexivity|]. split; reflexivity. Qed.
Example C48_refuted_case : odd_transform_buffer (LTransform (N:=NZ) 17 3%nat 4%nat 5%nat 2%nat 2%nat 1) [mempty] /\ constant_generic_prior world (LGenericPrior 0 7%nat [0] 1).
Proof. split; [split; discriminate|]. eexists. split; reflexivity. Qed.

(** a history: a rejected duplicate, an increment of a wrong length, a value set by the caller, buffers reused *)
Definition lib_l1 : list (lenv * lop) :=
  map (fun o => (lib_env, o)) [ONew (a_pose 4 0); ONew (a_land 2 3); ONew (a_gen 7 [1; 2; 3]); OSetConst 2%nat true; OAddVar (Some 0%nat); OAddVar (Some 1%nat); OAddVar (Some 0%nat);
    OAddFactor (Some (build (LPositionBetween 1 0%nat 0%nat 2%nat 1 true))); OAddFactor (Some (build (LPositionPrior 2 0%nat v3zero 1)));
    OAddFactor (Some (build (LGenericPrior 3 1%nat [1; 1; 1] 1)))].
Definition lib_l2 : list (lenv * lop) :=
  map (fun o => (lib_env, o)) [OSparse; OIncVal 1%nat [1]; OApplyInc [1; 2; 3; 0; 0; 0; 1; 1; 1]; OSetVal 1%nat [4; 5; 6]; OResidual; OSparse].
Definition lib_s0 := run (lib NZ) ([], empty_graph) lib_l1.
Definition lib_g1 := fst (finalize_structure (lib NZ) (fst lib_s0) (snd lib_s0)).
Definition lib_s2 := run (lib NZ) (fst lib_s0, lib_g1) lib_l2.
Lemma lib_env_ok : env_ok lib_env.
Proof. split; [intros l; apply Permutation.Permutation_sym, Permutation.Permutation_rev|intros n; apply repeat_length]. Qed.
Example C05_library_case : finalized_history (lib NZ) lib_l1 lib_l2 (fst lib_s0) (fst lib_s2) lib_g1 (snd lib_s2) /\
  careful ([], empty_graph) lib_l1 /\ careful (fst lib_s0, lib_g1) lib_l2 /\ Forall (lists_members (lib NZ) (fst lib_s2) (get_all_variables (snd lib_s2))) (get_all_factors (snd lib_s2)) /\
  (exists r, snd (compute_residual lib_env (fst lib_s2) (snd lib_s2)) = Ok r /\ length r = 9%nat).
Proof.
  split; [|split; [|split; [|split]]].
  - exists (snd lib_s0). split; [unfold lib_s0; apply surjective_pairing|]. split; [|split; [unfold lib_l2, map; repeat (apply Forall_cons; [split; [exact lib_env_ok|exact I]|]); apply Forall_nil|unfold lib_s2; apply surjective_pairing]].
    assert (H : snd (finalize_structure (lib NZ) (fst lib_s0) (snd lib_s0)) = Ok tt) by (vm_compute; reflexivity).
    unfold lib_g1. rewrite <- H. apply surjective_pairing.
  - unfold lib_l1. cbn [map careful]. repeat (split; [try exact I; try reflexivity; (eexists; split; [reflexivity|]); cbn [well_used]; repeat split; here|]). exact I.
  - unfold lib_l2. cbn [map careful]. repeat (split; [try exact I; intros v Hv; vm_compute in Hv; injection Hv as <-; reflexivity|]). exact I.
  - change (get_all_factors (snd lib_s2)) with [build (LPositionBetween (N:=NZ) 1 0%nat 0%nat 2%nat 1 true); build (LPositionPrior (N:=NZ) 2 0%nat v3zero 1); build (LGenericPrior (N:=NZ) 3 1%nat [1; 1; 1] 1)].
    change (get_all_variables (snd lib_s2)) with [0; 1]%nat. 
    assert (M : forall f, (forall a v, In (Some a) (f_vars f) -> nth_error (fst lib_s2) a = Some v -> l_const v = false -> (a < 2)%nat) -> lists_members (lib NZ) (fst lib_s2) [0; 1]%nat f).
    { intros f H a v Ha Hv Hc. specialize (H a v Ha Hv Hc). destruct a as [|[|a]]; cbn; auto. lia. }
    assert (K : forall v, nth_error (fst lib_s2) 2 = Some v -> l_const v = true) by (intros v Hv; vm_compute in Hv; injection Hv as <-; reflexivity).
    repeat (apply Forall_cons; [apply M; intros a v Ha Hv Hc; cbn in Ha; repeat (destruct Ha as [Ha|Ha]; [injection Ha as <-|]); try contradiction; try lia; rewrite (K _ Hv) in Hc; discriminate|]).
    apply Forall_nil.
  - eexists. vm_compute. split; reflexivity.
Qed.
