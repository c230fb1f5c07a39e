(** Properties C49 (numerical Jacobians), C53 (verdict of detailed_factor_test) and C61 (convergence).  Proofs are in NumJacFacts,
    NumJacLib, NumJacReal, NumJacLimit, NumJacCases, DetailFacts, DetailLib, DetailLinear and DetailCases. *)
From Coq Require Import List Arith ZArith QArith Bool Lia Reals Lra.
From Flocq.IEEE754 Require Import BinarySingleNaN.
From Verif Require Import Base Sparse Graph Geom Vars VarOps SpecGraph Real Float FactorsLin FactorsGeo FactorLib SpecFactor SpecShape SpecSolver NumJac SpecTools.
From Verif Require Import NumJacFacts NumJacLib NumJacReal NumJacLimit NumJacCases DetailFacts DetailLib DetailLinear DetailCases SpecGeom GeomR GeomExp GeomLog GeomFacts VarsLemmas FactorFacts PropsFactors Toy.
Import ListNotations.
Set Bullet Behavior "Strict Subproofs".
Local Open Scope nat_scope.

(** C49, the part that holds for any number system, any factor and any kind of variable: no side effect and the difference quotients,
    if set_value_from_vector(value()) takes the factor's variables back and the call ends normally.  Missing: variables that do not
    return and calls that end with an exception; see the refutations. *)
Theorem C49_quotients_partial : forall (N : num) V (VC : vclass N V) f eps (h h' : @heap V) Js,
  each_variable VC f h (returns VC) -> num_jac VC f eps h = (h', Ok Js) -> h' = h /\ difference_quotients VC f h eps Js.
Proof. exact @num_jac_ok. Qed.
(** for the library's factors, used correctly, the call always ends normally *)
Theorem C49_library : forall (N : num) (h : @heap (lvar N)) (f : lib_factor N) eps, (forall a v, nth_error h a = Some v -> in_shape (l_kind v)) -> well_used h f ->
  each_variable (lib N) (build f) h (returns (lib N)) ->
  exists Js, num_jac (lib N) (build f) eps h = (h, Ok Js) /\ difference_quotients (lib N) (build f) h eps Js.
Proof. exact @lib_num_jac. Qed.
(** which variables return, in exact arithmetic: all but rotations, however they were made and used ... *)
Theorem C49_returns : forall v, made v -> returns (lib RN) v.
Proof. exact made_returns. Qed.
(** ... rotations of at least 1e-5 radians or none at all ... *)
Theorem C49_rotation_returns : forall id A, rotation A -> A = m3id (N:=RN) \/ (/ 100000 <= acos ((m3trace A - 1) / 2))%R -> returns (lib RN) (mk_rotation id A).
Proof. exact rotation_returns. Qed.
(** ... and rotations that were set through set_value_from_vector *)
Theorem C49_set_rotation_returns : forall (v v' : lvar RN) A x, dcm_AB v = Some A -> vset (lib RN) v x = Ok v' -> returns (lib RN) v'.
Proof. exact set_rotation_returns. Qed.
(** equal to the coefficient matrices of every affine factor, whatever the epsilon *)
Theorem C49_affine : forall V (VC : vclass RN V), vclass_ok VC -> forall f (h : @heap V) vs js (eps : R), eps <> 0%R -> (forall h, f_res f h = f_res_ref f h) ->
  (forall p, In p (f_vars f) -> exists a v, p = Some a /\ In a vs /\ nth_error h a = Some v) -> NoDup (f_vars f) ->
  affine_at VC h vs f js -> each_nonconst VC h vs (additive VC) -> each_variable VC f h (returns VC) ->
  exists Js, num_jac VC f eps h = (h, Ok Js) /\ difference_quotients VC f h (eps : RN) Js /\ entrywise VC h f eq Js js.
Proof. exact @affine_num. Qed.
(** and to the analytic Jacobians of the library's affine factors *)
Theorem C49_generic_prior : forall id a prior sigma (h : @heap (lvar RN)) x (eps : R), eps <> 0%R -> sees_vector h a x -> length x = length prior ->
  exists Js Ja, num_jac (lib RN) (generic_prior (lib RN) id a prior sigma) eps h = (h, Ok Js) /\ f_jac (generic_prior (lib RN) id a prior sigma) h [] = (Ja, Ok tt) /\
    entrywise (lib RN) h (generic_prior (lib RN) id a prior sigma) eq Js Ja.
Proof. exact prior_num. Qed.
Theorem C49_generic_between : forall id a b d n sigma (h : @heap (lvar RN)) xa xb xd (eps : R), eps <> 0%R -> sees_vector h a xa -> sees_vector h b xb -> sees_vector h d xd ->
  length xa = n -> length xb = n -> length xd = n -> a <> b -> b <> d -> a <> d ->
  exists Js Ja, num_jac (lib RN) (generic_between (lib RN) id a b d n sigma) eps h = (h, Ok Js) /\ f_jac (generic_between (lib RN) id a b d n sigma) h [] = (Ja, Ok tt) /\
    entrywise (lib RN) h (generic_between (lib RN) id a b d n sigma) eq Js Ja.
Proof. exact between_num. Qed.
(** a rotation of a millionth radian about x comes back as another rotation *)
Theorem C49_rotation_refuted : rotation small_turn /\ forall id prior (sigma eps : R), exists h' Js,
  num_jac (lib RN) (rotation_prior id 0 prior sigma) eps turn_heap = (h', Ok Js) /\ h' <> turn_heap.
Proof. exact (conj (proj1 exp_log_wrong) small_turn_changed). Qed.
(** a factor that throws while a variable is perturbed leaves it perturbed *)
Theorem C49_exception_refuted : exists r, f_res picky [ToyVar 1 [1%Z] false] = Ok r /\
  num_jac toyclass picky 1%Z [ToyVar 1 [1%Z] false] = ([ToyVar 1 [0%Z] false], Throw EDegenerate).
Proof. exact picky_stuck. Qed.

(** C53 in exact arithmetic, for variables that return, as far as the call ends normally.  Missing: variables that do not return and NaN;
    see the refutations. *)
Theorem C53_verdict_partial : forall V (VC : vclass RN V) tol (h h' : @heap V) g b, (forall f, In f (get_all_factors g) -> each_variable VC f h (returns VC)) ->
  detailed_factor_test VC tol h g = (h', Ok b) ->
  h' = h /\ (b = true <-> forall f, In f (get_all_factors g) -> exists Ja Jn, f_jac f h [] = (Ja, Ok tt) /\
                          difference_quotients VC f h (nlit (1 # 1000000)) Jn /\ jacobians_agree VC h f tol Ja Jn).
Proof. exact @verdict. Qed.
(** on graphs of library objects it ends normally, unless a factor whose Jacobian may be undefined refuses to compute it *)
Theorem C53_library : forall (N : num) tol (h : @heap (lvar N)) (g : graph (N:=N) (V:=lvar N)), ly_final (g_lay g) = true ->
  (forall a v, nth_error h a = Some v -> in_shape (l_kind v)) -> (forall a v, nth_error h a = Some v -> 0 < ksize (l_kind v)) ->
  (forall f, In f (get_all_factors g) -> exists lf, f = build lf /\ well_used h lf /\ each_variable (lib N) f h (returns (lib N))) ->
  exists o, detailed_factor_test (lib N) tol h g = (h, o) /\
    ((exists b, o = Ok b) \/ (o = Throw EDegenerate /\ exists lf, In (build lf) (get_all_factors g) /\ may_refuse lf)).
Proof. exact @test_runs. Qed.
(** graphs of generic priors and generic betweens on plain vectors pass, at every tolerance ... *)
Theorem C53_linear_graphs : forall tol (h : @heap (lvar RN)) (g : graph (N:=RN) (V:=lvar RN)), ly_final (g_lay g) = true ->
  (forall a v, nth_error h a = Some v -> in_shape (l_kind v)) -> (forall a v, nth_error h a = Some v -> 0 < ksize (l_kind v)) ->
  (forall f, In f (get_all_factors g) -> exists lf, f = build lf /\ linear_use h lf) -> detailed_factor_test (lib RN) tol h g = (h, Ok true).
Proof. exact linear_passes. Qed.
(** ... unless a prior sits on a constant variable: its Jacobian (correct otherwise) has a matrix too many *)
Theorem C53_constant_prior : forall tol (h h' : @heap (lvar RN)) g b id a prior sigma v, (forall f, In f (get_all_factors g) -> each_variable (lib RN) f h (returns (lib RN))) ->
  In (generic_prior (lib RN) id a prior sigma) (get_all_factors g) -> nth_error h a = Some v -> l_const v = true -> detailed_factor_test (lib RN) tol h g = (h', Ok b) -> b = false.
Proof. exact constant_fails. Qed.
Theorem C53_not_finalized : forall (N : num) V (VC : vclass N V) tol (h : @heap V) (g : graph (N:=N) (V:=V)), ly_final (g_lay g) = false ->
  detailed_factor_test VC tol h g = (h, Throw ENotFinalized).
Proof. exact @verdict_needs_final. Qed.
(** in doubles, a Jacobian that is not a number passes, at every tolerance: no difference to it is less than any bound *)
Theorem C53_nan_refuted : forall L (x tol : b64), ly_final (g_lay (one_graph L x (nan_factor L))) = true /\ get_all_factors (one_graph L x (nan_factor L)) = [nan_factor L] /\
  detailed_factor_test (lib (BN L)) tol (one_heap L x) (one_graph L x (nan_factor L)) = (one_heap L x, Ok true) /\
  f_jac (nan_factor L) (one_heap L x) [] = ([Mat (N:=BN L) 1 1 (fun _ _ => bnan)], Ok tt) /\ forall y bound : b64, Bltb (Babs (bsub y bnan)) bound = false.
Proof. exact nan_refuted. Qed.
(** the test itself changes a small rotation *)
Theorem C53_rotation_refuted : forall tol, ly_final (g_lay turn_graph) = true /\ get_all_factors turn_graph = [turn_prior] /\
  fst (detailed_factor_test (lib RN) tol turn_heap turn_graph) <> turn_heap.
Proof. exact turn_not_restored. Qed.

(** C61: wherever the analytic Jacobian is exact and the variables are regular, the numerical one converges to it *)
Theorem C61_limit : forall f (h : @heap (lvar RN)) J, exact_jacobian f h J -> NoDup (f_vars f) -> (forall a v, nth_error h a = Some v -> well_formed (l_kind v)) ->
  each_variable (lib RN) f h (fun v => regular (l_kind v) /\ returns (lib RN) v) -> forall d, (0 < d)%R ->
  exists e0, (0 < e0)%R /\ forall eps : R, (0 < Rabs eps < e0)%R ->
  exists Js, num_jac (lib RN) f eps h = (h, Ok Js) /\ entrywise (lib RN) h f (fun x y => (Rabs (x - y) < d)%R) Js J.
Proof. exact limit_num. Qed.
Print Assumptions C49_quotients_partial.
Print Assumptions C49_library.
Print Assumptions C49_returns.
Print Assumptions C49_rotation_returns.
Print Assumptions C49_set_rotation_returns.
Print Assumptions C49_affine.
Print Assumptions C49_generic_prior.
Print Assumptions C49_generic_between.
Print Assumptions C49_rotation_refuted.
Print Assumptions C49_exception_refuted.
Print Assumptions C53_verdict_partial.
Print Assumptions C53_library.
Print Assumptions C53_linear_graphs.
Print Assumptions C53_constant_prior.
Print Assumptions C53_not_finalized.
Print Assumptions C53_nan_refuted.
Print Assumptions C53_rotation_refuted.
Print Assumptions C61_limit.

(** ** Concrete cases *)
Local Open Scope R_scope.
(** [scene] of FactorFacts: a heading and a point seen from it *)
Example C61_case : exists J, let f := range_bearing_2d (N:=RN) 0 7%nat 9%nat 5 0 3 2 in
  exact_jacobian f scene J /\ NoDup (f_vars f) /\ (forall a v, nth_error scene a = Some v -> well_formed (l_kind v)) /\ each_variable (lib RN) f scene (fun v => regular (l_kind v) /\ returns (lib RN) v).
Proof.
  destruct C40_case as (_ & J & E). exists J. cbv zeta. split; [exact E|]. split; [|split].
  - repeat constructor; cbn; intuition congruence.
  - intros a v Ha. destruct a as [|[|[|[|[|[|[|[|[|[|[|[|[|a]]]]]]]]]]]]]; [injection Ha as <-..|destruct a; discriminate Ha]; try exact I; reflexivity.
  - intros a v Hin Ha _. pose proof PI_RGT_0. destruct Hin as [H0|[H0|[]]]; injection H0 as <-; injection Ha as <-; (split; [|apply real_returns]); cbn [l_kind regular real_kind]; try exact I.
    + exists 0, 0, 0. split; [reflexivity|lra].
    + apply wrap_in. lra.
Qed.
(** two points, their (constant) difference and a prior, in a finalized graph; the prior's point is constant in the second case *)
Definition points (c : bool) : @heap (lvar RN) := [LVar 1 c (KLandmark (N:=RN) [1; 2; 3]); LVar 2 false (KGeneric (N:=RN) [4; 5; 6]); LVar 3 true (KGeneric (N:=RN) [0; 0; 0])].
Definition points_graph (c : bool) : graph (N:=RN) (V:=lvar RN) :=
  let add g a := fst (add_variable (lib RN) (points c) g (Some a)) in
  fst (finalize_structure (lib RN) (points c) (fst (add_factor (fst (add_factor (add (add (add empty_graph 0%nat) 1%nat) 2%nat)
    (Some (build (LGenericPrior (N:=RN) 4 0%nat [1; 1; 1] 2))))) (Some (build (LGenericBetween (N:=RN) 5 0%nat 1%nat 2%nat 3 1)))))).
Example points_graph_made c : finalize_structure (lib RN) (points c) (fst (add_factor (fst (add_factor (fst (add_variable (lib RN) (points c) (fst (add_variable (lib RN) (points c) (fst (add_variable (lib RN) (points c) empty_graph (Some 0%nat))) (Some 1%nat))) (Some 2%nat)))
    (Some (build (LGenericPrior (N:=RN) 4 0%nat [1; 1; 1] 2))))) (Some (build (LGenericBetween (N:=RN) 5 0%nat 1%nat 2%nat 3 1))))) = (points_graph c, Ok tt).
Proof. rewrite (surjective_pairing (finalize_structure _ _ _)). apply f_equal2; [reflexivity|]. destruct c; reflexivity. Qed.
Lemma points_in_shape c : forall a v, nth_error (points c) a = Some v -> in_shape (l_kind v) /\ (0 < ksize (l_kind v))%nat.
Proof. intros a v Ha. destruct a as [|[|[|a]]]; [injection Ha as <-; split; cbn; try reflexivity; lia..|destruct a; discriminate Ha]. Qed.
Lemma points_factors c f : In f (get_all_factors (points_graph c)) -> f = build (LGenericPrior (N:=RN) 4 0%nat [1; 1; 1] 2) \/ f = build (LGenericBetween (N:=RN) 5 0%nat 1%nat 2%nat 3 1).
Proof.
  assert (E : get_all_factors (points_graph c) = [build (LGenericPrior (N:=RN) 4 0%nat [1; 1; 1] 2); build (LGenericBetween (N:=RN) 5 0%nat 1%nat 2%nat 3 1)]) by (destruct c; reflexivity).
  rewrite E. intros [<-|[<-|[]]]; auto.
Qed.
Lemma points_return c : forall a v, nth_error (points c) a = Some v -> returns (lib RN) v.
Proof. intros a v Ha. apply real_returns. destruct a as [|[|[|a]]]; [injection Ha as <-; cbn; try exact I; reflexivity..|destruct a; discriminate Ha]. Qed.
Example C53_library_case c : ly_final (g_lay (points_graph c)) = true /\
  forall f, In f (get_all_factors (points_graph c)) -> exists lf, f = build lf /\ well_used (points c) lf /\ each_variable (lib RN) f (points c) (returns (lib RN)).
Proof.
  split; [destruct c; reflexivity|]. intros f Hf. destruct (points_factors c f Hf) as [->| ->]; eexists; (split; [reflexivity|]); (split; [|intros a v _ Ha _; exact (points_return c a v Ha)]).
  - eexists. split; [reflexivity|]. split; reflexivity.
  - repeat split; eexists; (split; [reflexivity|]); split; reflexivity.
Qed.
Example C53_linear_case tol : detailed_factor_test (lib RN) tol (points false) (points_graph false) = (points false, Ok true).
Proof.
  apply C53_linear_graphs; try (intros a v Ha; apply (points_in_shape false a v Ha)); [reflexivity|]. intros f Hf. destruct (points_factors false f Hf) as [->| ->]; eexists; (split; [reflexivity|]).
  - exists [1; 2; 3]. split; [exists 1%Z, false; right; split; reflexivity|]. split; [reflexivity|]. intros (v & Hv & C). injection Hv as <-. discriminate.
  - exists [1; 2; 3], [4; 5; 6], [0; 0; 0]. split; [exists 1%Z, false; right; split; reflexivity|]. split; [exists 2%Z, false; left; reflexivity|]. split; [exists 3%Z, true; left; reflexivity|]. repeat split; congruence.
Qed.
Example C53_constant_case tol : exists o, detailed_factor_test (lib RN) tol (points true) (points_graph true) = (points true, o) /\ o <> Ok true.
Proof.
  destruct (C53_library RN tol (points true) (points_graph true)) as (o & E & _); try (intros a v Ha; apply (points_in_shape true a v Ha)); try apply (C53_library_case true). exists o. split; [exact E|].
  intros ->. assert (X : true = false); [|discriminate X].
  eapply (C53_constant_prior tol (points true) (points true) (points_graph true) true 4 0%nat [1; 1; 1] 2 (LVar 1 true (KLandmark (N:=RN) [1; 2; 3]))); [|left; reflexivity|reflexivity|reflexivity|exact E].
  intros f _ a v _ Ha _. exact (points_return true a v Ha).
Qed.
(** the same graph meets the hypotheses of the other theorems *)
Example C49_prior_case : sees_vector (points false) 0%nat [1; 2; 3] /\ each_variable (lib RN) (build (LGenericPrior (N:=RN) 4 0%nat [1; 1; 1] 2)) (points false) (returns (lib RN)).
Proof. split; [exists 1%Z, false; right; split; reflexivity|]. intros a v _ Ha _. exact (points_return false a v Ha). Qed.
Example C49_made_case : made (mk_plane 3 (V3 (N:=RN) 1 2 2) 5) /\ made (mk_pose2 3 (V3 (N:=RN) 1 2 2)).
Proof. split; eexists _, []; (split; [reflexivity|]); repeat (first [left; repeat eexists; reflexivity|right]); repeat eexists. Qed.
Example C49_rotation_case : rotation quarter /\ / 100000 <= acos ((m3trace quarter - 1) / 2).
Proof.
  split; [exact quarter_rotation|]. pose proof pi_bounds. unfold quarter. rewrite aa_trace by apply ex_unit. replace ((1 + 2 * cos 1 - 1) / 2) with (cos 1) by field. rewrite acos_cos; lra.
Qed.
