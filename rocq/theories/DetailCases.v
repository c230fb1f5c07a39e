(** Proofs for PropsNumJac: counterexamples to the verdict of detailed_factor_test, and a case that meets its hypotheses. *)
From Coq Require Import List Arith ZArith QArith Bool Lia Reals Lra.
From Flocq Require Import Core.
From Flocq.IEEE754 Require Import BinarySingleNaN.
From Verif Require Import Base Sparse Graph Geom Vars SpecGraph ListLemmas Real Float FactorsLin FactorsGeo NumJac SpecTools NumJacFacts NumJacLib NumJacCases DetailFacts.
From Verif Require Import SpecGeom SpecFactor GeomR GeomExp GeomLog GeomFacts FactorFacts.
Import ListNotations.
Set Bullet Behavior "Strict Subproofs".

(** ** Not a number *)
Section Nan.
Variable L : libm.
(** residual: the value of the variable; the analytic Jacobian is not a number *)
Definition value_res (h : @heap (lvar (BN L))) : outcome (list (BN L)) := match h with [LVar _ _ (KGeneric x)] => Ok x | _ => UB UBDangling end.
Definition nan_block : mat (BN L) := Mat (N:=BN L) 1 1 (fun _ _ => bnan).
Definition nan_factor : factor (N:=BN L) (V:=lvar (BN L)) := Factor (N:=BN L) (V:=lvar (BN L)) 2 [Some 0%nat] 1 value_res value_res (fun _ _ => ([nan_block], Ok tt)).
Definition one_heap (x : b64) : @heap (lvar (BN L)) := [LVar 1 false (KGeneric (N:=BN L) [x])].
Definition one_graph (x : b64) (f : factor (N:=BN L) (V:=lvar (BN L))) : graph (N:=BN L) (V:=lvar (BN L)) :=
  fst (finalize_structure (lib (BN L)) (one_heap x) (fst (add_factor (fst (add_variable (lib (BN L)) (one_heap x) empty_graph (Some 0%nat))) (Some f)))).
Lemma nan_num x (eps : b64) : exists q, num_jac (lib (BN L)) nan_factor eps (one_heap x) = (one_heap x, Ok [of_columns (N:=BN L) 1 1 [[q]]]).
Proof. eexists. reflexivity. Qed.
Lemma leb_nan (x : b64) : Bleb x bnan = false.
Proof. destruct x; reflexivity. Qed.
Lemma sub_nan (x : b64) : bsub x bnan = bnan.
Proof. destruct x; reflexivity. Qed.
Lemma nan_passes x (tol : b64) : ly_final (g_lay (one_graph x nan_factor)) = true /\ get_all_factors (one_graph x nan_factor) = [nan_factor] /\
  detailed_factor_test (lib (BN L)) tol (one_heap x) (one_graph x nan_factor) = (one_heap x, Ok true).
Proof.
  split; [reflexivity|]. split; [reflexivity|]. unfold detailed_factor_test. change (ly_final (g_lay (one_graph x nan_factor))) with true. cbn [negb].
  change (rg_factors (g_reg (one_graph x nan_factor))) with [nan_factor]. cbn [test_factors]. unfold test_factor. change (f_jac nan_factor (one_heap x) []) with ([nan_block], @Ok unit tt). cbn [hthen].
  destruct (nan_num x (nlit (n:=BN L) (1 # 1000000))) as (q & E). rewrite E. cbn [hthen length Nat.eqb negb].
  assert (T : test_blocks (lib (BN L)) tol (one_heap x) (f_vars nan_factor) [nan_block] [of_columns (N:=BN L) 1 1 [[q]]] = Ok true); [|rewrite T; reflexivity].
  change (f_vars nan_factor) with [Some 0%nat]. cbn [test_blocks]. change (hget (one_heap x) 0%nat) with (Ok (LVar 1 false (KGeneric (N:=BN L) [x]))). cbn [obind].
  assert (T : test_block (lib (BN L)) tol (LVar 1 false (KGeneric (N:=BN L) [x])) nan_block (of_columns (N:=BN L) 1 1 [[q]]) = Ok true); [|rewrite T; reflexivity].
  unfold test_block. change (vconst (lib (BN L)) (LVar 1 false (KGeneric (N:=BN L) [x]))) with false. cbv iota. change (mrows nan_block) with 1%nat. change (mcols nan_block) with 1%nat.
  cbn [of_columns mrows mcols Nat.eqb andb negb]. change (max_abs (N:=BN L) (of_columns (N:=BN L) 1 1 [[q]])) with (Ok (Babs q)).
  change (max_abs (N:=BN L) (mminus (of_columns (N:=BN L) 1 1 [[q]]) nan_block)) with (Ok (Babs (bsub q bnan))). rewrite sub_nan. cbn [obind].
  f_equal. change (Babs bnan) with bnan. change (negb (Bleb (nmax (nlit (n:=BN L) (1 # 100)) (bmul (Babs q) tol)) bnan) = true). rewrite leb_nan. reflexivity.
Qed.
Lemma nan_refuted (x tol : b64) : ly_final (g_lay (one_graph x nan_factor)) = true /\ get_all_factors (one_graph x nan_factor) = [nan_factor] /\
  detailed_factor_test (lib (BN L)) tol (one_heap x) (one_graph x nan_factor) = (one_heap x, Ok true) /\
  f_jac nan_factor (one_heap x) [] = ([Mat (N:=BN L) 1 1 (fun _ _ => bnan)], Ok tt) /\ forall y bound : b64, Bltb (Babs (bsub y bnan)) bound = false.
Proof.
  destruct (nan_passes x tol) as (A & B & C). repeat split; auto. intros y bound. rewrite sub_nan. destruct bound; reflexivity.
Qed.
End Nan.

(** ** A small rotation is not restored *)
Local Open Scope R_scope.
Definition turn_prior : factor (N:=RN) (V:=lvar RN) := rotation_prior (N:=RN) 2 0%nat small_turn 1.
Definition turn_graph : graph (N:=RN) (V:=lvar RN) :=
  fst (finalize_structure (lib RN) turn_heap (fst (add_factor (fst (add_variable (lib RN) turn_heap empty_graph (Some 0%nat))) (Some turn_prior)))).
Lemma turn_jac : exists J, f_jac turn_prior turn_heap [] = (J, Ok tt).
Proof.
  assert (R : rotation small_turn) by apply exp_log_wrong.
  destruct (c44_rotation_prior_partial 2 0%nat small_turn 1 turn_heap small_turn m3id v3zero) as (J & E & _); auto; try lra.
  - eexists _, _, _. reflexivity.
  - apply product_mul. symmetry. apply m3mul_id_l.
  - apply zero_by.
  - exists J. apply E.
Qed.
Lemma turn_not_restored tol : ly_final (g_lay turn_graph) = true /\ get_all_factors turn_graph = [turn_prior] /\ fst (detailed_factor_test (lib RN) tol turn_heap turn_graph) <> turn_heap.
Proof.
  split; [reflexivity|]. split; [reflexivity|]. unfold detailed_factor_test. change (ly_final (g_lay turn_graph)) with true. cbn [negb].
  change (rg_factors (g_reg turn_graph)) with [turn_prior]. cbn [test_factors]. unfold test_factor. destruct turn_jac as (J & ->). cbn [hthen].
  destruct (small_turn_changed 2 small_turn 1 (nlit (n:=RN) (1 # 1000000))) as (h' & Js & E & D). change (rotation_prior 2 0%nat small_turn 1) with turn_prior in E. rewrite E. cbn [hthen].
  destruct (negb (length J =? length Js)%nat); [exact D|]. destruct (test_blocks _ _ _ _ _ _); exact D.
Qed.
