(** Property C54: vectors of a wrong length passed to a variable, for every number system, in any heap next to any graph.
    Proofs are in VarSizes. *)
From Coq Require Import List Arith ZArith Bool Lia.
From Verif Require Import Base Sparse Graph Geom Vars FactorLib SpecShape VarSizes Toy.
Import ListNotations.
Local Open Scope nat_scope.

Section Props.
Context {N : num}.
Notation heap := (@heap (lvar N)).
Notation graph := (graph (N:=N) (V:=lvar N)).
Notation env := (env (N:=N) (V:=lvar N)).

(** C54, the parts that hold.  Missing: apply_increment of rotation variables and set_value_from_vector of landmark, pose, rotation
    and inverse range variables; see the refutations. *)
Theorem C54_increment_partial : forall (E : env) (h : heap) (g : graph) a v x, nth_error h a = Some v -> ~ is_rotation (l_kind v) ->
  length x <> vsize (lib N) v -> step (lib N) E (h, g) (OIncVal a x) = ((h, g), AUnit (Throw EVarSizeMismatch)).
Proof. exact inc_rejects. Qed.
Theorem C54_set_partial : forall (E : env) (h : heap) (g : graph) a v x, nth_error h a = Some v ->
  is_generic (l_kind v) \/ is_plane (l_kind v) \/ is_pose2 (l_kind v) ->
  length x <> vsize (lib N) v -> step (lib N) E (h, g) (OSetVal a x) = ((h, g), AUnit (Throw EVarSizeMismatch)).
Proof. exact set_rejects. Qed.
(** accepted: afterwards value() does not have size() elements *)
Theorem C54_set_accepts_refuted : forall (E : env) (h : heap) (g : graph) a v x, nth_error h a = Some v ->
  is_landmark (l_kind v) \/ (is_pose (l_kind v) /\ 6 < length x) \/ (is_inverse (l_kind v) /\ 1 < length x) ->
  exists h' v', step (lib N) E (h, g) (OSetVal a x) = ((h', g), AUnit (Ok tt)) /\ nth_error h' a = Some v' /\
    length (vval (lib N) v') = length x /\ vsize (lib N) v' = vsize (lib N) v.
Proof. exact set_accepts. Qed.
(** not rejected but undefined (Eigen size and index assertions are compiled out in release builds) *)
Theorem C54_set_undefined_refuted : forall (E : env) (h : heap) (g : graph) a v x, nth_error h a = Some v -> length x <> vsize (lib N) v ->
  is_rotation (l_kind v) \/ (is_pose (l_kind v) /\ length x < 6) \/ (is_inverse (l_kind v) /\ x = []) ->
  exists u, step (lib N) E (h, g) (OSetVal a x) = ((h, g), AUnit (UB u)).
Proof. exact set_undefined. Qed.
Theorem C54_rotation_increment_refuted : forall (E : env) (h : heap) (g : graph) a v x, nth_error h a = Some v -> is_rotation (l_kind v) ->
  length x <> vsize (lib N) v -> exists u, step (lib N) E (h, g) (OIncVal a x) = ((h, g), AUnit (UB u)).
Proof. exact inc_undefined. Qed.
End Props.
Print Assumptions C54_increment_partial.
Print Assumptions C54_set_partial.
Print Assumptions C54_set_accepts_refuted.
Print Assumptions C54_set_undefined_refuted.
Print Assumptions C54_rotation_increment_refuted.

Local Open Scope Z_scope.
Example C54_case : let v := LVar 1 false (KPose2 (N:=NZ) [1; 2; 0]) in let E := Env (fun l => l) (fun n => repeat 0 n) in
  step (lib NZ) E ([v], empty_graph) (OIncVal 0%nat [1; 1]) = (([v], empty_graph), AUnit (Throw EVarSizeMismatch)) /\
  step (lib NZ) E ([v], empty_graph) (OSetVal 0%nat []) = (([v], empty_graph), AUnit (Throw EVarSizeMismatch)).
Proof.
  split; [apply (C54_increment_partial _ _ _ _ (LVar 1 false (KPose2 (N:=NZ) [1; 2; 0])))|apply (C54_set_partial _ _ _ _ (LVar 1 false (KPose2 (N:=NZ) [1; 2; 0])))];
    cbn; auto; discriminate.
Qed.
Example C54_refuted_case : exists h', step (lib NZ) (Env (fun l => l) (fun n => repeat 0 n)) ([LVar 1 false (KLandmark (N:=NZ) [1; 2; 3])], empty_graph) (OSetVal 0%nat [8]) = ((h', empty_graph), AUnit (Ok tt)) /\
  map (vval (lib NZ)) h' = [[8]] /\ map (vsize (lib NZ)) h' = [3%nat].
Proof. eexists. split; [reflexivity|]. split; reflexivity. Qed.
