(** One problem in two places: planar poses, a camera with two kinds of points, and a moving body. *)
From Coq Require Import List Arith ZArith QArith Bool Reals Lra Lia.
From Verif Require Import Base Sparse Graph Geom Vars Real FactorsLin FactorsGeo FactorLib Optimizer SpecTwin SpecMoved OptToy MovedVars.
Import ListNotations.
Local Open Scope R_scope.
Set Bullet Behavior "Strict Subproofs".

Lemma lit_lo : / 1000000000 <= nlit (n:=RN) (1#1000000). Proof. cbn. unfold Q2R. cbn. lra. Qed.
Lemma lit_hi : / 1000000000 <= nlit (n:=RN) 1000. Proof. cbn. unfold Q2R. cbn. lra. Qed.
Section Case.
Context (sa sb m k : v3 RN) (ux uy : R).              (* planar poses, their measured difference, a landmark; planar displacement *)
Context (c r l o b : v3 RN) (t0 t1 t2 : R).           (* a camera, a point, an inverse range point; spatial displacement *)
Context (x1 x2 v x' v' dt : R).                       (* a body and its velocity; displacement and change of velocity *)
Context (sg rg : R) (ob : v3 RN).
Definition shifts (a : addr) (i : nat) : R :=
  match a, i with
  | 0%nat, 0%nat | 1%nat, 0%nat | 3%nat, 0%nat => ux
  | 0%nat, 1%nat | 1%nat, 1%nat | 3%nat, 1%nat => uy
  | 4%nat, 0%nat | 5%nat, 0%nat => t0 | 4%nat, 1%nat | 5%nat, 1%nat => t1 | 4%nat, 2%nat | 5%nat, 2%nat => t2
  | 7%nat, 0%nat => x' | 8%nat, 0%nat => x' + dt * v' | 9%nat, 0%nat => v'
  | _, _ => 0
  end.
Definition origins (a : addr) (i : nat) : R := match i with 0%nat => t0 | 1%nat => t1 | 2%nat => t2 | _ => 0 end.
(** the problem, displaced by the given amounts *)
Definition case_vars (ux uy t0 t1 t2 x' x'' v' : R) : list (lvar RN) :=
  [ mk_pose2 1 (V3 (vx sa + ux) (vy sa + uy) (vz sa) : v3 RN); mk_pose2 2 (V3 (vx sb + ux) (vy sb + uy) (vz sb) : v3 RN); LVar 3 true (KGeneric [vx m; vy m; vz m]);
    LVar 4 false (KGeneric [vx k + ux; vy k + uy] : kind RN);
    mk_pose 5 (V3 (vx c + t0) (vy c + t1) (vz c + t2) : v3 RN) r; mk_landmark 6 (V3 (vx l + t0) (vy l + t1) (vz l + t2) : v3 RN); mk_inverse_range 7 (V3 (vx o + t0) (vy o + t1) (vz o + t2) : v3 RN) b rg;
    LVar 8 false (KGeneric [x1 + x'] : kind RN); LVar 9 false (KGeneric [x2 + x''] : kind RN); LVar 10 false (KGeneric [v + v'] : kind RN) ].
Definition case_factors (ux uy t0 t1 t2 x' v' : R) : list (lib_factor RN) :=
  [ LPose2Prior 20 0%nat (V3 (vx sa + ux) (vy sa + uy) (vz sa) : v3 RN) sg sg; LPose2Between 21 0%nat 1%nat 2%nat sg sg true; LRangeBearing2 22 1%nat 3%nat rg (vx ob) sg sg;
    LPositionPrior 23 4%nat (V3 (vx c + t0) (vy c + t1) (vz c + t2) : v3 RN) sg; LOrientationPrior 24 4%nat m3id sg; LBearing 25 4%nat 5%nat ob sg; LInverseRange 26 4%nat 6%nat ob sg;
    LGenericPrior 27 7%nat [x1 + x'] sg; LGenericPrior 28 9%nat [v + v'] sg; LLinearVelocity 29 7%nat 8%nat 9%nat 1%nat dt sg 0%nat ].
Definition case_session (md : method) (ux uy t0 t1 t2 x' x'' v' : R) : list (oop (N:=RN) (V:=lvar RN)) :=
  map (fun w => OOp (ONew w)) (case_vars ux uy t0 t1 t2 x' x'' v') ++ map (fun a => OOp (OAddVar (Some a))) (seq 0 10) ++
  map (fun f => OOp (OAddFactor (Some (build f)))) (case_factors ux uy t0 t1 t2 x' v') ++
  [ OOp OFinalize; OSetup true (defaults md 20); OOptimize; OEstimate (Some 5%nat); OOp (OSetVal 5%nat [vx l + t0; vy l + t1; vz l + t2]); OOptimize ].
Lemma case_moved md : moved_session shifts origins 0 (case_session md 0 0 0 0 0 0 0 0) (case_session md ux uy t0 t1 t2 x' (x' + dt * v') v').
Proof.
  assert (B : forall t (y y' : list R), length y' = length y -> (forall i, (i < length y)%nat -> nth i y' 0 = nth i y 0 + t i) -> by_vec t y y') by (intros; split; auto).
  unfold case_session, case_vars, case_factors. cbn [map app seq moved_session makes Nat.add moved_op].
  repeat match goal with |- _ /\ _ => split end; try reflexivity;
    try (unfold moved_var, mk_pose2, mk_pose, mk_landmark, mk_inverse_range; cbn [l_id l_const l_kind]);
    try (eexists _, _; split; [reflexivity|]; split; [reflexivity|]; cbn [moved_factor]).
  all: repeat match goal with |- _ /\ _ => split end; try reflexivity; try exact I; try lra; try (intros i Hi; do 6 (destruct i as [|i]; try lia; try reflexivity); reflexivity).
  all: match goal with |- / _ <= nlit (1#1000000) => exact lit_lo | |- / _ <= nlit 1000 => exact lit_hi | |- Forall _ _ => constructor; [apply clip_ge; [exact lit_lo|exact lit_hi]|constructor] | _ => idtac end.
  all: try (apply B; [reflexivity|]; intros i Hi; change (car RN) with R in *; do 6 (destruct i as [|i]; [cbn; lra|]); cbn in Hi; lia).
  all: try (unfold by_v3; cbn; repeat split; lra).
  all: try (cbn; lra).
  - cbn. repeat split; try reflexivity; intros; destruct i as [|[|i]]; try lra; lia.
  - intros i. cbn. destruct i; lra.
Qed.
End Case.
