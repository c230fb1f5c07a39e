(** C90: the logarithm on the unit sphere (LogMapS2), in real arithmetic. *)
From Coq Require Import List Arith ZArith QArith Bool Reals Lra Lia.
From Coquelicot Require Import Coquelicot.
From Verif Require Import Base Geom SpecGeom Real GeomR GeomExp Sphere SphereFacts.
Local Open Scope R_scope.
Set Bullet Behavior "Strict Subproofs".

(** [cosine b u] (SphereFacts) is the sum of the products of the coordinates *)
Lemma apart (b u : v3 RN) : length2 b = 1 -> length2 u = 1 -> cosine b u * cosine b u <= 1 - / 100000000000000000000 -> / 10000000000 <= len (v3cross b u).
Proof.
  intros B U C. pose proof (cross_sq b u B U) as X. apply Rsqr_incr_0_var; [|apply len_nonneg]. unfold Rsqr. rewrite len_sq, X. lra.
Qed.
Theorem C90_turns_one_into_the_other : forall b u : v3 RN, length2 b = 1 -> length2 u = 1 -> cosine b u * cosine b u <= 1 - / 100000000000000000000 ->
  let w := log_s2 b u in
  (exists A, rotation_by w A /\ image A b u) /\ len w = acos (cosine b u) /\ cosine w b = 0 /\ cosine w u = 0.
Proof.
  intros b u B U C w. destruct (log_s2_turns b u B U (apart b u B U C)) as (X1 & X2 & X3 & X4). fold w in X1, X2, X3, X4. split; [|auto]. exists (exp_so3 w). split; [|exact X1].
  apply exp_by. left. rewrite X2. pose proof (apart b u B U C) as L. pose proof (cosine_range b u B U) as R0. pose proof (cross_sq b u B U) as Q.
  pose proof (acos_bound (cosine b u)) as Tb. set (t := acos (cosine b u)) in *. assert (Ct : cos t = cosine b u) by (apply cos_acos; lra).
  assert (S : sin t * sin t = len (v3cross b u) * len (v3cross b u)) by (rewrite len_sq, Q, <- Ct; pose proof (sin2_cos2 t) as P; unfold Rsqr in P; lra).
  assert (0 <= sin t) by (apply sin_ge_0; lra). assert (sin t = len (v3cross b u)) by (apply Rsqr_inj; [lra|lra|exact S]).
  destruct (Req_dec t 0) as [Z|Z]; [rewrite Z, sin_0 in *; lra|]. assert (sin t < t) by (apply sin_lt_x; lra). lra.
Qed.
Theorem C90_back : forall b w u : v3 RN, length2 b = 1 -> cosine w b = 0 -> 0 < len w < PI -> / 10000000000 <= sin (len w) -> image (exp_so3 w) b u -> log_s2 b u = w.
Proof. exact log_s2_back. Qed.
Theorem C90_nearly_parallel : forall b u v : v3 RN, length2 b = 1 -> length2 u = 1 -> 0 <= cosine b u -> image (exp_so3 (log_s2 b u)) b v ->
  forall i, (i < 3)%nat -> Rabs (coord v i - coord u i) <= / 5000000000.
Proof.
  intros b u v B U C Im i Hi. pose proof (log_s2_near b u B U C i Hi) as X. rewrite image_mul in Im. rewrite <- Im in X. exact X.
Qed.
Theorem C90_opposite_refuted : let b := V3 (N:=RN) 1 0 0 in let u := V3 (N:=RN) (-1) 0 0 in
  length2 b = 1 /\ length2 u = 1 /\ log_s2 b u = V3 (N:=RN) 0 0 0 /\ ~ image (exp_so3 (log_s2 b u)) b u.
Proof. exact log_s2_opposite. Qed.
(** a quarter turn about the third axis *)
Example C90_case : log_s2 (V3 (N:=RN) 1 0 0) (V3 (N:=RN) 0 1 0) = V3 (N:=RN) 0 0 (PI / 2).
Proof.
  pose proof PI_RGT_0 as P. assert (L : len (V3 (N:=RN) 0 0 (PI / 2)) = PI / 2) by (unfold len; gx; replace (0 * 0 + 0 * 0 + PI / 2 * (PI / 2)) with (PI / 2 * (PI / 2)) by ring; apply sqrt_square; lra).
  apply C90_back; [gx; ring|unfold cosine; gx; ring|rewrite L; lra|rewrite L, sin_PI2; lra|].
  intros i Hi. rewrite exp_large; rewrite L; [|pose proof PI_4; pose proof (PI2_1); lra].
  destruct i as [|[|[|i]]]; [| | |lia]; gx; rewrite sin_PI2, cos_PI2; field; lra.
Qed.

Print Assumptions C90_turns_one_into_the_other.
Print Assumptions C90_back.
Print Assumptions C90_nearly_parallel.
Print Assumptions C90_opposite_refuted.
