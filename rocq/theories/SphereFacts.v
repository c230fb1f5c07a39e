(** LogMapS2 gives the rotation vector that turns one unit vector into the other. *)
From Coq Require Import Reals Lra Psatz Bool List ZArith QArith Nsatz.
From Coquelicot Require Import Coquelicot.
From Verif Require Import Base SpecOpt Real Geom SpecGeom Trig VarsLemmas GeomR GeomExp GeomLog Sphere.
Local Open Scope R_scope.
Set Bullet Behavior "Strict Subproofs".

Definition cosine (b u : v3 RN) : R := sum3 (fun k => coord b k * coord u k).
Lemma cross_sq (b u : v3 RN) : length2 b = 1 -> length2 u = 1 -> length2 (v3cross b u) = 1 - cosine b u * cosine b u.
Proof. unfold cosine. intros B U. dv b. dv u. gx in B. gx in U. gx. nsatz. Qed.
Lemma cosine_range (b u : v3 RN) : length2 b = 1 -> length2 u = 1 -> -1 <= cosine b u <= 1.
Proof.
  intros B U. pose proof (cross_sq b u B U) as X. assert (0 <= length2 (v3cross b u)) by (rewrite <- len_sq; apply Rle_0_sqr). split; nra.
Qed.
Lemma log_s2_unfold (b u : v3 RN) : length2 b = 1 -> length2 u = 1 -> log_s2 b u =
  if Rlt_dec (acos (cosine b u)) (/ 10000000000) then v3zero else if Rlt_dec (len (v3cross b u)) (/ 10000000000) then v3zero
  else v3scale (acos (cosine b u)) (v3normalized (v3cross b u)).
Proof.
  intros B U. pose proof (cosine_range b u B U) as [C1 C2]. unfold log_s2. cbv zeta.
  assert (D : v3dot (N:=RN) b u = cosine b u) by (unfold cosine; dv b; dv u; gx; ring). rewrite D.
  assert (E : (if nltb (n:=RN) (cosine b u) (nlit (-1)) then nlit (n:=RN) (-1) else if nltb nunit (cosine b u) then nunit else cosine b u) = cosine b u).
  { match goal with |- (if ?x then _ else _) = _ => replace x with false end.
    - match goal with |- (if ?x then _ else _) = _ => replace x with false end; [reflexivity|]. symmetry. apply Rltb_false. unfold nunit. cbn [nlit RN]. rewrite q1. exact C2.
    - symmetry. apply Rltb_false. cbn [nlit RN]. rewrite qm1. exact C1. }
  rewrite E. change (nacos (n:=RN) (cosine b u)) with (acos (cosine b u)). rewrite v3sq_len. clear E D.
  assert (T : nlit (n:=RN) (1#10000000000) = / 10000000000) by (cbn [nlit RN]; unfold Q2R; cbn [Qnum Qden]; lra). rewrite T. clear T.
  destruct (Rlt_dec (acos _) _) as [H|H].
  - replace (nltb (n:=RN) _ _) with true by (symmetry; apply Rltb_true; exact H). reflexivity.
  - replace (nltb (n:=RN) (acos _) _) with false by (symmetry; apply Rltb_false; lra).
    destruct (Rlt_dec (len _) _) as [K|K].
    + replace (nltb (n:=RN) _ _) with true by (symmetry; apply Rltb_true; exact K). reflexivity.
    + replace (nltb (n:=RN) _ _) with false by (symmetry; apply Rltb_false; lra). reflexivity.
Qed.
Lemma turn_alg (b u : v3 RN) s t : length2 b = 1 -> length2 u = 1 -> s <> 0 -> s * s = 1 - cosine b u * cosine b u -> cos t = cosine b u -> sin t = s ->
  image (aa_matrix t (v3div (v3cross b u) s)) b u.
Proof.
  unfold cosine. intros B U S Es Ct St. assert (I1 : / s * s = 1) by (apply Rinv_l; exact S). clear S.
  destruct b as [b1 b2 b3]. destruct u as [u1 u2 u3]. gx in B. gx in U. gx in Es. gx in Ct.
  intros i Hi. destruct i as [|[|[|i]]]; [| | |lia]; gx; rewrite St, Ct; unfold Rdiv; set (iv := / s) in *; clearbody iv; clear - B U Es I1; nsatz.
Qed.
(** away from (anti)parallel vectors *)
Lemma log_s2_turns (b u : v3 RN) : length2 b = 1 -> length2 u = 1 -> / 10000000000 <= len (v3cross b u) ->
  image (exp_so3 (log_s2 b u)) b u /\ len (log_s2 b u) = acos (cosine b u) /\ cosine (log_s2 b u) b = 0 /\ cosine (log_s2 b u) u = 0.
Proof.
  intros B U S. pose proof (cosine_range b u B U) as C. rewrite log_s2_unfold by auto.
  set (s := len (v3cross b u)) in *. set (c := cosine b u) in *. set (t := acos c) in *.
  assert (Es : s * s = 1 - c * c) by (unfold s; rewrite len_sq; apply cross_sq; auto).
  assert (Ct : cos t = c) by (apply cos_acos; lra). pose proof (acos_bound c) as Tb. fold t in Tb.
  assert (St : sin t = s). { assert (0 <= sin t) by (apply sin_ge_0; lra). pose proof (sin2_cos2 t) as P. unfold Rsqr in P. rewrite Ct in P. nra. }
  assert (T0 : 0 < t). { destruct (Req_dec t 0) as [Z|Z]; [rewrite Z, sin_0 in St; lra|lra]. }
  assert (T1 : / 10000000000 <= t). { assert (sin t < t) by (apply sin_lt_x; exact T0). lra. }
  destruct (Rlt_dec t _) as [H|_]; [lra|]. destruct (Rlt_dec s _) as [H|_]; [lra|].
  set (x := v3cross (N:=RN) b u) in *. assert (Ex : v3normalized x = v3div x s).
  { unfold v3normalized. match goal with |- (if ?y then _ else _) = _ => replace y with true end.
    - f_equal.
    - symmetry. apply Rltb_true. unfold nzero. cbn [nlit RN]. rewrite q0. change (0 < length2 x). rewrite <- len_sq. fold s. nra. }
  rewrite Ex. pose proof (unit_axis x ltac:(fold s; lra)) as Ua. fold s in Ua. set (a := v3div x s) in *.
  assert (Lw : len (v3scale t a) = t) by (rewrite (len_scale t a Ua); apply Rabs_pos_eq; lra).
  assert (I1 : / s * s = 1) by (apply Rinv_l; lra).
  assert (Sa : s <> 0) by lra.
  assert (Ka : v3div (v3scale t a) t = a) by (clearbody a; dv a; gx; f_equal; field; lra).
  assert (Im : image (exp_so3 (v3scale t a)) b u).
  { rewrite exp_large by (rewrite Lw; lra). rewrite Lw, Ka. apply turn_alg; auto. }
  split; [exact Im|]. split; [exact Lw|]. unfold cosine, a, x, v3div. clear. dv b. dv u. split; gx; unfold Rdiv; ring.
Qed.
(** back from the rotation vector *)
Lemma log_s2_back (b w u : v3 RN) : length2 b = 1 -> cosine w b = 0 -> 0 < len w < PI -> / 10000000000 <= sin (len w) -> image (exp_so3 w) b u -> log_s2 b u = w.
Proof.
  intros B O T S Im. set (t := len w) in *. pose proof (axis_scale w ltac:(fold t; lra)) as E. pose proof (unit_axis w ltac:(fold t; lra)) as Ua. fold t in E, Ua. set (a := v3div w t) in *.
  assert (T1 : / 10000000000 <= t). { assert (sin t < t) by (apply sin_lt_x; lra). lra. }
  assert (Oa : cosine a b = 0). { assert (X : t * cosine a b = cosine w b) by (rewrite <- E; unfold cosine; clear; clearbody a; dv a; dv b; gx; ring). rewrite O in X. destruct (Rmult_integral _ _ X); lra. }
  rewrite exp_large in Im by (fold t; lra). fold t in Im. fold a in Im. clearbody a.
  assert (U : u = v3add (v3scale (cos t) b) (v3scale (sin t) (v3cross a b))).
  { assert (X : u = m3v (aa_matrix t a) b).
    { clear -Im. pose proof (Im 0%nat ltac:(lia)) as A. pose proof (Im 1%nat ltac:(lia)) as C. pose proof (Im 2%nat ltac:(lia)) as D. dv a. dv b. dv u. gx in A. gx in C. gx in D. gx. f_equal; assumption. }
    rewrite X. clear -Ua Oa. unfold cosine in Oa. dv a. dv b. gx in Ua. gx in Oa. gx. set (sn := sin t). set (cs := cos t). clearbody sn cs. f_equal; nsatz. }
  pose proof (sin2_cos2 t) as P. unfold Rsqr in P.
  assert (U1 : length2 u = 1).
  { rewrite U. clear -Ua Oa B P. unfold cosine in Oa. dv a. dv b. gx in Ua. gx in Oa. gx in B. gx. set (sn := sin t) in *. set (cs := cos t) in *. clearbody sn cs. nsatz. }
  assert (C : cosine b u = cos t).
  { rewrite U. unfold cosine in *. clear -B. dv a. dv b. gx in B. gx. set (sn := sin t) in *. set (cs := cos t) in *. clearbody sn cs. nsatz. }
  assert (X : v3cross b u = v3scale (sin t) a).
  { rewrite U. unfold cosine in *. clear -B Oa. dv a. dv b. gx in B. gx in Oa. gx. set (sn := sin t) in *. set (cs := cos t) in *. clearbody sn cs. f_equal; nsatz. }
  rewrite (log_s2_unfold b u B U1), C, X, acos_cos by lra. assert (Ls : len (v3scale (sin t) a) = sin t) by (rewrite (len_scale _ _ Ua); apply Rabs_pos_eq; lra). rewrite Ls.
  destruct (Rlt_dec t _) as [H|_]; [lra|]. destruct (Rlt_dec (sin t) _) as [H|_]; [lra|].
  assert (Ex : v3normalized (v3scale (N:=RN) (sin t) a) = a).
  { assert (Q : v3sq (N:=RN) (v3scale (sin t) a) = sin t * sin t) by (change (length2 (v3scale (N:=RN) (sin t) a) = sin t * sin t); rewrite <- len_sq, Ls; reflexivity).
    unfold v3normalized. rewrite Q. match goal with |- (if ?y then _ else _) = _ => replace y with true end.
    - change (nsqrt (n:=RN) (sin t * sin t)) with (sqrt (sin t * sin t)). rewrite sqrt_square by lra. clear -S. dv a. gx. f_equal; field; lra.
    - symmetry. apply Rltb_true. unfold nzero. cbn [nlit RN]. rewrite q0. apply Rmult_lt_0_compat; lra. }
  rewrite Ex. exact E.
Qed.
(** nearly parallel vectors *)
Lemma log_s2_near (b u : v3 RN) : length2 b = 1 -> length2 u = 1 -> 0 <= cosine b u ->
  forall i, (i < 3)%nat -> Rabs (coord (m3v (exp_so3 (log_s2 b u)) b) i - coord u i) <= / 5000000000.
Proof.
  intros B U C i Hi. pose proof (cosine_range b u B U) as [_ C1].
  destruct (Rle_lt_dec (/ 10000000000) (len (v3cross b u))) as [L|L].
  - destruct (log_s2_turns b u B U L) as (Im & _). assert (X : coord (m3v (exp_so3 (log_s2 b u)) b) i = coord u i).
    { rewrite (Im i Hi). set (m := exp_so3 _). clearbody m. clear -Hi. dm m. dv b. destruct i as [|[|[|i]]]; [| | |lia]; gx; ring. }
    rewrite X. replace (coord u i - coord u i) with 0 by ring. rewrite Rabs_R0. lra.
  - assert (Z : log_s2 b u = v3zero) by (rewrite (log_s2_unfold b u B U); destruct (Rlt_dec (acos _) _); [reflexivity|]; destruct (Rlt_dec (len _) _); [reflexivity|lra]).
    rewrite Z. assert (X : m3v (exp_so3 (N:=RN) v3zero) b = b) by (rewrite exp_small by (rewrite len0; lra); clear; dv b; gx; f_equal; ring). rewrite X.
    assert (D : len (v3sub b u) <= / 5000000000).
    { apply Rsqr_incr_0_var; [|lra]. unfold Rsqr. rewrite len_sq. pose proof (cross_sq b u B U) as K. assert (K2 : length2 (v3cross b u) <= / 10000000000 * / 10000000000) by (rewrite <- len_sq; pose proof (len_nonneg (v3cross b u)); apply Rmult_le_compat; lra).
      assert (Y : length2 (v3sub b u) = 2 - 2 * cosine b u) by (clear -B U; unfold cosine; dv b; dv u; gx in B; gx in U; gx; nsatz). rewrite Y. set (c := cosine b u) in *. assert (1 - c <= 1 - c * c) by nra. lra. }
    pose proof (coord_bound (v3sub b u)) as (X1 & X2 & X3).
    assert (Y : coord b i - coord u i = coord (v3sub b u) i) by (clear -Hi; dv b; dv u; destruct i as [|[|[|i]]]; [| | |lia]; gx; ring). rewrite Y.
    destruct i as [|[|[|i]]]; [| | |lia]; cbn [coord]; lra.
Qed.
Lemma log_s2_opposite : let b := V3 (N:=RN) 1 0 0 in let u := V3 (N:=RN) (-1) 0 0 in
  length2 b = 1 /\ length2 u = 1 /\ log_s2 b u = V3 (N:=RN) 0 0 0 /\ ~ image (exp_so3 (log_s2 b u)) b u.
Proof.
  cbv zeta. set (b := V3 (N:=RN) 1 0 0). set (u := V3 (N:=RN) (-1) 0 0). assert (B : length2 b = 1) by (unfold b; gx; ring). assert (U : length2 u = 1) by (unfold u; gx; ring).
  split; [exact B|]. split; [exact U|]. assert (L : len (v3cross b u) = 0) by (unfold len; replace (length2 (v3cross b u)) with 0 by (unfold b, u; gx; ring); apply sqrt_0).
  assert (Z : log_s2 b u = v3zero) by (rewrite (log_s2_unfold b u B U); destruct (Rlt_dec (acos _) _); [reflexivity|]; destruct (Rlt_dec (len _) _); [reflexivity|lra]).
  rewrite Z. split; [unfold v3zero, nzero; cbn [nlit RN]; rewrite q0; reflexivity|]. intros Im. specialize (Im 0%nat ltac:(lia)). rewrite exp_small in Im by (rewrite len0; lra). unfold b, u in Im. gx in Im. lra.
Qed.
