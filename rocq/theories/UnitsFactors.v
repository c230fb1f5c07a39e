(** The library's factors in other units. *)
From Coq Require Import List Arith ZArith QArith Bool Reals Lra Lia.
From Verif Require Import Base Sparse Graph SpecGraph ListLemmas Geom Vars Real RSum GeomR Trig FactorsLin FactorsLinFacts FactorsGeo FactorLib FactorShape SpecTwin TwinGraph SpecBlocks SpecChange Change SpecUnits UnitsVars UnitsRead.
Import ListNotations.
Local Open Scope R_scope.
Set Bullet Behavior "Strict Subproofs".

Section Factors.
Context (u : addr -> nat -> R) (k : R).
Hypothesis Hu : forall a i, 0 < u a i.
Hypothesis Hk : 0 < k.
Notation RV := (rescaled_var u).
Notation heap := (@heap (lvar RN)).
Notation scaled := (scaled_factor u k).
Notation given := (rescaled_factor u k).

Lemma wt e (s s' : RN) : 0 < e -> s' = (k * e * s)%R -> (nunit / s)%num = (k * (e * (nunit / s')%num))%R.
Proof. intros He ->. gx. unfold Rdiv. rewrite !Rinv_mult. transitivity (k * / k * (e * / e) * / s); [rewrite !Rinv_r by lra; ring|ring]. Qed.
Lemma wt1 (s s' : RN) : s' = (k * s)%R -> (nunit / s)%num = (k * (nunit / s')%num)%R.
Proof. intros ->. gx. unfold Rdiv. rewrite !Rinv_mult. transitivity (k * / k * / s); [rewrite !Rinv_r by lra; ring|ring]. Qed.
Lemma unit_pos a n e : unit_is u a n e -> (0 < n)%nat -> 0 < e.
Proof. intros H Hn. rewrite <- (H 0%nat Hn). apply Hu. Qed.

Ltac weigh W w := match type of W with _ = ?b => match b with context [ndiv nunit ?s] => rewrite W; clear W; generalize (ndiv nunit s); intros w end end.
Ltac start := split; [reflexivity|]; split; [reflexivity|]; intros h h' H; split; [intros zr zr' i X X' Hi | intros js js' X X']; cbn [f_res_ref f_jac f_rsize f_vars] in *.
Ltac rd L Y := pose proof L as Y; match type of Y with alike _ ?o ?o' => destruct o as [?y|?e|?u], o' as [?y'|?e'|?u'] end; cbn [alike] in Y; try contradiction; cbn [obind withj] in *;
  try (match goal with Z : _ = Ok _ |- _ => discriminate Z | Z : _ = (_, Ok tt) |- _ => discriminate Z end).
Ltac got X X' := apply Ok_inj in X; apply Ok_inj in X'; subst.
Ltac entries := unfold m3diag; cbn [diagm Nat.eqb fst snd mat36 mat33 col3 m3rows diag2 rows_mat mat_at nth v3list v2list m3row0 m3row1 m3row2 app m00 m01 m02 m10 m11 m12 m20 m21 m22 vx vy vz v2x v2y].
Ltac i3 i := destruct i as [|[|[|i]]]; [| | |lia].
Ltac cols c := destruct c as [|[|[|[|[|[|[|c]]]]]]].
Ltac units := repeat match goal with Z : u _ _ = _ |- _ => rewrite !Z end.
Ltac unit3 U := let Z0 := fresh "Z" in let Z1 := fresh "Z" in let Z2 := fresh "Z" in pose proof (U 0%nat ltac:(lia)) as Z0; pose proof (U 1%nat ltac:(lia)) as Z1; pose proof (U 2%nat ltac:(lia)) as Z2.
Ltac unit2 U := let Z0 := fresh "Z" in let Z1 := fresh "Z" in pose proof (U 0%nat ltac:(lia)) as Z0; pose proof (U 1%nat ltac:(lia)) as Z1.
Lemma k_position_prior j p x s j' p' x' s' : given (LPositionPrior j p x s) (LPositionPrior j' p' x' s') -> scaled (build (LPositionPrior j p x s)) (build (LPositionPrior j' p' x' s')).
Proof.
  intros (e & E & U & (A & B & C) & S). injection E as <- <-. pose proof (unit_pos _ _ _ U ltac:(lia)) as He. cbn [build]. unfold pose_position_prior. cbv zeta.
  pose proof (wt e s s' He S) as W. weigh W w. destruct x as [x0 x1 x2], x' as [y0 y1 y2]. cbn in A, B, C. subst. start.
  - unfold pospri_ref in *. rd (pose_scaled u h h' p e H U) Y. destruct Y as (-> & _). destruct y as [p0 C0]. got X X'. dv p0. i3 i; entries; gx; rring.
  - unfold pospri_jac in *. eapply (blocks1 u k 3 h h' p); eauto. intros i c Hi. unit3 U. i3 i; cols c; entries; gx; units; rring.
Qed.
(** a block that stays empty while the variable is constant *)
Lemma opt_blocks n h h' a (o o' : outcome (mat RN)) r c r' c' js js' : heaps RV h h' ->
  withj (sized 1 []) (hget h a) (fun v => if l_const v then setj 0 (Ok mempty) (sized 1 [], Ok tt) else setj 0 o (setj 0 (Ok (mzero r c)) (sized 1 [], Ok tt))) = (js, Ok tt) ->
  withj (sized 1 []) (hget h' a) (fun v => if l_const v then setj 0 (Ok mempty) (sized 1 [], Ok tt) else setj 0 o' (setj 0 (Ok (mzero r' c')) (sized 1 [], Ok tt))) = (js', Ok tt) ->
  (forall M M', o = Ok M -> o' = Ok M' -> forall i c, (i < n)%nat -> mat_at M i c = (k * (mat_at M' i c * u a c))%R) ->
  same_blocks u k n h [Some a] js js'.
Proof.
  intros H X X' E. pose proof (hget_pair RV h h' a H) as Y. assert (Ew : forall v, hget h a = Ok v -> l_const v = true -> width (lib RN) h a = 0%nat).
  { intros v. unfold hget, width. destruct (nth_error h a) as [w|]; [|discriminate]. intros Q. apply Ok_inj in Q. subst w. cbn. intros ->. reflexivity. }
  destruct (hget h a) as [v| |], (hget h' a) as [v'| |]; cbn [alike withj] in *; try contradiction; try discriminate. destruct Y as (_ & C & _). rewrite <- C in X'. destruct (l_const v) eqn:Ec.
  - cbn in X, X'. inversion X. inversion X'. split; [|exact I]. intros i c0 _ Hc. rewrite (Ew v eq_refl Ec) in Hc. lia.
  - destruct o as [M| |], o' as [M'| |]; cbn in X, X'; try discriminate. inversion X. inversion X'. split; [|exact I]. intros i c0 Hi _. exact (E M M' eq_refl eq_refl i c0 Hi).
Qed.
Lemma k_orientation_prior j p x s j' p' x' s' : given (LOrientationPrior j p x s) (LOrientationPrior j' p' x' s') -> scaled (build (LOrientationPrior j p x s)) (build (LOrientationPrior j' p' x' s')).
Proof.
  intros (E & S). injection E as <- <- <-. cbn [build]. unfold pose_orientation_prior. cbv zeta. pose proof (wt1 s s' S) as W. weigh W w. start.
  - unfold oripri_ref in *. rd (pose_turned u h h' p H) Y. destruct Y as (E & _). rewrite E in X'. got X X'. generalize (log_so3 (oripri_err (snd y) (log_so3 x))). intros q. dv q. i3 i; entries; gx; rring.
  - unfold oripri_jac in *. eapply (opt_blocks 3 h h' p); eauto. intros M M' Q Q' i c Hi. rd (pose_turned u h h' p H) Y. destruct Y as (E & Z3 & Z4 & Z5). rewrite E in Q'.
    destruct (inv_right_jacobian _) as [B| |]; cbn in Q, Q'; try discriminate. apply Ok_inj in Q. apply Ok_inj in Q'. subst M M'. dm B. i3 i; cols c; entries; gx; units; rring.
Qed.
Lemma k_rotation_prior j p x s j' p' x' s' : given (LRotationPrior j p x s) (LRotationPrior j' p' x' s') -> scaled (build (LRotationPrior j p x s)) (build (LRotationPrior j' p' x' s')).
Proof.
  intros (E & S). injection E as <- <- <-. cbn [build]. unfold rotation_prior. cbv zeta. pose proof (wt1 s s' S) as W. weigh W w. start.
  - unfold rotpri_ref in *. rd (rot_same u h h' p H) Y. destruct Y as (-> & _). got X X'. generalize (log_so3 (m3mul y (m3t x))). intros q. dv q. i3 i; entries; gx; rring.
  - unfold rotpri_jac in *. eapply (opt_blocks 3 h h' p); eauto. intros M M' Q Q' i c Hi. rd (rot_same u h h' p H) Y. destruct Y as (E & Z3). rewrite E in Q'.
    destruct (inv_right_jacobian _) as [B| |]; cbn in Q, Q'; try discriminate. apply Ok_inj in Q. apply Ok_inj in Q'. subst M M'. dm B. i3 i; cols c; entries; gx; rewrite ?Z3; rring.
Qed.
Lemma k_position_between j a b m s l j' a' b' m' s' l' : given (LPositionBetween j a b m s l) (LPositionBetween j' a' b' m' s' l') -> scaled (build (LPositionBetween j a b m s l)) (build (LPositionBetween j' a' b' m' s' l')).
Proof.
  intros (e & E & U & V & T & S). injection E as <- <- <- <- <-. pose proof (unit_pos _ _ _ U ltac:(lia)) as He. cbn [build]. unfold pose_position_between. cbv zeta.
  pose proof (wt e s s' He S) as W. weigh W w. start.
  - unfold posbet_ref in *. rd (pose_scaled u h h' b e H V) Y. rd (pose_scaled u h h' a e H U) Y1. rd (value3_scaled u h h' m e H T) Y2. destruct Y as (-> & _), Y1 as (-> & _). destruct y as [p0 C0], y0 as [p1 C1].
    cbn [fst snd] in *. destruct l; got X X'; dv p0; dv p1; dm C1; dv y1; i3 i; entries; gx; rring.
  - unfold posbet_jac in *. unit3 U. unit3 V. unit3 T. destruct l.
    + rd (pose_scaled u h h' b e H V) Y. rd (pose_scaled u h h' a e H U) Y1. destruct Y as (-> & _), Y1 as (-> & ? & ? & ?). destruct y as [p0 C0], y0 as [p1 C1]. cbn [fst snd] in *.
      eapply (blocks3 u k 3 h h' a b m); eauto; intros i c Hi; dv p0; dv p1; dm C1; i3 i; cols c; entries; gx; units; rring.
    + eapply (blocks3 u k 3 h h' a b m); eauto; intros i c Hi; i3 i; cols c; entries; gx; units; rring.
Qed.
Lemma k_orientation_between j a b m s j' a' b' m' s' : given (LOrientationBetween j a b m s) (LOrientationBetween j' a' b' m' s') -> scaled (build (LOrientationBetween j a b m s)) (build (LOrientationBetween j' a' b' m' s')).
Proof.
  intros (E & S). injection E as <- <- <- <-. cbn [build]. unfold pose_orientation_between. cbv zeta. pose proof (wt1 s s' S) as W. weigh W w. start.
  - unfold oribet_ref in *. rd (pose_turned u h h' a H) Y. rd (pose_turned u h h' b H) Y1. rd (rot_same u h h' m H) Y2. destruct Y as (E & _), Y1 as (E1 & _), Y2 as (-> & _). rewrite E, E1 in X'. got X X'.
    generalize (log_so3 (oribet_err (snd y) (snd y0) y1)). intros q. dv q. i3 i; entries; gx; rring.
  - unfold oribet_jac in *. rd (pose_turned u h h' a H) Y. rd (pose_turned u h h' b H) Y1. rd (rot_same u h h' m H) Y2. destruct Y as (E & ? & ? & ?), Y1 as (E1 & ? & ? & ?), Y2 as (-> & Z). rewrite E, E1 in X'.
    destruct (inv_right_jacobian _) as [B| |]; cbn [obind withj] in X, X'; try discriminate.
    eapply (blocks3 u k 3 h h' a b m); eauto; intros i c Hi; generalize (m3t (oribet_err (snd y) (snd y0) y1)); intros G; dm B; dm G; dm y1; i3 i; cols c; entries; gx; units; rewrite ?Z; rring.
Qed.
(** ** bearings *)
Lemma inv_of e n : 0 < e -> / n = (e * / (e * n))%R.
Proof. intros He. rewrite Rinv_mult, <- Rmult_assoc, Rinv_r by lra. ring. Qed.
Lemma pos_scaled e (C : m3 RN) p q : m3v C (v3sub (v3scale (e : RN) p) (v3scale (e : RN) q)) = v3scale (e : RN) (m3v C (v3sub p q)).
Proof. rewrite (sc_sub e), (sc_m e). reflexivity. Qed.
Ltac passed X := match type of X with context [if ?c then Throw _ else Ok _] => destruct c; cbn [withj] in X; [discriminate X|] end.
Lemma k_bearing j p l o s j' p' l' o' s' : given (LBearing j p l o s) (LBearing j' p' l' o' s') -> scaled (build (LBearing j p l o s)) (build (LBearing j' p' l' o' s')).
Proof.
  intros (e & E & U & V & S). injection E as <- <- <- <-. pose proof (unit_pos _ _ _ U ltac:(lia)) as He. cbn [build]. unfold bearing_observation. cbv zeta. pose proof (wt1 s s' S) as W. weigh W w. start.
  - unfold bearing_ref in *. rd (landmark_scaled u h h' l e H V) Y. rd (pose_scaled u h h' p e H U) Y1. destruct Y1 as (-> & _). destruct y0 as [p0 C0]. cbn [fst snd] in *. got X X'.
    rewrite (pos_scaled e), (normalized_sc e He). generalize (v3normalized (m3v C0 (v3sub y p0))) (v3normalized o). intros q q'. dv q; dv q'. i3 i; entries; gx; rring.
  - unfold bearing_jac in *. rd (pose_scaled u h h' p e H U) Y. rd (landmark_scaled u h h' l e H V) Y1. destruct Y as (-> & ? & ? & ?). destruct y as [p0 C0]. cbn [fst snd] in *. subst y'0. passed X. passed X'. cbv zeta in X, X'.
    rewrite (pos_scaled e), (sc_norm e He), (sc_div e He) in X'. revert X X'. generalize (m3v C0 (v3sub y0 p0)). intros q. generalize (v3norm q). intros n. generalize (m3add (m3outer (v3neg (v3div q n)) (v3div q n)) m3id). intros M X X'.
    unit3 U. unit3 V. assert (D : (ndiv (n:=RN) (k * w)%R n) = (k * e * (w * / (e * n)))%R) by (cbn; unfold Rdiv; rewrite (inv_of e n He) at 1; ring). rewrite D in X. change (ndiv (n:=RN) w (e * n)%R) with (w * / (e * n))%R in X'.
    revert X X'. generalize (w * / (e * n))%R. intros d X X'. eapply (blocks2 u k 3 h h' p l); eauto; intros i c Hi; dm C0; dm M; dv q; i3 i; cols c; entries; gx; units; rring.
Qed.
Lemma k_inverse_range j p l o s j' p' l' o' s' : given (LInverseRange j p l o s) (LInverseRange j' p' l' o' s') -> scaled (build (LInverseRange j p l o s)) (build (LInverseRange j' p' l' o' s')).
Proof.
  intros (e & E & U & V & S). injection E as <- <- <- <-. pose proof (unit_pos _ _ _ U ltac:(lia)) as He. cbn [build]. unfold inverse_range_bearing. cbv zeta. pose proof (wt1 s s' S) as W. weigh W w. start.
  - unfold invbear_ref in *. rd (pose_scaled u h h' p e H U) Y. rd (inv_scaled u h h' l e H V He) Y1. destruct Y as (-> & _). destruct y as [p0 C0]. subst y'0. destruct y0 as [[b rho] dir]. cbn [fst snd] in *. got X X'.
    rewrite (pos_scaled e), (normalized_sc e He). generalize (v3normalized (m3v C0 (v3sub b p0))) (v3normalized o). intros q q'. dv q; dv q'. i3 i; entries; gx; rring.
  - unfold invbear_jac in *. rd (pose_scaled u h h' p e H U) Y. rd (inv_scaled u h h' l e H V He) Y1. destruct Y as (-> & ? & ? & ?). destruct y as [p0 C0]. subst y'0. destruct y0 as [[b rho] dir]. cbn [fst snd] in *. passed X. passed X'. cbv zeta in X, X'.
    rewrite (pos_scaled e), (sc_norm e He), (sc_div e He) in X'. revert X X'. generalize (m3v C0 (v3sub b p0)). intros q. generalize (v3norm q). intros n. generalize (m3sub m3id (m3outer (v3div q n) (v3div q n))). intros M X X'.
    unit3 U. assert (A : forall (c : bool) (m : outcome (mat RN)) G J, setj 1 (if c then Throw EDegenerate else m) G = (J, Ok tt) -> setj 1 m G = (J, Ok tt)).
    { intros [] m [G1 [[]| |]] J Q; auto; cbn in Q; discriminate. }
    apply A in X. apply A in X'. eapply (blocks2 u k 3 h h' p l); eauto; intros i c Hi; clear X X' A; dm C0; dm M; dv q; dv dir; i3 i; cols c; entries; gx; units; unfold Rdiv; rewrite ?Rinv_mult, ?Rinv_inv;
      generalize (/ n) (/ rho); intros; match goal with |- ?a = ?b => change (@eq R a b) end; field; lra.
Qed.
Lemma k_projection j p l o s t j' p' l' o' s' t' : given (LProjection j p l o s t) (LProjection j' p' l' o' s' t') -> scaled (build (LProjection j p l o s t)) (build (LProjection j' p' l' o' s' t')).
Proof.
  intros (e & E & U & V & S). injection E as <- <- <- <- <-. pose proof (unit_pos _ _ _ U ltac:(lia)) as He. cbn [build]. unfold bearing_projection. cbv zeta. pose proof (wt1 s s' S) as W. weigh W w. start.
  - unfold proj_ref in *. rd (landmark_scaled u h h' l e H V) Y. rd (pose_scaled u h h' p e H U) Y1. destruct Y1 as (-> & _). destruct y0 as [p0 C0]. subst y'. cbn [fst snd] in *. cbv zeta in X, X'.
    rewrite (pos_scaled e), (normalized_sc e He) in X'. revert X X'. generalize (v3normalized (m3v C0 (v3sub y p0))). intros q. destruct (nleb _ _); intros X X'; got X X'; [|generalize (tt_v (tangent_basis (v3normalized o)) q); intros v; destruct v];
      destruct i as [|[|i]]; try lia; unfold v2scale; entries; gx; rring.
  - unfold proj_jac in *. rd (landmark_scaled u h h' l e H V) Y. rd (pose_scaled u h h' p e H U) Y1. destruct Y1 as (-> & ? & ? & ?). destruct y0 as [p0 C0]. subst y'. cbn [fst snd] in *. cbv zeta in X, X'.
    rewrite (pos_scaled e), (sc_norm e He), (sc_div e He) in X'. revert X X'. generalize (m3v C0 (v3sub y p0)). intros q. generalize (v3norm q). intros n. generalize (m3sub m3id (m3outer (v3div q n) (v3div q n))). intros M.
    unit3 U. unit3 V. destruct (nleb _ _); intros X X'.
    + eapply (blocks2 u k 2 h h' p l); eauto; intros i c Hi; cbn; rewrite q0; rring.
    + destruct (tangent_basis (v3normalized o)) as [t1 t2]. cbn [fst snd] in *. eapply (blocks2 u k 2 h h' p l); eauto; intros i c Hi; clear X X'; destruct t1, t2; dm C0; dm M; dv q; destruct i as [|[|i]]; try lia; cols c; unfold row_m; entries; gx; units; unfold Rdiv; rewrite ?Rinv_mult;
      generalize (/ n); intros; match goal with |- ?a = ?b => change (@eq R a b) end; field; lra.
Qed.
(** ** in the plane *)
Ltac rfield := match goal with |- ?a = ?b => change (@eq R a b) end; field; lra.
Ltac flat := unfold v2scale, v2sub, m2v, m2t, dcm2; cbn [fst snd v2x v2y Geom.a00 Geom.a01 Geom.a10 Geom.a11].
Lemma local_scaled h h' p l e : heaps RV h h' -> unit_is u p 2 e -> unit_is u l 2 e ->
  alike (fun d d' => d' = (v2scale (e : RN) (fst d), snd d) /\ u p 2%nat = 1) (local2 h p l) (local2 h' p l).
Proof.
  intros H U V. unfold local2. pose proof (pose2_scaled u h h' p e H U) as Y. destruct (pose2_at h p) as [y| |], (pose2_at h' p) as [y'| |]; cbn [alike obind] in *; try contradiction; auto.
  pose proof (value2_scaled u h h' l e H V) as Z. destruct (value2_at h l) as [z| |], (value2_at h' l) as [z'| |]; cbn [alike obind] in *; try contradiction; auto. destruct Y as (-> & Y). subst z'. split; [|exact Y].
  destruct y as [[a b] t], z as [c d]. cbn [fst snd]. f_equal. flat. gx. f_equal; rring.
Qed.
Lemma square_scaled e (a b : R) : (e * a * (e * a) + e * b * (e * b))%R = (e * e * (a * a + b * b))%R.
Proof. ring. Qed.
Lemma k_bearing2 j p l o s j' p' l' o' s' : given (LBearing2 j p l o s) (LBearing2 j' p' l' o' s') -> scaled (build (LBearing2 j p l o s)) (build (LBearing2 j' p' l' o' s')).
Proof.
  intros (e & E & U & V & S). injection E as <- <- <- <-. pose proof (unit_pos _ _ _ U ltac:(lia)) as He. cbn [build]. unfold bearing_observation_2d. cbv zeta. pose proof (wt1 s s' S) as W. weigh W w. start.
  - unfold bear2_ref in *. rd (local_scaled h h' p l e H U V) Y. destruct Y as (-> & _). destruct y as [[a b] t]. unfold v2scale in X'. cbn [fst snd v2x v2y] in *. change (natan2 (n:=RN)) with Ratan2 in X, X'. change (nmul (n:=RN)) with Rmult in X'. rewrite (atan2_sc e He) in X'. got X X'.
    generalize (wrap_angle (N:=RN) (Ratan2 b a - o)%num). intros q. destruct i; [|lia]. cbn [nth]. gx. rring.
  - unfold bear2_jac in *. rd (local_scaled h h' p l e H U V) Y. destruct Y as (-> & Z2). destruct y as [[a b] t]. unfold v2scale in X'. cbn [fst snd v2x v2y] in *. passed X. passed X'. cbv zeta in X, X'. unit2 U. unit2 V.
    eapply (blocks2 u k 1 h h' p l); eauto; intros i c Hi; clear X X'; destruct i; try lia; cols c; entries; gx; units; change (natan2 (n:=RN)) with Ratan2; rewrite ?(square_scaled e a b); unfold Rdiv; rewrite ?Rinv_mult; generalize (/ (a * a + b * b))%R; intros; rfield.
Qed.
Lemma k_range2 j p l r o s t j' p' l' r' o' s' t' : given (LRangeBearing2 j p l r o s t) (LRangeBearing2 j' p' l' r' o' s' t') -> scaled (build (LRangeBearing2 j p l r o s t)) (build (LRangeBearing2 j' p' l' r' o' s' t')).
Proof.
  intros (e & E & U & V & Q & S & T). injection E as <- <- <- <-. pose proof (unit_pos _ _ _ U ltac:(lia)) as He. cbn [build]. unfold range_bearing_2d. cbv zeta. pose proof (wt e s s' He S) as W. weigh W w. pose proof (wt1 t t' T) as W. weigh W v. subst r'. start.
  - unfold range2_ref in *. rd (local_scaled h h' p l e H U V) Y. destruct Y as (-> & _). destruct y as [[a b] th]. unfold v2scale in X'. cbn [fst snd v2x v2y] in *. cbv zeta in X, X'. change (natan2 (n:=RN)) with Ratan2 in X, X'. change (nmul (n:=RN)) with Rmult in X, X'. change (nadd (n:=RN)) with Rplus in X, X'. change (nsqrt (n:=RN)) with sqrt in X, X'.
    rewrite (atan2_sc e He), (square_scaled e a b), (sqrt_sc e He) in X'. got X X'. generalize (wrap_angle (N:=RN) (Ratan2 b a - o)%num) (sqrt (a * a + b * b)). intros q q'. destruct i as [|[|i]]; [| |lia]; cbn [nth]; gx; rring.
  - unfold range2_jac in *. rd (local_scaled h h' p l e H U V) Y. destruct Y as (-> & Z2). destruct y as [[a b] th]. unfold v2scale in X'. cbn [fst snd v2x v2y] in *. passed X. passed X'. cbv zeta in X, X'. unit2 U. unit2 V.
    eapply (blocks2 u k 2 h h' p l); eauto; intros i c Hi; clear X X'; destruct i as [|[|i]]; try lia; cols c; entries; gx; units; change (natan2 (n:=RN)) with Ratan2; rewrite ?(square_scaled e a b), ?(sqrt_sc e He); unfold Rdiv; rewrite ?Rinv_mult; generalize (/ (a * a + b * b))%R (/ sqrt (a * a + b * b))%R; intros; rfield.
Qed.
Lemma k_pose2_prior j p x s t j' p' x' s' t' : given (LPose2Prior j p x s t) (LPose2Prior j' p' x' s' t') -> scaled (build (LPose2Prior j p x s t)) (build (LPose2Prior j' p' x' s' t')).
Proof.
  intros (e & E & U & Z2 & A & B & C & S & T). injection E as <- <-. pose proof (unit_pos _ _ _ U ltac:(lia)) as He. cbn [build]. unfold pose2_prior. cbv zeta. pose proof (wt e s s' He S) as W. weigh W w. pose proof (wt1 t t' T) as W. weigh W v.
  destruct x as [x0 x1 x2], x' as [z0 z1 z2]. cbn [vx vy vz] in A, B, C. subst. start.
  - unfold pri2_ref in *. rd (pose2_scaled u h h' p e H U) Y. destruct Y as (-> & _). destruct y as [[a b] th]. unfold v2scale in X'. cbn [fst snd v2x v2y vx vy vz] in *. got X X'. generalize (wrap_angle (N:=RN) (th - x2)%num). intros q. i3 i; entries; flat; gx; rring.
  - unfold pri2_jac in *. unit2 U. eapply (blocks1 u k 3 h h' p); eauto. intros i c Hi. i3 i; cols c; entries; gx; units; rring.
Qed.
Lemma third t (x x' : list R) : times_vec t x x' -> t 2%nat = 1 -> nth_error x' 2 = nth_error x 2.
Proof.
  intros H T. destruct x as [|a x]; [apply times_nil in H; subst; reflexivity|]. apply times_cons in H. destruct H as (z & -> & H).
  destruct x as [|b x]; [apply times_nil in H; subst; reflexivity|]. apply times_cons in H. destruct H as (z1 & -> & H).
  destruct x as [|c x]; [apply times_nil in H; subst; reflexivity|]. apply times_cons in H. destruct H as (z2 & -> & H). cbn. rewrite T, Rmult_1_l. reflexivity.
Qed.
Lemma k_pose2_between j a b m s t l j' a' b' m' s' t' l' : given (LPose2Between j a b m s t l) (LPose2Between j' a' b' m' s' t' l') -> scaled (build (LPose2Between j a b m s t l)) (build (LPose2Between j' a' b' m' s' t' l')).
Proof.
  intros (e & E & U & V & D & Za & Zb & Zm & S & T). injection E as <- <- <- <- <-. pose proof (unit_pos _ _ _ U ltac:(lia)) as He. cbn [build]. unfold pose2_between. cbv zeta. pose proof (wt e s s' He S) as W. weigh W w. pose proof (wt1 t t' T) as W. weigh W v. start.
  - unfold bet2_ref in *. rd (pose2_scaled u h h' b e H V) Y. rd (pose2_scaled u h h' a e H U) Y1. rd (value2_scaled u h h' m e H D) Y2. rd (value_times u h h' m H) Y3.
    destruct Y as (-> & _), Y1 as (-> & _). subst y'1. assert (N3 : nth_error y'2 2 = nth_error y2 2) by exact (third _ _ _ Y3 Zm). rewrite N3 in X'. destruct (nth_error y2 2) as [ma|]; [|discriminate X].
    destruct y as [[b0 b1] tb], y0 as [[c0 c1] ta], y1 as [m0 m1]. unfold v2scale in X'. cbn [fst snd v2x v2y] in *. got X X'. generalize (wrap_angle (N:=RN) (tb - ta - ma)%num). intros q. destruct l; i3 i; entries; flat; gx; rring.
  - unfold bet2_jac in *. unit2 U. unit2 V. unit2 D. destruct l.
    + rd (pose2_scaled u h h' b e H V) Y. rd (pose2_scaled u h h' a e H U) Y1. destruct Y as (-> & _), Y1 as (-> & _). destruct y as [[b0 b1] tb], y0 as [[c0 c1] ta]. cbn [fst snd] in *. cbv zeta in X, X'.
      eapply (blocks3 u k 3 h h' a b m); eauto; intros i c Hi; clear X X'; i3 i; cols c; flat; entries; gx; units; rring.
    + eapply (blocks3 u k 3 h h' a b m); eauto; intros i c Hi; clear X X'; i3 i; cols c; entries; gx; units; rring.
Qed.
(** ** planes *)
Lemma one_v3 (p : v3 RN) : v3scale (1 : RN) p = p.
Proof. dv p. unfold v3scale. cbn [vx vy vz]. f_equal; apply Rmult_1_l. Qed.
Lemma k_plane j q m s l j' q' m' s' l' : given (LPlane j q m s l) (LPlane j' q' m' s' l') -> scaled (build (LPlane j q m s l)) (build (LPlane j' q' m' s' l')).
Proof.
  intros (e & E & U & Z3 & S & L). injection E as <- <- <- <-. pose proof (unit_pos _ _ _ U ltac:(lia)) as He. cbn [build]. unfold plane_factor. cbv zeta. pose proof (wt e s s' He S) as W. weigh W w. start.
  - unfold plane_ref in *. rd (value3_scaled u h h' q e H U) Y. rd (plane_scaled u h h' m H) Y1. destruct Y1 as (-> & _). rewrite Z3 in X'. destruct y0 as [n d]. cbn [fst snd] in *. destruct i; [|lia]. destruct l as [[r0 p0]|].
    + specialize (L ltac:(discriminate)). subst y'. rewrite L in X, X'. rewrite one_v3, (Rmult_1_l d) in X'. got X X'. cbn [nth]. generalize (v3dot n y) (v3norm (v3sub y p0)). intros a b. gx. rring.
    + got X X'. cbn [nth]. unfold plane_distance. dv n. dv y. gx. rring.
  - unfold plane_jac in *. rd (value3_scaled u h h' q e H U) Y. rd (plane_scaled u h h' m H) Y1. destruct Y1 as (-> & N3). rewrite Z3 in X'. destruct y0 as [n d]. cbn [fst snd] in *. unit3 U. unit3 N3. destruct l as [[r0 p0]|].
    + specialize (L ltac:(discriminate)). subst y'. rewrite L in X, X'. rewrite one_v3, (Rmult_1_l d) in X'. cbv zeta in X, X'. rewrite L in Z, Z0, Z1, Z3. clear L. destruct (nltb _ _); eapply (blocks2 u k 1 h h' q m); eauto; intros i c Hi; clear X X'; destruct i; try lia;
        generalize (v3norm (v3sub y p0)); intros nn; dv n; dv y; dv p0; cols c; entries; gx; units; unfold Rdiv; rring.
    + subst y'. eapply (blocks2 u k 1 h h' q m); eauto; intros i c Hi; clear X X'; destruct i; try lia; dv n; dv y; cols c; entries; gx; units; rring.
Qed.
Lemma k_plane_prior j m x d s t j' m' x' d' s' t' : given (LPlanePrior j m x d s t) (LPlanePrior j' m' x' d' s' t') -> scaled (build (LPlanePrior j m x d s t)) (build (LPlanePrior j' m' x' d' s' t')).
Proof.
  intros (E & D & S & T). injection E as <- <- <-. cbn [build]. unfold plane_prior. cbv zeta. pose proof (wt1 s s' S) as W. weigh W w. pose proof (wt _ t t' (Hu m 3) T) as W. weigh W v. subst d'. start.
  - unfold planepri_ref in *. rd (plane_scaled u h h' m H) Y. destruct Y as (-> & _). destruct y as [n e]. cbn [fst snd] in *. got X X'. generalize (v3normalized x). intros q. dv n. dv q. destruct i as [|[|[|[|i]]]]; [| | | |lia]; entries; gx; rring.
  - unfold planepri_jac in *. eapply (opt_blocks 4 h h' m); eauto. intros M M' Q Q' i c Hi. clear X X'. rd (plane_scaled u h h' m H) Y. destruct Y as (-> & N3). unit3 N3. destruct y as [n e]. cbn [fst snd] in *. cbv zeta in Q, Q'. apply Ok_inj in Q. apply Ok_inj in Q'. subst M M'.
    generalize (v3normalized x). intros q. dv n. dv q. destruct i as [|[|[|[|i]]]]; [| | | |lia]; cols c; entries; gx; units; rring.
Qed.
(** ** transforms *)
Lemma set5 (o0 o1 o2 o3 o4 : outcome (mat RN)) js : setj 4 o4 (setj 3 o3 (setj 2 o2 (setj 1 o1 (setj 0 o0 (ctrans_sized [], Ok tt))))) = (js, Ok tt) ->
  exists B0 B1 B2 B3 B4, o0 = Ok B0 /\ o1 = Ok B1 /\ o2 = Ok B2 /\ o3 = Ok B3 /\ o4 = Ok B4 /\ js = [B0; B1; B2; B3; B4].
Proof. destruct o0; cbn; [destruct o1; cbn; [destruct o2; cbn; [destruct o3; cbn; [destruct o4; cbn|..]|..]|..]|..]; intros E; inversion E. do 5 eexists. repeat split. Qed.
Lemma first_scaled h h' a : heaps RV h h' ->
  alike (fun x x' => x' = (u a 0%nat * x)%R) (let* sv := generic_at h a in match sv with x :: _ => Ok x | [] => UB UBIndex end) (let* sv := generic_at h' a in match sv with x :: _ => Ok x | [] => UB UBIndex end).
Proof.
  intros H. pose proof (generic_times u h h' a H) as Y. destruct (generic_at h a) as [y| |], (generic_at h' a) as [y'| |]; cbn [alike obind] in *; try contradiction; auto.
  destruct y as [|y0 y]; [apply times_nil in Y; subst; reflexivity|]. apply times_cons in Y. destruct Y as (z & -> & Y). cbn [alike]. reflexivity.
Qed.
Lemma origin_scaled h h' a e : heaps RV h h' -> unit_is u a 3 e -> alike (fun p p' => p' = v3scale (e : RN) p) (let* ov := generic_at h a in to_v3 ov) (let* ov := generic_at h' a in to_v3 ov).
Proof.
  intros H U. pose proof (generic_times u h h' a H) as Y. destruct (generic_at h a) as [y| |], (generic_at h' a) as [y'| |]; cbn [alike obind] in *; try contradiction; auto. exact (to_v3_times _ e _ _ Y U).
Qed.
Lemma obind_assoc {A B C} (o : outcome A) (f : A -> outcome B) (g : B -> outcome C) : (let* x := o in let* y := f x in g y) = (let* y := (let* x := o in f x) in g y).
Proof. destruct o; reflexivity. Qed.
Lemma k_transform j r o s la lb t j' r' o' s' la' lb' t' : given (LTransform j r o s la lb t) (LTransform j' r' o' s' la' lb' t') -> scaled (build (LTransform j r o s la lb t)) (build (LTransform j' r' o' s' la' lb' t')).
Proof.
  intros (e & f & E & U & V & D & G & S). injection E as <- <- <- <- <- <-. pose proof (unit_pos _ _ _ U ltac:(lia)) as He. cbn [build]. unfold coordinate_transform. cbv zeta. pose proof (wt e t t' He S) as W. weigh W w. clear S He. start.
  - unfold ctrans_ref in *. rd (rot_same u h h' r H) Y. destruct Y as (-> & _). rewrite (obind_assoc (generic_at h s)) in X. rewrite (obind_assoc (generic_at h' s)) in X'. rd (first_scaled h h' s H) Y1. rd (landmark_scaled u h h' lb f H D) Y2.
    rewrite (obind_assoc (generic_at h o)) in X. rewrite (obind_assoc (generic_at h' o)) in X'. rd (origin_scaled h h' o e H V) Y3. rd (landmark_scaled u h h' la e H U) Y4. rewrite <- G in *. clear G. got X X'. generalize (u s 0%nat). intros us.
    dm y. dv y1. dv y2. dv y3. i3 i; entries; gx; rring.
  - unfold ctrans_jac in *. rd (rot_same u h h' r H) Y. destruct Y as (-> & Zr). rewrite (obind_assoc (generic_at h s)) in X. rewrite (obind_assoc (generic_at h' s)) in X'. rd (first_scaled h h' s H) Y1. rd (landmark_scaled u h h' lb f H D) Y2.
    rewrite <- G in *. clear G. subst. unit3 U. unit3 V. unit3 D. apply set5 in X. apply set5 in X'. destruct X as (B0 & B1 & B2 & B3 & B4 & X0 & X1 & X2 & X3 & X4 & ->). destruct X' as (C0 & C1 & C2 & C3 & C4 & X0' & X1' & X2' & X3' & X4' & ->).
    split; [|split; [|split; [|split; [|split; [|exact I]]]]]; eapply (blk_same u k 3 h h'); try exact H; try eassumption; intros i c Hi _; clear X0 X1 X2 X3 X4 X0' X1' X2' X3' X4'; dm y; dv y1; i3 i; cols c; entries; gx; units; rewrite ?Zr; rring.
Qed.
Ltac zz := change (nzero (N:=RN)) with (Q2R 0); rewrite ?q0.
(** ** linear factors *)
Lemma nth_minus (x y z : list R) i : vec_minus (N:=RN) x y = Ok z -> nth i z 0 = nth i x 0 - nth i y 0.
Proof.
  unfold vec_minus. change (car RN) with R. destruct (Nat.eqb_spec (length x) (length y)) as [L|]; [|discriminate]. intros E. apply Ok_inj in E. subst z.
  destruct (Nat.lt_ge_cases i (length x)) as [Hi|Hi]; [apply nth_vsub; auto|]. rewrite !nth_overflow; try lia; [lra|]. rewrite vsub_length. lia.
Qed.
Lemma nth_mapdt (dt : R) (x : list R) i : nth i (map (fun y => nmul (n:=RN) y dt) x) 0 = nth i x 0 * dt.
Proof. rewrite <- (Rmult_0_l dt) at 1. exact (map_nth (fun y => y * dt)%R x 0 i). Qed.
Lemma k_generic_prior j a x s j' a' x' s' : given (LGenericPrior j a x s) (LGenericPrior j' a' x' s') -> scaled (build (LGenericPrior j a x s)) (build (LGenericPrior j' a' x' s')).
Proof.
  intros (e & <- & <- & U & T & S). assert (W : (0 < length x)%nat -> (nunit / s)%num = (k * (e * (nunit / s')%num))%R) by (intros Hl; apply wt; [exact (unit_pos _ _ _ U Hl)|exact S]).
  cbn [build]. unfold generic_prior. cbv zeta. split; [exact (proj1 T)|]. split; [reflexivity|]. intros h h' H. cbn [f_res_ref f_jac f_rsize f_vars]. split.
  - intros zr zr' i X X' Hi. rewrite W in X by (cbn in Hi |- *; lia). unfold gprior_ref in *. pose proof (value_times u h h' a H) as Y. unfold value_at in Y. destruct (hget h a) as [v| |], (hget h' a) as [v'| |]; cbn [alike obind] in *; try contradiction; try discriminate. cbn [vval lib] in *.
    destruct (vec_minus (kval (l_kind v)) x) as [d| |] eqn:Ed; cbn [obind] in X; try discriminate. destruct (vec_minus (kval (l_kind v')) x') as [d'| |] eqn:Ed'; cbn [obind] in X'; try discriminate. got X X'.
    rewrite !nth_vscale. rewrite (nth_minus _ _ _ i Ed), (nth_minus _ _ _ i Ed'). rewrite (times_nth _ _ _ i Y), (times_nth _ _ _ i T), (U i Hi). rring.
  - intros js js' X X'. unfold gprior_jac in *. pose proof (hget_pair RV h h' a H) as Y. assert (Ew : forall v, hget h a = Ok v -> l_const v = true -> width (lib RN) h a = 0%nat).
    { intros v. unfold hget, width. destruct (nth_error h a) as [w|]; [|discriminate]. intros Q. apply Ok_inj in Q. subst w. cbn. intros ->. reflexivity. }
    destruct (hget h a) as [v| |], (hget h' a) as [v'| |]; cbn [alike obind all_blocks] in *; try contradiction; try discriminate. destruct Y as (_ & C & _). cbn [vconst lib] in *. rewrite <- C in X'. destruct (l_const v) eqn:Ec.
    + inversion X. inversion X'. split; [|exact I]. intros i c _ Hc. rewrite (Ew v eq_refl Ec) in Hc. lia.
    + apply (f_equal fst) in X. apply (f_equal fst) in X'. cbn [fst] in X, X'. subst js js'. split; [|exact I]. intros i c Hi _. rewrite W by (cbn in Hi |- *; lia). cbn [diagm mat_at]. destruct (Nat.eqb_spec i c) as [<-|]; [rewrite (U i Hi); rring|]. zz. rring.
Qed.
Lemma all3 (o0 o1 o2 : outcome (mat RN)) js : all_blocks (let* a := o0 in let* b := o1 in let* c := o2 in Ok [a; b; c]) = (js, Ok tt) -> exists B0 B1 B2, o0 = Ok B0 /\ o1 = Ok B1 /\ o2 = Ok B2 /\ js = [B0; B1; B2].
Proof. destruct o0; cbn; [destruct o1; cbn; [destruct o2; cbn|..]|..]; intros E; inversion E. eauto 8. Qed.
Lemma k_generic_between j a b d n s j' a' b' d' n' s' : given (LGenericBetween j a b d n s) (LGenericBetween j' a' b' d' n' s') -> scaled (build (LGenericBetween j a b d n s)) (build (LGenericBetween j' a' b' d' n' s')).
Proof.
  intros (e & E & U & V & D & S). injection E as <- <- <- <- <-. assert (W : (0 < n)%nat -> (nunit / s)%num = (k * (e * (nunit / s')%num))%R) by (intros Hl; apply wt; [exact (unit_pos _ _ _ U Hl)|exact S]).
  cbn [build]. unfold generic_between. cbv zeta. start.
  - rewrite W in X by (cbn in Hi |- *; lia). unfold gbetween_ref in *. pose proof (value_times u h h' a H) as Ya. pose proof (value_times u h h' b H) as Yb. pose proof (value_times u h h' d H) as Yd. unfold value_at in Ya, Yb, Yd.
    destruct (hget h a) as [va| |], (hget h' a) as [va'| |]; cbn [alike obind] in *; try contradiction; try discriminate. destruct (hget h b) as [vb| |], (hget h' b) as [vb'| |]; cbn [alike obind] in *; try contradiction; try discriminate.
    destruct (hget h d) as [vd| |], (hget h' d) as [vd'| |]; cbn [alike obind] in *; try contradiction; try discriminate. cbn [vval lib] in *.
    destruct (vec_minus (kval (l_kind vb)) (kval (l_kind va))) as [q| |] eqn:Eq; cbn [obind] in X; try discriminate. destruct (vec_minus (kval (l_kind vb')) (kval (l_kind va'))) as [q'| |] eqn:Eq'; cbn [obind] in X'; try discriminate.
    destruct (vec_minus q _) as [z| |] eqn:Ez; cbn [obind] in X; try discriminate. destruct (vec_minus q' _) as [z'| |] eqn:Ez'; cbn [obind] in X'; try discriminate. got X X'.
    rewrite !nth_vscale. rewrite (nth_minus _ _ _ i Ez), (nth_minus _ _ _ i Ez'), (nth_minus _ _ _ i Eq), (nth_minus _ _ _ i Eq'). rewrite (times_nth _ _ _ i Ya), (times_nth _ _ _ i Yb), (times_nth _ _ _ i Yd), (U i Hi), (V i Hi), (D i Hi). rring.
  - unfold gbetween_jac in *. apply all3 in X. apply all3 in X'. destruct X as (B0 & B1 & B2 & X0 & X1 & X2 & ->), X' as (C0 & C1 & C2 & X0' & X1' & X2' & ->).
    assert (F : forall (w w' : R) v i c, unit_is u v n e -> (i < n)%nat -> w = (k * (e * w'))%R -> mat_at (diagm (N:=RN) n w) i c = (k * (mat_at (diagm (N:=RN) n w') i c * u v c))%R).
    { intros w w' v i c Uv Hi Hw. cbn [diagm mat_at]. destruct (Nat.eqb_spec i c) as [<-|]; [rewrite (Uv i Hi), Hw; rring|]. zz. rring. }
    split; [|split; [|split; [|exact I]]]; [eapply (blk_same u k n h h' a)|eapply (blk_same u k n h h' b)|eapply (blk_same u k n h h' d)]; try exact H; try eassumption; intros i c Hi _; apply F; auto; rewrite W by lia; cbn; ring.
Qed.
Lemma nth_segment (x y : list R) off n i : segment (N:=RN) off n x = Ok y -> (i < n)%nat -> nth i y 0 = nth (off + i) x 0.
Proof.
  unfold segment. destruct (_ <=? _)%nat; [|discriminate]. intros E Hi. apply Ok_inj in E. subst y. clear -Hi. revert x. induction off as [|off IH]; intros x.
  - cbn [skipn Nat.add]. revert x i Hi. induction n as [|n IH]; intros x i Hi; [lia|]. destruct x as [|w x]; [destruct i; reflexivity|]. destruct i as [|i]; [reflexivity|]. cbn. apply IH. lia.
  - destruct x as [|w x]; [cbn [skipn]; rewrite firstn_nil; destruct i; reflexivity|]. exact (IH x).
Qed.
Lemma segment_length (x y : list R) off n : segment (N:=RN) off n x = Ok y -> length y = n.
Proof. unfold segment. destruct (Nat.leb_spec (off + n) (@length (car RN) x)) as [L|]; [|discriminate]. intros E. apply Ok_inj in E. subst y. rewrite firstn_length, skipn_length. change (car RN) with R in *. lia. Qed.
Lemma k_linear_velocity j a b c n dt s i0 j' a' b' c' n' dt' s' i0' : given (LLinearVelocity j a b c n dt s i0) (LLinearVelocity j' a' b' c' n' dt' s' i0') ->
  scaled (build (LLinearVelocity j a b c n dt s i0)) (build (LLinearVelocity j' a' b' c' n' dt' s' i0')).
Proof.
  intros (e & E & U & S). injection E as <- <- <- <- <- <-. assert (W : (0 < n)%nat -> (nunit / s)%num = (k * (e * (nunit / s')%num))%R) by (intros Hl; apply wt; [rewrite <- (proj1 (U 0%nat Hl)); apply Hu|exact S]). clear S.
  cbn [build]. unfold linear_velocity. cbv zeta. start.
  - rewrite W in X by (cbn in Hi |- *; lia). unfold linvel_ref in *. rd (value_times u h h' b H) Yb. destruct (segment i0 n y) as [sb| |] eqn:Eb; cbn [obind] in X; try discriminate. destruct (segment i0 n y') as [sb'| |] eqn:Eb'; cbn [obind] in X'; try discriminate.
    rd (value_times u h h' a H) Ya. destruct (segment i0 n y0) as [sa| |] eqn:Ea; cbn [obind] in X; try discriminate. destruct (segment i0 n y'0) as [sa'| |] eqn:Ea'; cbn [obind] in X'; try discriminate. rd (value_times u h h' c H) Yc.
    destruct (vec_minus (vsub sb sa) _) as [z| |] eqn:Ez; cbn [obind] in X; try discriminate. destruct (vec_minus (vsub sb' sa') _) as [z'| |] eqn:Ez'; cbn [obind] in X'; try discriminate. got X X'.
    rewrite !nth_vscale, (nth_minus _ _ _ i Ez), (nth_minus _ _ _ i Ez'), !nth_mapdt.
    rewrite !nth_vsub by (rewrite ?(segment_length _ _ _ _ Eb), ?(segment_length _ _ _ _ Ea), ?(segment_length _ _ _ _ Eb'), ?(segment_length _ _ _ _ Ea'); auto).
    rewrite (nth_segment _ _ _ _ i Eb Hi), (nth_segment _ _ _ _ i Eb' Hi), (nth_segment _ _ _ _ i Ea Hi), (nth_segment _ _ _ _ i Ea' Hi).
    rewrite (times_nth _ _ _ _ Ya), (times_nth _ _ _ _ Yb), (times_nth _ _ _ _ Yc). destruct (U i Hi) as (-> & -> & Uc). generalize (nunit / s')%num. intros w. change (car RN) with R in *. generalize (nth i y1 0) (nth (i0 + i) y 0) (nth (i0 + i) y0 0). intros c0 c1 c2.
    transitivity (k * (w * (e * c1 - e * c2 - c0 * (e * dt))))%R; [rring|]. rewrite <- Uc. rring.
  - unfold linvel_jac in *. pose proof (hget_pair RV h h' c H) as Yc. destruct (hget h c) as [vc| |] eqn:Ec, (hget h' c) as [vc'| |] eqn:Ec'; cbn [alike obind withj] in *; try contradiction; try discriminate. pose proof (ksize_times u c vc vc' Yc) as K. change (car RN) with R in *. rewrite K in X'. clear K Yc.
    apply set3 in X. apply set3 in X'. destruct X as (B0 & B1 & B2 & X0 & X1 & X2 & ->), X' as (C0 & C1 & C2 & X0' & X1' & X2' & ->). remember (ksize (l_kind vc)) as dim eqn:Ed.
    assert (F : forall (w w' : R) v B B', w = (k * (e * w'))%R \/ n = 0%nat -> (forall q, (q < n)%nat -> u v (i0 + q)%nat = e) ->
       (let* x := hget h v in if l_const x then Ok mempty else diag_block n (ksize (l_kind x)) i0 dim (w : RN)) = Ok B ->
       (let* x := hget h' v in if l_const x then Ok mempty else diag_block n (ksize (l_kind x)) i0 dim (w' : RN)) = Ok B' -> same_entries u k n h v B B').
    { intros w w' v B B' Hw Hv Q Q' i q Hi Hq. pose proof (hget_pair RV h h' v H) as Y. unfold width in Hq. unfold hget in *. destruct (nth_error h v) as [x|], (nth_error h' v) as [x'|]; cbn [alike obind] in *; try contradiction; try discriminate.
      pose proof (proj1 (proj2 Y)) as Ek. cbn in Hq. rewrite <- Ek in Q'. destruct (l_const x); [cbn in Hq; lia|]. unfold diag_block in *.
      destruct ((dim <=? n) && (i0 + dim <=? ksize (l_kind x)))%bool; [|discriminate]. destruct ((dim <=? n) && (i0 + dim <=? ksize (l_kind x')))%bool; [|discriminate]. apply Ok_inj in Q. apply Ok_inj in Q'. subst B B'. cbn [mat_at].
      destruct (Nat.eqb_spec q (i0 + i)) as [->|]; cbn [andb]; [|zz; rring]. destruct (i <? dim)%nat; [|zz; rring]. rewrite (Hv i Hi). destruct Hw as [->|]; [rring|lia]. }
    assert (Wn : n = 0%nat \/ (nunit / s)%num = (k * (e * (nunit / s')%num))%R) by (destruct n; [left; reflexivity|right; apply W; lia]).
    split; [|split; [|split; [|exact I]]].
    + refine (F _ _ a B0 C0 _ (fun q Hq => proj1 (U q Hq)) X0 X0'). destruct Wn as [Z|Z]; [right; exact Z|left; rewrite Z; cbn; ring].
    + refine (F _ _ b B1 C1 _ (fun q Hq => proj1 (proj2 (U q Hq))) X1 X1'). destruct Wn as [Z|Z]; [right; exact Z|left; exact Z].
    + eapply (blk_same u k n h h' c); try exact H; try eassumption. intros i q Hi _. rewrite W by lia. cbn [diagm mat_at]. destruct (Nat.eqb_spec i q) as [<-|]; [|zz; rring]. destruct (U i Hi) as (_ & _ & Uc). generalize (nunit / s')%num. intros w.
      transitivity (- (k * w * (e * dt)))%R; [cbn; ring|]. rewrite <- Uc. cbn. ring.
Qed.
Theorem measurements_scaled f f' : same_measurement u k f f' -> scaled f f'.
Proof.
  intros (lf & lf' & -> & -> & H). destruct lf, lf'; try contradiction H;
  [apply k_generic_prior|apply k_generic_between|apply k_linear_velocity|apply k_position_prior|apply k_orientation_prior|apply k_rotation_prior|apply k_position_between|apply k_orientation_between|apply k_bearing|apply k_inverse_range|apply k_projection|apply k_bearing2
  |apply k_range2|apply k_pose2_prior|apply k_pose2_between|apply k_plane|apply k_plane_prior|apply k_transform]; exact H.
Qed.
End Factors.
