(** The library's factors report the same on displaced variables. *)
From Coq Require Import List Arith ZArith Bool Reals Lra Lia.
From Verif Require Import Base Sparse Graph ListLemmas Geom Vars Real FactorsLin FactorsGeo FactorLib Optimizer SpecTwin TwinGraph SpecMoved MovedVars.
Import ListNotations.
Local Open Scope R_scope.
Set Bullet Behavior "Strict Subproofs".

Section Moved.
Context (tr org : addr -> nat -> R).
Notation RV := (moved_var tr org).
Notation heap := (@heap (lvar RN)).
Notation alikes := (reads_alike (N:=RN) RV).

Ltac rd L := let X := fresh "X" in pose proof L as X; match type of X with alike _ ?o ?o' => destruct o as [?y|?e|?u], o' as [?y'|?e'|?u'] end;
  cbn [alike] in X; try contradiction; cbn [obind withj]; try (subst; reflexivity).
Ltac four := split; [reflexivity|]; split; [reflexivity|]; split; [reflexivity|]; intros h h' H; split; [|split; [|intros J0]]; cbn [build f_res f_res_ref f_jac].
Ltac blks H := repeat match type of H with heaps _ ?h ?h' => rewrite !(blk_same tr org h h' _ _ H) end.

Lemma vec_minus_by t s u (x x' y y' : list R) : by_vec t x x' -> by_vec s y y' -> (forall i, u i = t i - s i) ->
  alike (by_vec u) (vec_minus (N:=RN) x y) (vec_minus (N:=RN) x' y').
Proof.
  intros A B H. unfold vec_minus. change (car RN) with R. rewrite (proj1 A), (proj1 B). destruct (length x =? length y)%nat eqn:E; [|reflexivity]. cbn [alike]. apply Nat.eqb_eq in E.
  revert t s u x' y y' A B H E. induction x as [|a x IH]; intros t s u x' y y' A B H E; destruct y as [|b y]; try discriminate E.
  - apply by_vec_nil in A. apply by_vec_nil in B. subst. split; [reflexivity|]. intros i Hi. cbn in Hi. lia.
  - apply by_vec_cons in A. apply by_vec_cons in B. destruct A as (x1 & -> & A), B as (y1 & -> & B).
    assert (X : by_vec (fun i => u (S i)) (vsub (N:=RN) x y) (vsub (N:=RN) x1 y1)).
    { apply (IH (fun i => t (S i)) (fun i => s (S i)) (fun i => u (S i)) x1 y y1 A B (fun i => H (S i))). cbn in E. lia. }
    change (by_vec u ((a - b) :: vsub (N:=RN) x y) ((a + t 0%nat - (b + s 0%nat)) :: vsub (N:=RN) x1 y1)).
    replace (a + t 0%nat - (b + s 0%nat)) with ((a - b) + u 0%nat) by (rewrite H; lra). apply by_cons. exact X.
Qed.
Lemma vec_minus_same t (x x' y y' : list R) : by_vec t x x' -> by_vec t y y' -> vec_minus (N:=RN) x y = vec_minus (N:=RN) x' y'.
Proof.
  intros A B. pose proof (vec_minus_by t t (fun _ => 0) x x' y y' A B) as H. destruct (vec_minus (N:=RN) x y), (vec_minus (N:=RN) x' y'); cbn in H; try (exfalso; apply H; intros; lra);
    [|f_equal; apply H; intros; lra..]. f_equal. symmetry. apply (by_vec_zero (fun _ => 0)); auto. apply H. intros. lra.
Qed.
Lemma length_alike (h h' : heap) (a : addr) : heaps RV h h' -> alike (fun v v' => l_const v' = l_const v /\ ksize (l_kind v') = ksize (l_kind v)) (hget h a) (hget h' a).
Proof. intros H. pose proof (hget_alike tr org h h' a H) as X. destruct (hget h a), (hget h' a); cbn in *; auto. split; [symmetry; apply X|]. symmetry. eapply ksize_moved. exact X. Qed.

Lemma generic_prior_alike id a x x' s : by_vec (tr a) x x' -> alikes (build (LGenericPrior id a x s)) (build (LGenericPrior id a x' s)).
Proof.
  intros B. split; [reflexivity|]. split; [reflexivity|]. split; [cbn; symmetry; apply B|]. intros h h' H. cbn [build generic_prior f_res f_res_ref f_jac].
  pose proof (value_pair tr org h h' a H) as X. unfold value_at in X.
  assert (Y : gprior_res (lib RN) a x (nunit / s)%num h = gprior_res (lib RN) a x' (nunit / s)%num h').
  { unfold gprior_res. destruct (hget h a), (hget h' a); cbn [alike obind] in X |- *; try contradiction; try congruence. cbn [vval lib]. rewrite (vec_minus_same _ _ _ _ _ X B). reflexivity. }
  split; [exact Y|]. split; [exact Y|]. intros _. unfold gprior_jac. rd (const_alike tr org h h' a H). cbn [vconst lib]. rewrite X0. assert (L : @length (car RN) x' = @length (car RN) x) by exact (proj1 B). rewrite L. reflexivity.
Qed.
Lemma between_res h h' a b d w : heaps RV h h' -> (forall i, tr b i = tr a i + tr d i) -> gbetween_res (lib RN) a b d w h = gbetween_res (lib RN) a b d w h'.
Proof.
  intros H U. unfold gbetween_res. pose proof (value_pair tr org h h' a H) as A. pose proof (value_pair tr org h h' b H) as B. pose proof (value_pair tr org h h' d H) as D. unfold value_at in A, B, D.
  destruct (hget h a), (hget h' a); cbn [alike obind] in A |- *; try contradiction; try congruence. destruct (hget h b), (hget h' b); cbn [alike obind] in B |- *; try contradiction; try congruence.
  destruct (hget h d), (hget h' d); cbn [alike obind] in D |- *; try contradiction; try congruence. cbn [vval lib].
  pose proof (vec_minus_by (tr b) (tr a) (tr d) _ _ _ _ B A) as E.
  match type of E with _ -> alike _ ?o ?o' => destruct o as [y|e|u], o' as [y'|e'|u'] end; cbn [alike obind] in E |- *; try (exfalso; apply E; intros; rewrite U; lra); try (f_equal; apply E; intros; rewrite U; lra).
  rewrite (vec_minus_same (tr d) y y' (kval (l_kind a4)) (kval (l_kind a5))); [reflexivity|apply E; intros; rewrite U; lra|exact D].
Qed.
Lemma block_same h h' a M : heaps RV h h' -> block_for (lib RN) h a M = block_for (lib RN) h' a M.
Proof. intros H. exact (blk_same tr org h h' a M H). Qed.
Lemma generic_between_alike id a b d n s : (forall i, tr b i = tr a i + tr d i) -> alikes (build (LGenericBetween id a b d n s)) (build (LGenericBetween id a b d n s)).
Proof.
  intros U. four; cbn [generic_between f_res f_res_ref f_jac]; [apply between_res; auto|apply (between_res h h' a b d _ H U)|].
  unfold gbetween_jac. rewrite !(block_same h h' _ _ H). reflexivity.
Qed.

(** segments *)
Lemma nth_seg (z : list R) off n i : (i < n)%nat -> nth i (firstn n (skipn off z)) 0 = nth (off + i) z 0.
Proof.
  revert z. induction off as [|off IH]; intros z Hi.
  - cbn [skipn Nat.add]. revert z i Hi. induction n as [|n IH]; intros z i Hi; [lia|]. destruct z as [|w z]; [destruct i; reflexivity|]. destruct i as [|i]; [reflexivity|]. cbn. apply IH. lia.
  - destruct z as [|w z]; [cbn [skipn]; rewrite firstn_nil; destruct i; reflexivity|]. exact (IH z Hi).
Qed.
Lemma segment_by t (x x' : list R) off n : by_vec t x x' ->
  alike (fun y y' => length y = n /\ by_vec (fun i => t (off + i)%nat) y y') (segment (N:=RN) off n x) (segment (N:=RN) off n x').
Proof.
  intros (L & H). unfold segment. change (car RN) with R. rewrite L. destruct (off + n <=? length x)%nat eqn:E; [|reflexivity]. apply Nat.leb_le in E. cbn [alike].
  assert (K : forall z : list R, length z = length x -> length (firstn n (skipn off z)) = n) by (intros z Hz; rewrite firstn_length, skipn_length; lia).
  split; [apply K; reflexivity|]. split; [rewrite !K; auto|]. intros i Hi. rewrite K in Hi by auto. rewrite !nth_seg by auto. apply H. lia.
Qed.
Lemma vsub_by t s u (x x' y y' : list R) : length x = length y -> by_vec t x x' -> by_vec s y y' -> (forall i, u i = t i - s i) -> by_vec u (vsub (N:=RN) x y) (vsub (N:=RN) x' y').
Proof.
  intros L A B H. pose proof (vec_minus_by t s u x x' y y' A B H) as X. unfold vec_minus in X. change (car RN) with R in X. rewrite (proj1 A), (proj1 B), L, Nat.eqb_refl in X. exact X.
Qed.
Lemma scaled_by t (dt : R) (x x' : list R) : by_vec t x x' -> by_vec (fun i => dt * t i) (map (fun y => nmul (n:=RN) y dt) x) (map (fun y => nmul (n:=RN) y dt) x').
Proof.
  revert t x'. induction x as [|a x IH]; intros t x' H.
  - apply by_vec_nil in H. subst. split; [reflexivity|]. intros i Hi. cbn in Hi. lia.
  - apply by_vec_cons in H. destruct H as (z & -> & H). cbn [map]. replace (nmul (n:=RN) (a + t 0%nat) dt) with (nmul (n:=RN) a dt + dt * t 0%nat) by (cbn; lra).
    apply (by_cons (fun i => dt * t i)). apply (IH _ _ H).
Qed.
Lemma linvel_same h h' a b c n i0 dt w : heaps RV h h' -> (forall i, tr b (i0 + i)%nat = tr a (i0 + i)%nat + dt * tr c i) ->
  linvel_res a b c n i0 dt w h = linvel_res a b c n i0 dt w h'.
Proof.
  intros H U. unfold linvel_res. rd (value_pair tr org h h' b H). rd (segment_by (tr b) y y' i0 n X). rd (value_pair tr org h h' a H). rd (segment_by (tr a) y1 y'1 i0 n X1). rd (value_pair tr org h h' c H).
  destruct X0 as (L0 & X0), X2 as (L2 & X2).
  rewrite (vec_minus_same (fun i => dt * tr c i) (vsub (N:=RN) y0 y2) (vsub (N:=RN) y'0 y'2) (map (fun y => nmul (n:=RN) y dt) y3) (map (fun y => nmul (n:=RN) y dt) y'3)); [reflexivity| |apply scaled_by; exact X3].
  apply (vsub_by (fun i => tr b (i0 + i)%nat) (fun i => tr a (i0 + i)%nat)); auto; [cbn in *; congruence|]. intros i. rewrite U. lra.
Qed.
Lemma linear_velocity_alike id a b c n dt s i0 : unmoved tr org (LLinearVelocity id a b c n dt s i0) -> alikes (build (LLinearVelocity id a b c n dt s i0)) (build (LLinearVelocity id a b c n dt s i0)).
Proof.
  intros U. cbn in U. four; cbn [linear_velocity f_res f_res_ref f_jac]; [apply linvel_same; auto|apply (linvel_same h h' a b c n i0 dt _ H U)|].
  unfold linvel_jac. rd (length_alike h h' c H). destruct X as (_ & ->).
  assert (P : forall (x : addr) (wx : RN), (let* v := hget h x in if l_const v then Ok mempty else diag_block n (ksize (l_kind v)) i0 (ksize (l_kind y)) wx) =
    (let* v := hget h' x in if l_const v then Ok mempty else diag_block n (ksize (l_kind v)) i0 (ksize (l_kind y)) wx)).
  { intros x wx. rd (length_alike h h' x H). destruct X as (-> & ->). reflexivity. }
  rewrite !P. blks H. reflexivity.
Qed.
Lemma v3_by p p' t : by_v3 t p p' -> p' = V3 (vx p + t 0%nat) (vy p + t 1%nat) (vz p + t 2%nat).
Proof. intros (A & B & C). destruct p'. cbn in *. congruence. Qed.
Lemma position_prior_alike id p x x' s : by_v3 (tr p) x x' -> alikes (build (LPositionPrior id p x s)) (build (LPositionPrior id p x' s)).
Proof.
  intros B. four; cbn [pose_position_prior f_res f_res_ref f_jac]; [unfold pospri_res|unfold pospri_ref|unfold pospri_jac; blks H; reflexivity];
    rd (pose_pair tr org h h' p H); destruct X as (_ & X); rewrite (v3sub_by (tr p) (tr p) _ _ _ _ X B) by auto; reflexivity.
Qed.
Lemma orientation_prior_alike id p x s : alikes (build (LOrientationPrior id p x s)) (build (LOrientationPrior id p x s)).
Proof.
  four; cbn [pose_orientation_prior f_res f_res_ref f_jac]; [unfold oripri_res|unfold oripri_ref|unfold oripri_jac].
  - rd (pose_pair tr org h h' p H). destruct X as (-> & _). reflexivity.
  - rd (pose_pair tr org h h' p H). destruct X as (-> & _). reflexivity.
  - rd (const_alike tr org h h' p H). rewrite X. destruct (l_const y); [reflexivity|]. rd (pose_pair tr org h h' p H). destruct X0 as (-> & _). reflexivity.
Qed.
Lemma rotation_prior_alike id p x s : alikes (build (LRotationPrior id p x s)) (build (LRotationPrior id p x s)).
Proof.
  four; cbn [rotation_prior f_res f_res_ref f_jac]; [unfold rotpri_res|unfold rotpri_ref|unfold rotpri_jac]; rewrite ?(rot_same tr org h h' p H); try reflexivity.
  rd (const_alike tr org h h' p H). rewrite X. reflexivity.
Qed.
Lemma v3sub2_by t s u p p' q q' m m' : by_v3 t p p' -> by_v3 s q q' -> by_v3 u m m' -> (forall i, (i < 3)%nat -> t i = s i + u i) ->
  v3sub (N:=RN) (v3sub p' q') m' = v3sub (v3sub p q) m.
Proof.
  intros (A & B & C) (A' & B' & C') (A2 & B2 & C2) H. unfold v3sub. cbn [vx vy vz]. rewrite A, B, C, A', B', C', A2, B2, C2, !H by lia. cbn. f_equal; cbn; lra.
Qed.
Lemma position_between_alike id a b m s loc : unmoved tr org (LPositionBetween id a b m s loc) -> alikes (build (LPositionBetween id a b m s loc)) (build (LPositionBetween id a b m s loc)).
Proof.
  intros (U & W). assert (Z : loc = true -> forall i, (i < 3)%nat -> tr b i = tr a i) by (intros E i Hi; rewrite U, (W E i Hi) by auto; lra).
  four; cbn [pose_position_between f_res f_res_ref f_jac]; [unfold posbet_res|unfold posbet_ref|unfold posbet_jac].
  - rd (pose_pair tr org h h' b H). rd (pose_pair tr org h h' a H). rd (value3_pair tr org h h' m H). destruct X as (_ & X), X0 as (E & X0). rewrite E. destruct loc.
    + rewrite (v3sub_by _ _ _ _ _ _ X X0 (Z eq_refl)). rewrite (by_v3_zero (fun _ => 0) y1 y'1); [reflexivity| |auto]. destruct X1 as (P & Q & C). unfold by_v3. rewrite P, Q, C, !(W eq_refl) by lia. auto.
    + rewrite (v3sub2_by _ _ _ _ _ _ _ _ _ X X0 X1 U). reflexivity.
  - rd (pose_pair tr org h h' b H). rd (pose_pair tr org h h' a H). rd (value3_pair tr org h h' m H). destruct X as (_ & X), X0 as (E & X0). rewrite E. destruct loc.
    + rewrite (v3sub_by _ _ _ _ _ _ X X0 (Z eq_refl)). rewrite (by_v3_zero (fun _ => 0) y1 y'1); [reflexivity| |auto]. destruct X1 as (P & Q & C). unfold by_v3. rewrite P, Q, C, !(W eq_refl) by lia. auto.
    + rewrite (v3sub2_by _ _ _ _ _ _ _ _ _ X X0 X1 U). reflexivity.
  - destruct loc.
    + rd (pose_pair tr org h h' b H); [rd (pose_pair tr org h h' a H)|..]; try (blks H; subst; reflexivity). destruct X as (E & X), X0 as (E0 & X0). rewrite E0, (v3sub_by _ _ _ _ _ _ X X0 (Z eq_refl)). blks H. reflexivity.
    + blks H. reflexivity.
Qed.
Lemma orientation_between_alike id a b c s : alikes (build (LOrientationBetween id a b c s)) (build (LOrientationBetween id a b c s)).
Proof.
  four; cbn [pose_orientation_between f_res f_res_ref f_jac]; [unfold oribet_res|unfold oribet_ref|unfold oribet_jac]; rewrite ?(rot_same tr org h h' c H);
    (rd (pose_pair tr org h h' a H)); (rd (pose_pair tr org h h' b H)); destruct X as (-> & _), X0 as (-> & _); try reflexivity.
  destruct (rot_at h' c) as [C|e|u]; cbn [obind withj]; try reflexivity. destruct (inv_right_jacobian _) as [Mi|e|u]; cbn [obind withj]; try reflexivity. blks H. reflexivity.
Qed.
Lemma bearing_alike id p l o s : (forall i, (i < 3)%nat -> tr p i = tr l i) -> alikes (build (LBearing id p l o s)) (build (LBearing id p l o s)).
Proof.
  intros U. assert (U' : forall i, (i < 3)%nat -> tr l i = tr p i) by (intros; symmetry; auto).
  four; cbn [bearing_observation f_res f_res_ref f_jac]; [unfold bearing_res|unfold bearing_ref|unfold bearing_jac].
  - rd (landmark_pair tr org h h' l H). rd (pose_pair tr org h h' p H). destruct X0 as (E & X0). rewrite E, (v3sub_by _ _ _ _ _ _ X X0 U'). reflexivity.
  - rd (landmark_pair tr org h h' l H). rd (pose_pair tr org h h' p H). destruct X0 as (E & X0). rewrite E, (v3sub_by _ _ _ _ _ _ X X0 U'). reflexivity.
  - rd (pose_pair tr org h h' p H). rd (landmark_pair tr org h h' l H). destruct X as (E & X). rewrite E, (v3sub_by _ _ _ _ _ _ X0 X U'). destruct (nltb _ _); cbn [withj]; [reflexivity|]. blks H. reflexivity.
Qed.
Lemma projection_alike id p l o s tol : (forall i, (i < 3)%nat -> tr p i = tr l i) -> alikes (build (LProjection id p l o s tol)) (build (LProjection id p l o s tol)).
Proof.
  intros U. assert (U' : forall i, (i < 3)%nat -> tr l i = tr p i) by (intros; symmetry; auto).
  four; cbn [bearing_projection f_res f_res_ref f_jac]; [unfold proj_res|unfold proj_ref|unfold proj_jac];
    (rd (landmark_pair tr org h h' l H)); (rd (pose_pair tr org h h' p H)); destruct X0 as (E & X0); rewrite E, (v3sub_by _ _ _ _ _ _ X X0 U'); try reflexivity.
  destruct (nleb _ _); blks H; reflexivity.
Qed.
Lemma inverse_range_alike id p l o s : (forall i, (i < 3)%nat -> tr p i = org l i) -> alikes (build (LInverseRange id p l o s)) (build (LInverseRange id p l o s)).
Proof.
  intros U. assert (U' : forall i, (i < 3)%nat -> org l i = tr p i) by (intros; symmetry; auto).
  four; cbn [inverse_range_bearing f_res f_res_ref f_jac]; [unfold invbear_res|unfold invbear_ref|unfold invbear_jac];
    (rd (pose_pair tr org h h' p H)); (rd (inv_pair tr org h h' l H)); destruct X as (E & X), X0 as (F & G & X0); rewrite E, (v3sub_by _ _ _ _ _ _ X0 X U'); try reflexivity.
  destruct (nltb _ _); cbn [withj]; [reflexivity|]. destruct y0 as [[? ?] ?], y'0 as [[? ?] ?]. cbn in F, G. subst. blks H. reflexivity.
Qed.
Lemma local2_same h h' p l : heaps RV h h' -> (forall i, (i < 2)%nat -> tr p i = tr l i) -> local2 h p l = local2 h' p l.
Proof.
  intros H U. unfold local2. rd (pose2_pair tr org h h' p H). rd (value2_pair tr org h h' l H). destruct X as (E & A & B), X0 as (A' & B'). rewrite E.
  assert (S2 : v2sub (N:=RN) y'0 (fst y') = v2sub y0 (fst y)). { unfold v2sub. rewrite A, B, A', B', !U by lia. cbn. f_equal; lra. } rewrite S2. reflexivity.
Qed.
Lemma bearing2_alike id p l o s : (forall i, (i < 2)%nat -> tr p i = tr l i) -> alikes (build (LBearing2 id p l o s)) (build (LBearing2 id p l o s)).
Proof.
  intros U. four; cbn [bearing_observation_2d f_res f_res_ref f_jac]; [unfold bear2_res|unfold bear2_ref|unfold bear2_jac]; rewrite (local2_same h h' p l H U); try reflexivity.
  destruct (local2 h' p l) as [d|e|u]; cbn [obind withj]; try reflexivity. destruct (nltb _ _); cbn [withj]; [reflexivity|]. blks H. reflexivity.
Qed.
Lemma range2_alike id p l r o s s2 : (forall i, (i < 2)%nat -> tr p i = tr l i) -> alikes (build (LRangeBearing2 id p l r o s s2)) (build (LRangeBearing2 id p l r o s s2)).
Proof.
  intros U. four; cbn [range_bearing_2d f_res f_res_ref f_jac]; [unfold range2_res|unfold range2_ref|unfold range2_jac]; rewrite (local2_same h h' p l H U); try reflexivity.
  destruct (local2 h' p l) as [d|e|u]; cbn [obind withj]; try reflexivity. destruct (nltb _ _); cbn [withj]; [reflexivity|]. blks H. reflexivity.
Qed.
Lemma pose2_prior_alike id p x x' s r : vx x' = vx x + tr p 0%nat -> vy x' = vy x + tr p 1%nat -> vz x' = vz x ->
  alikes (build (LPose2Prior id p x s r)) (build (LPose2Prior id p x' s r)).
Proof.
  intros A B C. four; cbn [pose2_prior f_res f_res_ref f_jac]; [unfold pri2_res|unfold pri2_ref|unfold pri2_jac; blks H; reflexivity];
    (rd (pose2_pair tr org h h' p H)); destruct X as (E & P & Q); rewrite E, C;
    (assert (S2 : v2sub (N:=RN) (fst y') (V2 (vx x') (vy x')) = v2sub (fst y) (V2 (vx x) (vy x))) by (unfold v2sub; cbn [v2x v2y]; rewrite P, Q, A, B; cbn; f_equal; lra)); rewrite S2; reflexivity.
Qed.
Lemma nth_error_by t (x x' : list R) i : by_vec t x x' -> t i = 0 -> nth_error x' i = nth_error x i.
Proof.
  intros (L & H) Z. destruct (nth_error x i) as [y|] eqn:E.
  - assert (Hi : (i < length x)%nat) by (apply nth_error_Some; congruence). pose proof (H i Hi) as K. rewrite Z, Rplus_0_r in K. rewrite (nth_error_nth x i 0 E) in K. rewrite <- K. apply nth_error_nth'. lia.
  - apply nth_error_None in E. apply nth_error_None. lia.
Qed.
Lemma pose2_between_alike id a b m s r loc : unmoved tr org (LPose2Between id a b m s r loc) -> alikes (build (LPose2Between id a b m s r loc)) (build (LPose2Between id a b m s r loc)).
Proof.
  intros (U & Z2 & W). assert (Z : loc = true -> forall i, (i < 2)%nat -> tr b i = tr a i) by (intros E i Hi; rewrite U, (W E i Hi) by auto; lra).
  assert (K : forall (A B A' B' mp mp' : v2 RN) t, v2x A' = v2x A + tr a 0%nat -> v2y A' = v2y A + tr a 1%nat -> v2x B' = v2x B + tr b 0%nat -> v2y B' = v2y B + tr b 1%nat ->
    v2x mp' = v2x mp + tr m 0%nat -> v2y mp' = v2y mp + tr m 1%nat ->
    (if loc then v2sub (m2v (dcm2 t) (v2sub B A)) mp else v2sub (v2sub B A) mp) = (if loc then v2sub (m2v (dcm2 t) (v2sub B' A')) mp' else v2sub (v2sub B' A') mp')).
  { intros A B A' B' mp mp' t A1 A2 B1 B2 M1 M2. destruct loc.
    - assert (E1 : v2sub (N:=RN) B' A' = v2sub B A) by (unfold v2sub; rewrite A1, A2, B1, B2, !(Z eq_refl) by lia; cbn; f_equal; lra).
      rewrite E1. assert (E2 : mp' = mp). { destruct mp, mp'. cbn in *. rewrite (W eq_refl 0%nat) in M1 by lia. rewrite (W eq_refl 1%nat) in M2 by lia. rewrite Rplus_0_r in M1, M2. congruence. } rewrite E2. reflexivity.
    - unfold v2sub. cbn [v2x v2y]. rewrite A1, A2, B1, B2, M1, M2, !U by lia. cbn. f_equal; lra. }
  four; cbn [pose2_between f_res f_res_ref f_jac]; [unfold bet2_res|unfold bet2_ref|unfold bet2_jac].
  - rd (pose2_pair tr org h h' b H). rd (pose2_pair tr org h h' a H). rd (value2_pair tr org h h' m H). rd (value_pair tr org h h' m H).
    destruct X as (E & B1 & B2), X0 as (E0 & A1 & A2), X1 as (M1 & M2). rewrite E, E0. assert (Z3 : @nth_error (car RN) y'2 2 = @nth_error (car RN) y2 2) by exact (nth_error_by _ _ _ 2 X2 Z2). rewrite Z3. rewrite (K _ _ _ _ _ _ (snd y0) A1 A2 B1 B2 M1 M2). reflexivity.
  - rd (pose2_pair tr org h h' b H). rd (pose2_pair tr org h h' a H). rd (value2_pair tr org h h' m H). rd (value_pair tr org h h' m H).
    destruct X as (E & B1 & B2), X0 as (E0 & A1 & A2), X1 as (M1 & M2). rewrite E, E0. assert (Z3 : @nth_error (car RN) y'2 2 = @nth_error (car RN) y2 2) by exact (nth_error_by _ _ _ 2 X2 Z2). rewrite Z3. rewrite (K _ _ _ _ _ _ (snd y0) A1 A2 B1 B2 M1 M2). reflexivity.
  - destruct loc; [|blks H; reflexivity].
    rd (pose2_pair tr org h h' b H); [rd (pose2_pair tr org h h' a H)|..]; try (blks H; subst; reflexivity). destruct X as (E & B1 & B2), X0 as (E0 & A1 & A2).
    assert (E1 : v2sub (N:=RN) (fst y') (fst y'0) = v2sub (fst y) (fst y0)) by (unfold v2sub; rewrite A1, A2, B1, B2, !(Z eq_refl) by lia; cbn; f_equal; lra).
    rewrite E0, E1. blks H. reflexivity.
Qed.
Lemma v3_still (t : nat -> R) (p p' : v3 RN) : by_v3 t p p' -> (forall i, (i < 3)%nat -> t i = 0) -> p' = p.
Proof. intros (A & B & C) Z. rewrite Z, Rplus_0_r in A, B, C by lia. destruct p, p'. cbn in *. congruence. Qed.
Lemma plane_alike id q m s sc : (forall i, (i < 3)%nat -> tr q i = 0) -> alikes (build (LPlane id q m s sc)) (build (LPlane id q m s sc)).
Proof.
  intros U. four; cbn [plane_factor f_res f_res_ref f_jac]; [unfold plane_res|unfold plane_ref|unfold plane_jac]; rewrite (plane_same tr org h h' m H);
    (rd (value3_pair tr org h h' q H)); rewrite (v3_still _ _ _ X U); try reflexivity.
  destruct (plane_at h' m) as [[n d]|e|u]; cbn [obind withj]; try reflexivity. destruct sc as [[r0 p0]|]; blks H; reflexivity.
Qed.
Lemma plane_prior_alike id m n d s s2 : alikes (build (LPlanePrior id m n d s s2)) (build (LPlanePrior id m n d s s2)).
Proof.
  four; cbn [plane_prior f_res f_res_ref f_jac]; [unfold planepri_res|unfold planepri_ref|unfold planepri_jac]; rewrite ?(plane_same tr org h h' m H); try reflexivity.
  rd (const_alike tr org h h' m H). rewrite X. reflexivity.
Qed.
Lemma transform_alike id r o s la lb sg : unmoved tr org (LTransform id r o s la lb sg) -> alikes (build (LTransform id r o s la lb sg)) (build (LTransform id r o s la lb sg)).
Proof.
  intros (U & Us & Ub).
  assert (K : forall h h', heaps RV h h' -> alike (fun sv sv' => match sv, sv' with x :: _, x' :: _ => x = x' | [], [] => True | _, _ => False end) (generic_at h s) (generic_at h' s)).
  { intros h h' H. rd (generic_pair tr org h h' s H). cbn [alike]. destruct y as [|y0 y]; [apply by_vec_nil in X; subst; exact I|]. apply by_vec_cons in X. destruct X as (z & -> & _). rewrite Us. symmetry. apply Rplus_0_r. }
  assert (Q : forall h h' w, heaps RV h h' -> ctrans_ref r o s la lb w h = ctrans_ref r o s la lb w h').
  { intros h h' w H. unfold ctrans_ref. rewrite (rot_same tr org h h' r H). destruct (rot_at h' r) as [Rm|e|u]; cbn [obind]; try reflexivity. rd (K h h' H).
    destruct y as [|k y], y' as [|k' y']; try contradiction; cbn [obind]; [reflexivity|]. subst k'. rd (landmark_pair tr org h h' lb H). rd (generic_pair tr org h h' o H). rd (to_v3_by _ _ _ X0). rd (landmark_pair tr org h h' la H).
    rewrite (v3_still _ _ _ X Ub). destruct X1 as (A1 & A2 & A3), X2 as (B1 & B2 & B3). do 3 f_equal. unfold v3sub. cbn [vx vy vz]. rewrite A1, A2, A3, B1, B2, B3, !U by lia. cbn. f_equal; lra. }
  four; cbn [coordinate_transform f_res f_res_ref f_jac]; [apply Q; auto|apply Q; auto|]. unfold ctrans_jac. rewrite (rot_same tr org h h' r H). destruct (rot_at h' r) as [Rm|e|u]; cbn [obind withj]; try reflexivity. rd (K h h' H).
  destruct y as [|k y], y' as [|k' y']; try contradiction; cbn [obind withj]; [reflexivity|]. subst k'. rd (landmark_pair tr org h h' lb H). rewrite (v3_still _ _ _ X Ub). blks H. reflexivity.
Qed.
Theorem factor_alike f f' : moved_factor tr org f f' -> alikes (build f) (build f').
Proof.
  destruct f; destruct f'; cbn [moved_factor]; intros P; try (destruct P as (P & _); discriminate P);
    try (destruct P as (P & U); injection P as <-; subst; cbn [unmoved] in U).
  - destruct P as (-> & -> & -> & P). apply generic_prior_alike. exact P.
  - apply generic_between_alike. exact U.
  - apply linear_velocity_alike. exact U.
  - destruct P as (-> & -> & -> & P). apply position_prior_alike. exact P.
  - apply orientation_prior_alike.
  - apply rotation_prior_alike.
  - apply position_between_alike. exact U.
  - apply orientation_between_alike.
  - apply bearing_alike. exact U.
  - apply inverse_range_alike. exact U.
  - apply projection_alike. exact U.
  - apply bearing2_alike. exact U.
  - apply range2_alike. exact U.
  - destruct P as (-> & -> & -> & -> & A & B & C). apply pose2_prior_alike; auto.
  - apply pose2_between_alike. exact U.
  - apply plane_alike. exact U.
  - apply plane_prior_alike.
  - apply transform_alike. exact U.
Qed.
End Moved.
