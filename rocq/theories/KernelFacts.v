(** Proofs for PropsTools: the Huber kernel. *)
From Coq Require Import List Arith ZArith QArith Reals Lra Lia Bool FunctionalExtensionality.
From Coquelicot Require Import Coquelicot.
From Verif Require Import Base Sparse Graph Real RSum SpecOpt SpecSolver FactorCalc GeomR Kernel SpecTools.
Import ListNotations.
Set Bullet Behavior "Strict Subproofs".
Local Open Scope R_scope.

Lemma vnorm_rlength (r : list R) : vnorm (N:=RN) r = rlength r.
Proof. unfold vnorm, rlength. rewrite sqnorm_rsum. reflexivity. Qed.
Lemma huber_res_le delta (r : list R) : rlength r <= delta -> huber_residual (N:=RN) delta r = r.
Proof. intros H. unfold huber_residual. rewrite vnorm_rlength. cbn [nleb RN]. rewrite (proj2 (Rleb_true _ _) H). reflexivity. Qed.
Lemma huber_res_gt delta (r : list R) : delta < rlength r ->
  huber_residual (N:=RN) delta r = map (fun x => x * sqrt (delta / rlength r)) r.
Proof. intros H. unfold huber_residual. rewrite vnorm_rlength. cbn [nleb RN]. rewrite (proj2 (Rleb_false _ _) H). reflexivity. Qed.
Lemma inlier_keeps delta (r : list R) Js : rlength r <= delta ->
  huber_residual (N:=RN) delta r = r /\ huber_jacobians (N:=RN) delta r Js = Ok Js.
Proof.
  intros H. split; [apply huber_res_le; auto|]. unfold huber_jacobians. rewrite vnorm_rlength. cbn [nleb RN].
  rewrite (proj2 (Rleb_true _ _) H). reflexivity.
Qed.
Lemma nth_scaled c (r : list R) i : nth i (map (fun x => x * c) r) 0 = nth i r 0 * c.
Proof. rewrite <- (map_nth (fun x => x * c)). f_equal. ring. Qed.
Lemma rlength_scaled c (r : list R) : 0 <= c -> rlength (map (fun x => x * c) r) = c * rlength r.
Proof.
  intros H. unfold rlength. rewrite map_length.
  rewrite (rsum_ext _ _ (fun i => (c * c) * (nth i r 0 * nth i r 0))).
  - rewrite rsum_scal. rewrite sqrt_mult_alt by nra. rewrite sqrt_square by auto. reflexivity.
  - intros i Hi. rewrite nth_scaled. ring.
Qed.
Lemma outlier_shrinks delta (r : list R) : 0 < delta < rlength r ->
  (exists c, 0 < c < 1 /\ huber_residual (N:=RN) delta r = map (fun x => x * c) r) /\
  rlength (huber_residual (N:=RN) delta r) * rlength (huber_residual (N:=RN) delta r) = delta * rlength r.
Proof.
  intros H. rewrite huber_res_gt by lra.
  assert (P : 0 < delta / rlength r) by (apply Rdiv_lt_0_compat; lra).
  assert (S : sqrt (delta / rlength r) * sqrt (delta / rlength r) = delta / rlength r) by (apply sqrt_sqrt; lra).
  assert (P' : 0 < sqrt (delta / rlength r)) by (apply sqrt_lt_R0; auto).
  split.
  - exists (sqrt (delta / rlength r)). split; auto. split; auto.
    rewrite <- sqrt_1. apply sqrt_lt_1_alt. split; [lra|].
    apply (Rmult_lt_reg_r (rlength r)); [lra|]. unfold Rdiv. rewrite Rmult_assoc, Rinv_l by lra. lra.
  - rewrite rlength_scaled by lra.
    replace (sqrt (delta / rlength r) * rlength r * (sqrt (delta / rlength r) * rlength r))
      with (sqrt (delta / rlength r) * sqrt (delta / rlength r) * (rlength r * rlength r)) by ring.
    rewrite S. field. lra.
Qed.

(** continuity *)
Lemma rsum_continuous n (f : nat -> R -> R) x : (forall i, (i < n)%nat -> continuous (f i) x) -> continuous (fun s => rsum n (fun i => f i s)) x.
Proof.
  induction n; intros H; cbn [rsum].
  - apply continuous_const.
  - apply (continuous_plus (fun s => rsum n (fun i => f i s)) (f n)); auto.
Qed.
Lemma rlength_continuous (rho : R -> list R) n x : (forall s, length (rho s) = n) ->
  (forall i, (i < n)%nat -> continuous (fun s => nth i (rho s) 0) x) -> continuous (fun s => rlength (rho s)) x.
Proof.
  intros L C. apply (continuous_ext (fun s => sqrt (rsum n (fun i => nth i (rho s) 0 * nth i (rho s) 0)))).
  { intros s. unfold rlength. rewrite L. reflexivity. }
  apply continuous_comp; [|apply continuous_sqrt].
  apply rsum_continuous. intros i Hi. apply (continuous_mult (fun s => nth i (rho s) 0)); auto.
Qed.
Lemma max_continuous (d x : R) : continuous (fun n => Rmax n d) x.
Proof.
  apply (continuous_ext (fun n => (n + d + Rabs (n - d)) * / 2)).
  { intros n. unfold Rmax, Rabs. destruct (Rle_dec n d), (Rcase_abs (n - d)); try lra. }
  apply (continuous_mult (fun n => n + d + Rabs (n - d)) (fun _ => / 2)); [|apply continuous_const].
  apply (continuous_plus (fun n => n + d) (fun n => Rabs (n - d))).
  - apply (continuous_plus (fun n => n) (fun _ => d)); [apply continuous_id|apply continuous_const].
  - apply (continuous_comp (fun n => n - d) Rabs); [|apply continuous_Rabs].
    apply (continuous_minus (fun n => n) (fun _ => d)); [apply continuous_id|apply continuous_const].
Qed.
Lemma huber_max delta (r : list R) i : 0 < delta ->
  nth i (huber_residual (N:=RN) delta r) 0 = nth i r 0 * sqrt (delta / Rmax (rlength r) delta).
Proof.
  intros D. destruct (Rle_dec (rlength r) delta) as [H|H].
  - rewrite huber_res_le, Rmax_right by auto. replace (delta / delta) with 1 by (field; lra). rewrite sqrt_1. change (car RN) with R. ring.
  - rewrite huber_res_gt, Rmax_left by lra.
    apply nth_scaled.
Qed.
Lemma huber_continuous delta (rho : R -> list R) n x : 0 < delta -> (forall s, length (rho s) = n) ->
  (forall i, (i < n)%nat -> continuous (fun s => nth i (rho s) 0) x) ->
  forall i, (i < n)%nat -> continuous (fun s => nth i (huber_residual (N:=RN) delta (rho s)) 0) x.
Proof.
  intros D L C i Hi.
  apply (continuous_ext (fun s => nth i (rho s) 0 * sqrt (delta / Rmax (rlength (rho s)) delta))).
  { intros s. symmetry. apply huber_max; auto. }
  apply (continuous_mult (fun s => nth i (rho s) 0)); auto.
  apply (continuous_comp (fun s => delta / Rmax (rlength (rho s)) delta) sqrt); [|apply continuous_sqrt].
  apply (continuous_mult (fun _ => delta) (fun s => / Rmax (rlength (rho s)) delta)); [apply continuous_const|].
  apply (continuous_comp (fun s => Rmax (rlength (rho s)) delta) Rinv).
  - apply (continuous_comp (fun s => rlength (rho s)) (fun n => Rmax n delta)); [|apply max_continuous].
    eapply rlength_continuous; eauto.
  - apply continuous_Rinv. pose proof (Rmax_r (rlength (rho x)) delta). lra.
Qed.

(** derivative *)
Lemma rsum_derive n (f : nat -> R -> R) (e : nat -> R) x : (forall i, (i < n)%nat -> is_derive (f i) x (e i)) ->
  is_derive (fun s => rsum n (fun i => f i s)) x (rsum n e).
Proof.
  induction n; intros H; cbn [rsum].
  - apply d_const.
  - apply d_plus; auto.
Qed.
Lemma rlength_derive (rho : R -> list R) r J d : residual_moves rho r J d -> 0 < rlength r ->
  is_derive (fun s => rlength (rho s)) 0 (rsum (length r) (fun i => nth i r 0 * times J d i) / rlength r).
Proof.
  intros (E & L & M & D) P.
  apply (d_ext (fun s => sqrt (rsum (length r) (fun i => nth i (rho s) 0 * nth i (rho s) 0)))).
  { intros s. unfold rlength. rewrite L. reflexivity. }
  eapply d_eq.
  - apply d_sqrt.
    + apply (rsum_derive _ (fun i s => nth i (rho s) 0 * nth i (rho s) 0)). intros i Hi. apply d_mult; apply D; auto.
    + rewrite E. apply sqrt_lt_0_alt. rewrite sqrt_0. exact P.
  - cbv beta. rewrite ?E. rewrite (rsum_ext _ _ (fun i => 2 * (nth i r 0 * times J d i))) by (intros; ring). rewrite rsum_scal.
    change (sqrt (rsum (length r) (fun i => nth i r 0 * nth i r 0))) with (rlength r). field. lra.
Qed.
Lemma true_derive delta (rho : R -> list R) r J d : residual_moves rho r J d -> 0 < delta < rlength r -> forall i, (i < length r)%nat ->
  is_derive (fun s => nth i (huber_residual (N:=RN) delta (rho s)) 0) 0
    (sqrt (delta / rlength r) * times J d i -
     sqrt (delta / rlength r) / (2 * (rlength r * rlength r)) * nth i r 0 * rsum (length r) (fun k => nth k r 0 * times J d k)).
Proof.
  intros Mv P i Hi. pose proof Mv as (E & L & M & D). pose proof (rlength_derive _ _ _ _ Mv ltac:(lra)) as DL.
  apply (is_derive_ext_loc (fun s => nth i (rho s) 0 * sqrt (delta / rlength (rho s)))).
  { apply (filter_imp (fun s => delta < rlength (rho s))).
    - intros s Hs. rewrite huber_res_gt by auto. symmetry. apply nth_scaled.
    - eapply near_gt; [exact DL|]. rewrite E. lra. }
  assert (Q : 0 < delta / rlength r) by (apply Rdiv_lt_0_compat; lra).
  assert (S : sqrt (delta / rlength r) * sqrt (delta / rlength r) = delta / rlength r) by (apply sqrt_sqrt; lra).
  assert (Q' : 0 < sqrt (delta / rlength r)) by (apply sqrt_lt_R0; auto).
  eapply d_eq.
  - apply d_mult; [apply D; auto|]. apply d_sqrt.
    + apply d_div; [apply d_const|exact DL|]. rewrite E. lra.
    + rewrite E. exact Q.
  - cbv beta. rewrite ?E. set (w := sqrt (delta / rlength r)) in *. set (T := rsum _ _). set (n := rlength r) in *.
    assert (Dl : delta = w * w * n) by (rewrite S; field; lra). rewrite Dl. field. lra.
Qed.
Lemma huber_jac_gt delta (r : list R) J : mrows J = length r -> 0 < delta < rlength r -> / 10 ^ 12 <= rlength r ->
  huber_jacobians (N:=RN) delta r [J] =
  Ok [Mat (N:=RN) (mrows J) (mcols J) (fun i j => sqrt (delta / rlength r) * mat_at J i j +
     (- / 2 * delta / (rlength r * rlength r * rlength r)) * nth i r 0 * rsum (length r) (fun k => nth k r 0 * mat_at J k j))].
Proof.
  intros M P Hs. unfold huber_jacobians. rewrite vnorm_rlength. cbn [nleb nltb RN nsqrt ndiv nmul nadd nlit huber_blocks obind].
  rewrite (proj2 (Rleb_false _ _)) by lra. rewrite (proj2 (Rltb_false _ _)).
  2:{ replace (Q2R (1 # 1000000000000)) with (/ 10 ^ 12) by (unfold Q2R; cbn [Qnum Qden]; field_simplify; lra). exact Hs. }
  cbn [orb]. unfold huber_block. rewrite M, Nat.eqb_refl. cbn [obind]. f_equal. f_equal. f_equal.
  apply functional_extensionality. intros i. apply functional_extensionality. intros j.
  cbn [nadd nmul RN]. rewrite vsum_seq. unfold nzero. cbn [nlit RN]. rewrite q0.
  replace (Q2R (- (1 # 2))) with (- / 2) by (unfold Q2R; cbn; lra). reflexivity.
Qed.
Lemma times_huber (J : mat RN) (d : list R) w c (r : list R) i :
  times (Mat (N:=RN) (mrows J) (mcols J) (fun i j => w * mat_at J i j + c * nth i r 0 * rsum (length r) (fun k => nth k r 0 * mat_at J k j))) d i =
  w * times J d i + c * nth i r 0 * rsum (length r) (fun k => nth k r 0 * times J d k).
Proof.
  unfold times. cbn [mcols mat_at].
  rewrite (rsum_ext _ _ (fun j => w * (mat_at J i j * nth j d 0) + c * nth i r 0 * (rsum (length r) (fun k => nth k r 0 * mat_at J k j) * nth j d 0))) by (intros; ring).
  rewrite rsum_plus, !rsum_scal. f_equal. f_equal.
  rewrite (rsum_ext (length r) _ (fun k => rsum (mcols J) (fun j => nth k r 0 * mat_at J k j * nth j d 0))).
  - rewrite rsum_swap. apply rsum_ext. intros j _. rewrite <- rsum_scal_r. reflexivity.
  - intros k _. rewrite <- rsum_scal. apply rsum_ext. intros; ring.
Qed.
Definition is_huber_derivative (delta : R) (r : list R) (J J' : mat RN) (d : list R) : Prop :=
  forall rho, residual_moves rho r J d -> forall i, (i < length r)%nat ->
  is_derive (fun s => nth i (huber_residual (N:=RN) delta (rho s)) 0) 0 (times J' d i).
Lemma derivative_inlier delta (r : list R) J d rho : rlength r < delta -> residual_moves rho r J d ->
  exists J', huber_jacobians (N:=RN) delta r [J] = Ok [J'] /\ forall i, (i < length r)%nat ->
  is_derive (fun s => nth i (huber_residual (N:=RN) delta (rho s)) 0) 0 (times J' d i).
Proof.
  intros H Mv. exists J. split; [apply inlier_keeps; lra|]. intros i Hi. pose proof Mv as (E & L & M & D).
  assert (C : continuous (fun s => rlength (rho s)) 0).
  { apply (rlength_continuous _ (length r)); auto. intros k Hk. eapply d_cont. apply D; auto. }
  apply (is_derive_ext_loc (fun s => nth i (rho s) 0)); [|apply D; auto].
  assert (Lc : locally 0 (fun s => rlength (rho s) < delta)).
  { apply (C (fun y => y < delta)). exists (mkposreal (delta - rlength (rho 0)) ltac:(rewrite E; lra)). intros y Hy. unfold ball in Hy; cbn in Hy. unfold AbsRing_ball, abs, minus, plus, opp in Hy; cbn in Hy.
    apply Rabs_def2 in Hy. lra. }
  apply (filter_imp (fun s => rlength (rho s) < delta)); auto. intros s Hs. rewrite huber_res_le by lra. reflexivity.
Qed.
Lemma derivative_outlier delta (r : list R) J d rho : 0 < delta < rlength r -> / 10 ^ 12 <= rlength r -> residual_moves rho r J d ->
  exists J', huber_jacobians (N:=RN) delta r [J] = Ok [J'] /\
  ((forall i, (i < length r)%nat -> is_derive (fun s => nth i (huber_residual (N:=RN) delta (rho s)) 0) 0 (times J' d i)) <->
   rsum (length r) (fun k => nth k r 0 * times J d k) = 0).
Proof.
  intros H Hs Mv. pose proof Mv as (E & L & M & D). eexists. split; [apply huber_jac_gt; auto|]. set (T := rsum (length r) (fun k => nth k r 0 * times J d k)).
  pose proof (true_derive delta rho r J d Mv H) as TD. fold T in TD.
  assert (Q : 0 < delta / rlength r) by (apply Rdiv_lt_0_compat; lra).
  assert (S : sqrt (delta / rlength r) * sqrt (delta / rlength r) = delta / rlength r) by (apply sqrt_sqrt; lra).
  assert (Q' : 0 < sqrt (delta / rlength r)) by (apply sqrt_lt_R0; auto).
  split; intros A.
  - assert (X : forall i, (i < length r)%nat -> nth i r 0 * T = 0).
    { intros i Hi. specialize (A i Hi). specialize (TD i Hi). rewrite times_huber in A. fold T in A.
      pose proof (is_derive_unique _ _ _ A) as U1. pose proof (is_derive_unique _ _ _ TD) as U2. rewrite U1 in U2. clear A TD U1.
      set (w := sqrt (delta / rlength r)) in *. set (n := rlength r) in *. set (x := nth i r 0) in *. set (t := times J d i) in *.
      assert (Dl : delta = w * w * n) by (rewrite S; field; lra). rewrite Dl in U2.
      assert (Z : (w * (1 - w)) * (x * T) = 0).
      { apply (Rmult_eq_reg_l (/ (2 * (n * n)))); [|apply Rinv_neq_0_compat; nra]. rewrite Rmult_0_r.
        transitivity (w * t + - / 2 * (w * w * n) / (n * n * n) * x * T - (w * t - w / (2 * (n * n)) * x * T)); [field; lra|]. rewrite U2. ring. }
      apply Rmult_integral in Z. destruct Z as [Z|Z]; auto. exfalso. apply Rmult_integral in Z. destruct Z as [Z|Z]; [lra|].
      assert (w = 1) by lra. rewrite H0 in Dl. lra. }
    assert (Y : rlength r * rlength r * T = 0).
    { unfold rlength. rewrite sqrt_sqrt by (apply rsum_nonneg; intros; apply Rle_0_sqr). rewrite <- rsum_scal_r. apply rsum_zero. intros i Hi.
      rewrite Rmult_assoc, X by auto. ring. }
    apply Rmult_integral in Y. destruct Y as [Y|Y]; auto. nra.
  - intros i Hi. eapply d_eq; [apply TD; auto|]. rewrite times_huber. fold T. rewrite A. ring.
Qed.
Lemma loss_gap delta (r : list R) : 0 < delta ->
  (rlength (huber_residual (N:=RN) delta r) * rlength (huber_residual (N:=RN) delta r) / 2 = documented_loss delta (rlength r) <-> rlength r <= delta).
Proof.
  intros D. unfold documented_loss. destruct (Rle_dec (rlength r) delta).
  - rewrite huber_res_le by auto. tauto.
  - destruct (outlier_shrinks delta r) as (_ & ->); [lra|]. split; [|lra]. intros H.
    assert (0 < delta * (rlength r - delta)) by (apply Rmult_lt_0_compat; lra). nra.
Qed.

(** a graph of one generic variable (value 4) and one prior (value 0, sigma 1) whose kernel is Huber with delta 1 *)
From Verif Require Import Geom Vars FactorsLin.
Definition kheap : @heap (lvar RN) := [LVar 1 false (KGeneric (N:=RN) [4])].
Definition kprior : kfactor (N:=RN) (lvar RN) := set_kernel (Some (huber (N:=RN) 1)) (KFactor (generic_prior (lib RN) 1 0%nat [0] 1) None).
Definition kgraph : graph (N:=RN) (V:=lvar RN) :=
  fst (add_factor (fst (add_variable (lib RN) kheap empty_graph (Some 0%nat))) (Some (in_graph kprior))).
Definition kfinal : graph (N:=RN) (V:=lvar RN) := fst (finalize_structure (lib RN) kheap kgraph).
Definition kenv : env (N:=RN) (V:=lvar RN) := Env (fun l => l) (fun n => repeat 0 n).
Definition kernel_applied (h : @heap (lvar RN)) (f : kfactor (N:=RN) (lvar RN)) (r : list R) : Prop :=
  match kf_kernel f, f_res (kf_factor f) h with Some k, Ok r0 => r = k_residual k r0 | _, _ => False end.
Lemma kernel_final : finalize_structure (lib RN) kheap kgraph = (kfinal, Ok tt).
Proof. unfold kfinal. rewrite (surjective_pairing (finalize_structure (lib RN) kheap kgraph)) at 1. f_equal. Qed.
Lemma kernel_ignored : exists g r, compute_residual kenv kheap kfinal = (g, Ok r) /\ ~ kernel_applied kheap kprior r.
Proof.
  pose (x := ((nunit / (1 : RN)) * ((4 : RN) - (0 : RN)))%num).
  eexists. exists [x]. split; [reflexivity|]. intros H. change ([x] = huber_residual (N:=RN) 1 [x]) in H.
  assert (E : x = 4). { unfold x. change (Q2R 1 / 1 * (4 - 0) = 4). rewrite q1. field. }
  rewrite E in H. assert (L : rlength [4] = 4).
  { unfold rlength. cbn. replace (0 + 4 * 4) with (4 * 4) by ring. apply sqrt_square. lra. }
  assert (G : 1 < rlength [4]) by (rewrite L; lra). pose proof (huber_res_gt 1 [4] G) as K0. rewrite L in K0.
  apply (fun h => eq_trans h K0) in H. cbn in H. inversion H as [K].
  assert (S : sqrt (1 / 4) = 1 / 2). { replace (1 / 4) with ((1 / 2) * (1 / 2)) by field. apply sqrt_square. lra. }
  rewrite S in K. lra.
Qed.
Lemma empty_block_undefined delta (r : list R) Js : 0 < delta < rlength r -> / 10 ^ 12 <= rlength r -> In (mempty (N:=RN)) Js ->
  List.Forall (fun J : mat RN => mrows J = length r \/ J = mempty (N:=RN)) Js -> huber_jacobians (N:=RN) delta r Js = UB UBSize.
Proof.
  intros P Hs Hin Hall. unfold huber_jacobians. rewrite vnorm_rlength. cbn [nleb nltb RN nsqrt ndiv nmul nlit].
  rewrite (proj2 (Rleb_false _ _)) by lra. rewrite (proj2 (Rltb_false _ _)).
  2:{ replace (Q2R (1 # 1000000000000)) with (/ 10 ^ 12) by (unfold Q2R; cbn [Qnum Qden]; field_simplify; lra). exact Hs. }
  cbn [orb].
  assert (L : length r <> 0%nat). { destruct r; [|discriminate]. exfalso. unfold rlength in P. cbn in P. rewrite sqrt_0 in P. lra. }
  set (w := sqrt _). set (c := _ / _). clearbody w c. induction Hall as [|J Js HJ Hall IH]; [contradiction|]. cbn [huber_blocks].
  destruct HJ as [HJ| ->].
  - assert (K : J <> mempty (N:=RN)) by (intros ->; cbn in HJ; lia). destruct Hin as [E|Hin]; [congruence|].
    unfold huber_block. rewrite HJ, Nat.eqb_refl. cbn [obind]. rewrite IH by auto. reflexivity.
  - unfold huber_block. cbn [mrows mempty]. destruct r; [contradiction|reflexivity].
Qed.
