(** Gauss-Newton on linear problems: every iteration leaves the same fraction of the distance to the optimum. *)
From Coq Require Import List Arith ZArith QArith Bool Reals Lra Lia Permutation.
From Verif Require Import Base Sparse Graph SpecGraph SpecOpt ListLemmas GraphLayout GraphFin GraphBasic GraphVec GraphDense Optimizer OptLemmas OptWork OptRun OptMore Real RSum SpecSolver SpecSteps OptSteps OptLinear SpecBlocks OptOrder OptOrderRun OptVerdict SpecRest MarginalRun CovRun Info SpecContract.
Import ListNotations.
Local Open Scope nat_scope.
Set Bullet Behavior "Strict Subproofs".

Section Contract.
Context {V : Type} (VC : vclass RN V).
Notation factor := (factor (N:=RN) (V:=V)).
Hypothesis Hok : vclass_ok VC.
Context (h0 : @heap V) (vs : list addr) (fs : list factor) (rate : R).
Hypothesis Nd : NoDup vs.
Hypothesis Hl : Forall (fun a => a < length h0) vs.
Hypothesis W : Forall (factor_wf VC h0 vs) fs.
Hypothesis HL : linear_problem VC h0 vs fs.

Definition d (h : @heap V) (j : nat) : R := nth j (diffs VC h0 h vs) 0%R.
(** heaps the optimiser may reach *)
Definition reach (h : @heap V) : Prop := revalued VC h0 h /\ reassigned VC h0 h vs.

Lemma reach_refl : each_nonconst VC h0 vs (additive VC) -> reach h0.
Proof.
  intros A. split; [constructor|]. split; [reflexivity|]. intros a v E. exists v. repeat split; auto. intros C Ha. exact (proj1 (A a v Ha E C)).
Qed.
Lemma cols h : reach h -> total_cols VC h vs = total_cols VC h0 vs /\ forall k, col_start VC h vs k = col_start VC h0 vs k.
Proof.
  intros (Rv & _). assert (Mw : map (width VC h) vs = map (width VC h0) vs).
  { apply map_ext_in. intros a Ha. rewrite Forall_forall in Hl. apply (revalued_width VC Hok); auto. }
  split; [unfold total_cols|intros k; unfold col_start]; rewrite Mw; reflexivity.
Qed.

(** the Jacobian is the same everywhere *)
Lemma same_jacobian h J J' : reach h -> jacobian_at VC h0 vs fs J -> jacobian_at VC h vs fs J' ->
  mrows J' = mrows J /\ mcols J' = mcols J /\ forall i j, i < mrows J' -> j < mcols J' -> mat_at J' i j = mat_at J i j.
Proof.
  intros (Rv & _) A B. refine (jacobian_unique VC h vs fs J' J B _).
  apply (jacobian_moved VC Hok h0 h vs fs J Rv Hl); [|exact A]. exact (proj2 (proj2 HL h Rv)).
Qed.
Lemma residual_at h J (r0 r : list R) : reassigned VC h0 h vs -> jacobian_at VC h0 vs fs J -> stacked h0 fs r0 -> stacked h fs r ->
  length r0 = mrows J /\ length r = mrows J /\ mcols J = total_cols VC h0 vs /\
  forall i, i < mrows J -> nth i r 0%R = (nth i r0 0 + rsum (mcols J) (fun j => mat_at J i j * d h j))%R.
Proof.
  intros Ra (jss & A1 & A2) S0 S1. destruct HL as ((js' & B1 & B2) & _).
  assert (js' = jss).
  { clear -A1 B1. revert js' B1. induction A1 as [|f js fs0 jss0 E A IH]; intros l B; inversion B; subst; [reflexivity|]. f_equal; [|apply IH; assumption].
    match goal with H : f_jac _ _ _ = (?x, _) /\ _ |- ?x = _ => destruct H as (H & _); rewrite E in H; injection H as ->; reflexivity end. }
  subst js'. pose proof A2 as (R1 & R2 & _).
  assert (BB : Forall2 (fun f js => blocks_ok VC h0 (f_rsize f) (f_vars f) js /\ affine_at VC h0 vs f js) fs jss).
  { clear -B1 B2. revert B2. induction B1 as [|f js fs0 jss0 (E & Bk) B IH]; intros B2; inversion B2; subst; constructor; auto. }
  destruct (row_affine VC h0 h vs fs jss J r0 r Nd W A2 BB Ra S0 S1) as (L0 & L1 & Q). rewrite R1, R2. split; [exact L0|]. split; [exact L1|]. split; [reflexivity|]. exact Q.
Qed.

(** the position of an element *)
Lemma d_at h m a v v' c : reach h -> nth_error vs m = Some a -> nth_error h0 a = Some v -> nth_error h a = Some v' -> vconst VC v = false -> c < vsize VC v ->
  d h (col_start VC h0 vs m + c) = (nth c (vval VC v') 0 - nth c (vval VC v) 0)%R.
Proof. intros (_ & Ra). intros. eapply diffs_nth; eauto. Qed.
Lemma index_of j : j < total_cols VC h0 vs -> exists m a v c, nth_error vs m = Some a /\ nth_error h0 a = Some v /\ vconst VC v = false /\ c < vsize VC v /\ j = col_start VC h0 vs m + c.
Proof.
  intros Hj. destruct (psum_cover _ _ Hj) as (m & w & Hm & Hd). rewrite nth_error_map in Hm. destruct (nth_error vs m) as [a|] eqn:Ea; [|discriminate]. injection Hm as <-.
  assert (Eb : col_start VC h0 vs m = psum (map (width VC h0) vs) m) by reflexivity. set (b := psum (map (width VC h0) vs) m) in *. clearbody b.
  unfold width in Hd. destruct (nth_error h0 a) as [v|] eqn:Ev; [|exfalso; lia]. destruct (vconst VC v) eqn:C; [exfalso; lia|].
  exists m, a, v, (j - b). repeat (split; [assumption|]). split; lia.
Qed.

(** one step *)
Lemma newton_revalued l h h' : newton_step VC vs fs rate l h h' -> revalued VC h h'.
Proof.
  intros (r & J & x & _ & _ & _ & (U1 & U2 & U3)). apply pointwise_revalued; [exact U1|]. intros a v Ev.
  destruct (vconst VC v) eqn:Ec; [left; apply (U3 a v Ev); auto|]. destruct (in_dec Nat.eq_dec a vs) as [Ha|Ha]; [|left; apply (U3 a v Ev); auto].
  apply In_nth_error in Ha. destruct Ha as (k & Hk). destruct (U2 k a v Hk Ev Ec) as (v' & X & Y). right. eauto.
Qed.
Lemma damped_moved l h J J' r x : reach h -> jacobian_at VC h0 vs fs J -> jacobian_at VC h vs fs J' -> damped_solution l J' r x -> damped_solution l J r x.
Proof.
  intros Rh HJ B (D1 & D2). destruct (same_jacobian h J J' Rh HJ B) as (E1 & E2 & E3). split; [lia|]. intros i Hi. rewrite <- E2, <- E1. rewrite <- E2 in Hi.
  rewrite (rsum_ext _ _ (fun j => rsum (mrows J') (fun k => mat_at J' k i * mat_at J' k j) * nth j x 0)%R).
  - rewrite (D2 i Hi). f_equal. apply rsum_ext. intros k Hk. rewrite E3 by auto. reflexivity.
  - intros j Hj. f_equal. apply rsum_ext. intros k Hk. rewrite !E3 by auto. reflexivity.
Qed.
Lemma newton h h1 J l : reach h -> jacobian_at VC h0 vs fs J -> newton_step VC vs fs rate l h h1 ->
  exists r x, stacked h fs r /\ damped_solution l J r x /\ reach h1 /\ forall j, j < mcols J -> d h1 j = (d h j + nth j x 0 * rate)%R.
Proof.
  intros Rh HJ Fm. pose proof Fm as (r & J' & x & A & B & D' & U). pose proof (damped_moved l h J J' r x Rh HJ B D') as D. destruct (same_jacobian h J J' Rh HJ B) as (E1 & E2 & E3).
  exists r, x. split; [exact A|]. split; [exact D|].
  pose proof HJ as (jss & _ & (_ & Jc & _)). destruct (cols h Rh) as (Tc & Cs). destruct Rh as (Rv & Ra).
  assert (Lx : length (map (fun y : R => (y * rate)%R) x) = total_cols VC h0 vs) by (rewrite map_length, (proj1 D); exact Jc).
  destruct (proj2 HL h Rv) as (Ad & _). destruct U as (U1 & U2 & U3).
  (* the new value of a variable *)
  assert (New : forall m a v, nth_error vs m = Some a -> nth_error h a = Some v -> vconst VC v = false -> exists v', nth_error h1 a = Some v' /\ vid VC v' = vid VC v /\ vsize VC v' = vsize VC v /\ vconst VC v' = vconst VC v /\
    length (vval VC v') = vsize VC v /\ forall c, c < vsize VC v -> nth c (vval VC v') 0%R = (nth c (vval VC v) 0 + nth (col_start VC h0 vs m + c) x 0 * rate)%R).
  { intros m a v Hm Hv Cv. destruct (U2 m a v Hm Hv Cv) as (v' & I1 & I2). exists v'. split; [exact I2|].
    destruct (ok_inc _ Hok _ _ _ I1) as (K1 & K2 & K3). repeat (split; [assumption|]).
    assert (Hle : col_start VC h vs m + vsize VC v <= total_cols VC h0 vs).
    { rewrite <- Tc. apply (psum_le_total (map (width VC h) vs) m). rewrite nth_error_map, Hm. simpl. f_equal. unfold width. rewrite Hv, Cv. reflexivity. }
    set (dx := map (fun y : R => (y * rate)%R) x) in *.
    assert (Ls : length (slice (N:=RN) (col_start VC h vs m) (vsize VC v) dx) = vsize VC v) by (unfold slice; rewrite firstn_length, skipn_length; change (car RN) with R; lia).
    destruct (Ad a v (nth_error_In _ _ Hm) Hv Cv) as (_ & Av). destruct (Av _ Ls) as (v2 & I3 & I4 & I5). assert (v2 = v') by congruence. subst v2. split; [exact I4|].
    intros c Hc. rewrite (I5 c Hc). f_equal. unfold slice. rewrite <- Cs.
    rewrite !nth_nth_error. rewrite nth_error_firstn_lt by exact Hc. rewrite nth_error_skipn_plus. unfold dx. rewrite nth_error_map.
    destruct (nth_error x (col_start VC h vs m + c)); cbn; [reflexivity|lra]. }
  assert (R1 : reassigned VC h0 h1 vs).
  { split; [rewrite U1; exact (proj1 Ra)|]. intros a v Hv. destruct (proj2 Ra a v Hv) as (v1 & P1 & P2 & P3 & P4 & P5 & P6).
    destruct (in_dec Nat.eq_dec a vs) as [Ha|Ha]; [destruct (vconst VC v1) eqn:Cv|].
    - exists v1. rewrite <- P4. split; [apply (U3 a v1 P1); right; exact Cv|]. rewrite P4 in *. repeat (split; [assumption|]). assumption.
    - destruct (In_nth_error _ _ Ha) as (m & Hm). destruct (New m a v1 Hm P1 Cv) as (v' & N1 & N2 & N3 & N4 & N5 & _).
      exists v'. split; [exact N1|]. split; [congruence|]. split; [congruence|]. split; [congruence|]. split; [intros [X|X]; [congruence|contradiction]|]. intros _ _. congruence.
    - exists v1. split; [apply (U3 a v1 P1); left; exact Ha|]. split; [assumption|]. split; [assumption|]. split; [assumption|]. split; assumption. }
  assert (Rh1 : reach h1).
  { split; [|exact R1]. eapply revalued_trans; [exact Rv|]. exact (newton_revalued l h h1 Fm). }
  split; [exact Rh1|]. intros j Hj. rewrite Jc in Hj. destruct (index_of j Hj) as (m & a & v & c & I1 & I2 & I3 & I4 & ->).
  destruct (proj2 Ra a v I2) as (v1 & P1 & P2 & P3 & P4 & _). assert (C1 : vconst VC v1 = false) by congruence.
  destruct (New m a v1 I1 P1 C1) as (v' & N1 & _ & _ & _ & _ & N6).
  rewrite (d_at h1 m a v v' c Rh1 I1 I2 N1 I3 I4), (d_at h m a v v1 c (conj Rv Ra) I1 I2 P1 I3 I4), (N6 c) by lia. lra.
Qed.
Lemma step h h1 J : reach h -> jacobian_at VC h0 vs fs J -> OptPart.firm VC rate vs fs h h1 ->
  exists r x, stacked h fs r /\ (forall z, ~ unobservable J z) /\ damped_solution 0 J r x /\ reach h1 /\ forall j, j < mcols J -> d h1 j = (d h j + nth j x 0 * rate)%R.
Proof.
  intros Rh HJ (s & s1 & r & J' & x & r2 & A & B & C & D & U & _). destruct (same_jacobian h J J' Rh HJ B) as (E1 & E2 & E3).
  destruct (newton h h1 J 0 Rh HJ) as (r' & x' & P1 & P2 & P3); [exists r, J', x; auto|]. exists r', x'. split; [exact P1|]. split; [|split; [exact P2|exact P3]].
  intros z Z. apply (C z). refine (unobservable_same J J' z _ _ _ Z); auto. intros i j Hi Hj. symmetry. apply E3; lia.
Qed.

(** ** all steps *)
Section Optimum.
Context (hs : @heap V) (J : mat RN) (r0 rs : list R).
Hypothesis Rs : reach hs.
Hypothesis HJ : jacobian_at VC h0 vs fs J.
Hypothesis S0 : stacked h0 fs r0.
Hypothesis Ss : stacked hs fs rs.
Hypothesis St : forall i, i < mcols J -> rsum (mrows J) (fun k => mat_at J k i * nth k rs 0)%R = 0%R.

Lemma from_optimum h (r : list R) i : reassigned VC h0 h vs -> stacked h fs r -> i < mrows J -> nth i r 0%R = (nth i rs 0 + rsum (mcols J) (fun j => mat_at J i j * (d h j - d hs j)))%R.
Proof.
  intros Rh Hr Hi. destruct (residual_at h J r0 r Rh HJ S0 Hr) as (_ & _ & _ & Q). destruct (residual_at hs J r0 rs (proj2 Rs) HJ S0 Ss) as (_ & _ & _ & Q').
  rewrite (Q i Hi), (Q' i Hi). rewrite (rsum_ext _ (fun j => mat_at J i j * (d h j - d hs j))%R (fun j => mat_at J i j * d h j - mat_at J i j * d hs j)%R) by (intros; ring). rewrite rsum_minus. ring.
Qed.
Lemma orthogonal (e : nat -> R) : rsum (mrows J) (fun i => nth i rs 0 * rsum (mcols J) (fun j => mat_at J i j * e j))%R = 0%R.
Proof.
  rewrite (rsum_ext _ _ (fun i => rsum (mcols J) (fun j => mat_at J i j * nth i rs 0 * e j))%R) by (intros; rewrite <- rsum_scal; apply rsum_ext; intros; ring).
  rewrite rsum_swap. apply rsum_zero. intros j Hj. rewrite rsum_scal_r. rewrite (St j Hj). ring.
Qed.
Lemma towards h (r : list R) : reassigned VC h0 h vs -> stacked h fs r -> damped_solution 0 J r (map (fun j => d hs j - d h j)%R (seq 0 (mcols J))).
Proof.
  intros Rh Hr. split; [rewrite map_length, seq_length; reflexivity|]. intros i Hi.
  assert (Nt : forall j, j < mcols J -> nth j (map (fun j => d hs j - d h j)%R (seq 0 (mcols J))) 0%R = (d hs j - d h j)%R).
  { intros j Hj. apply nth_error_nth. rewrite nth_error_map, nth_error_seq, (proj2 (Nat.ltb_lt _ _) Hj). reflexivity. }
  rewrite (rsum_ext _ _ (fun j => rsum (mrows J) (fun k => mat_at J k i * (mat_at J k j * (d hs j - d h j))))%R).
  2: { intros j Hj. rewrite Nt by exact Hj. rewrite <- rsum_scal_r. apply rsum_ext. intros; ring. }
  rewrite rsum_swap. rewrite (rsum_ext _ _ (fun k => mat_at J k i * nth k rs 0 - mat_at J k i * nth k r 0)%R).
  - rewrite rsum_minus, (St i Hi). ring.
  - intros k Hk. rewrite rsum_scal. rewrite (from_optimum h r k Rh Hr Hk).
    rewrite (rsum_ext _ (fun j => mat_at J k j * (d h j - d hs j))%R (fun j => (-1) * (mat_at J k j * (d hs j - d h j)))%R) by (intros; ring). rewrite rsum_scal. ring.
Qed.
Lemma steps k : forall h, moves (OptPart.firm VC rate vs fs) k h0 h -> reach h /\ forall j, j < mcols J -> (d h j - d hs j = (1 - rate) ^ k * (d h0 j - d hs j))%R.
Proof.
  induction k; intros h M; inversion M as [|k0 a b c M1 F]; subst.
  - split; [apply reach_refl; exact (proj1 (proj2 HL _ (revalued_refl VC _)))|]. intros j _. simpl. ring.
  - destruct (IHk _ M1) as (Rb & Q). destruct (step b h J Rb HJ F) as (r & x & A & U & D & Rh & E). split; [exact Rh|]. intros j Hj.
    pose proof (damped_unique 0 J r x _ (Rle_refl 0) U D (towards b r (proj2 Rb) A)) as ->. rewrite (E j Hj).
    assert (Nt : nth j (map (fun j => d hs j - d b j)%R (seq 0 (mcols J))) 0%R = (d hs j - d b j)%R) by (apply nth_error_nth; rewrite nth_error_map, nth_error_seq, (proj2 (Nat.ltb_lt _ _) Hj); reflexivity).
    rewrite Nt. specialize (Q j Hj). simpl. replace ((1 - rate) * (1 - rate) ^ k * (d h0 j - d hs j))%R with ((1 - rate) * (d b j - d hs j))%R by (rewrite Q; ring). ring.
Qed.
Lemma cost_at h (r : list R) : reassigned VC h0 h vs -> stacked h fs r ->
  sqnorm (N:=RN) r = (sqnorm (N:=RN) rs + rsum (mrows J) (fun i => rsum (mcols J) (fun j => mat_at J i j * (d h j - d hs j)) * rsum (mcols J) (fun j => mat_at J i j * (d h j - d hs j))))%R.
Proof.
  intros Rh Hr. destruct (residual_at h J r0 r Rh HJ S0 Hr) as (_ & L & _). destruct (residual_at hs J r0 rs (proj2 Rs) HJ S0 Ss) as (_ & L' & _).
  rewrite !sqnorm_rsum, L, L'. pose proof (orthogonal (fun j => d h j - d hs j)%R) as O.
  rewrite (rsum_ext _ (fun i => nth i r 0 * nth i r 0)%R (fun i => nth i rs 0 * nth i rs 0 + (2 * (nth i rs 0 * rsum (mcols J) (fun j => mat_at J i j * (d h j - d hs j))) + rsum (mcols J) (fun j => mat_at J i j * (d h j - d hs j)) * rsum (mcols J) (fun j => mat_at J i j * (d h j - d hs j))))%R).
  - rewrite !rsum_plus, rsum_scal, O. match goal with |- ?a = ?b => change (@eq R a b) end. ring.
  - intros i Hi. rewrite (from_optimum h r i Rh Hr Hi). ring.
Qed.
Lemma steps_scaled k h : moves (OptPart.firm VC rate vs fs) k h0 h -> distance_scaled VC ((1 - rate) ^ k) vs hs h0 h.
Proof.
  intros M. destruct (steps k h M) as (Rh & Q). intros a v v' w Ha Hv Hv' Hw Cv c Hc. destruct (In_nth_error _ _ Ha) as (m & Hm).
  pose proof (reach_refl (proj1 (proj2 HL _ (revalued_refl VC _)))) as R0.
  assert (Hj : col_start VC h0 vs m + c < mcols J).
  { pose proof HJ as (jss & _ & (_ & Jc & _)). rewrite Jc. pose proof (psum_le_total (map (width VC h0) vs) m (vsize VC v)) as X.
    assert (col_start VC h0 vs m + vsize VC v <= total_cols VC h0 vs); [|lia]. apply X. rewrite nth_error_map, Hm. simpl. f_equal. unfold width. rewrite Hv, Cv. reflexivity. }
  specialize (Q _ Hj). rewrite (d_at h m a v v' c Rh Hm Hv Hv' Cv Hc), (d_at hs m a v w c Rs Hm Hv Hw Cv Hc), (d_at h0 m a v v c R0 Hm Hv Hv Cv Hc) in Q. 
  replace (nth c (vval VC v') 0 - nth c (vval VC w) 0)%R with (nth c (vval VC v') 0 - nth c (vval VC v) 0 - (nth c (vval VC w) 0 - nth c (vval VC v) 0))%R by ring. rewrite Q. ring.
Qed.
Lemma steps_cost k h (r : list R) : moves (OptPart.firm VC rate vs fs) k h0 h -> stacked h fs r ->
  (sqnorm (N:=RN) r - sqnorm (N:=RN) rs = ((1 - rate) ^ k) * ((1 - rate) ^ k) * (sqnorm (N:=RN) r0 - sqnorm (N:=RN) rs))%R.
Proof.
  intros M Hr. destruct (steps k h M) as (Rh & Q). pose proof (reach_refl (proj1 (proj2 HL _ (revalued_refl VC _)))) as R0.
  rewrite (cost_at h r (proj2 Rh) Hr), (cost_at h0 r0 (proj2 R0) S0). set (q := ((1 - rate) ^ k)%R) in *.
  match goal with |- (?s + ?a - ?s = q * q * (?s + ?b - ?s))%R => cut (a = q * q * b)%R; [intros ->; ring|] end.
  rewrite <- rsum_scal. apply rsum_ext. intros i Hi.
  rewrite (rsum_ext _ (fun j => mat_at J i j * (d h j - d hs j))%R (fun j => q * (mat_at J i j * (d h0 j - d hs j)))%R) by (intros j Hj; rewrite (Q j Hj); ring). rewrite rsum_scal. ring.
Qed.
Lemma optimum_least h (r : list R) : reassigned VC h0 h vs -> stacked h fs r -> (sqnorm (N:=RN) rs <= sqnorm (N:=RN) r)%R.
Proof.
  intros Ra Hr. rewrite (cost_at h r Ra Hr). match goal with |- (?a <= ?a + ?b)%R => assert (0 <= b)%R; [|change (car RN) with R in *; lra] end. apply rsum_nonneg. intros; apply Rle_0_sqr.
Qed.
End Optimum.
End Contract.
