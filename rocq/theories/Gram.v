(** J^T J and J^T J + l I over the reals: symmetry and the quadratic form. *)
From Coq Require Import List Arith ZArith QArith Bool Reals Lra Lia.
From Verif Require Import Base SpecOpt Optimizer Real RSum SpecSolver.
Import ListNotations.
Local Open Scope R_scope.

Lemma gram_at (J : mat RN) i j : mat_at (jtj J) i j = rsum (mrows J) (fun k => mat_at J k i * mat_at J k j).
Proof. unfold jtj, mmul, mtrans. cbn [mat_at mcols mrows]. apply vsum_seq. Qed.
Lemma damped_at l (J : mat RN) i j : mat_at (add_diag l (jtj J)) i j = rsum (mrows J) (fun k => mat_at J k i * mat_at J k j) + (if (i =? j)%nat then l else 0).
Proof.
  unfold add_diag. cbn [mat_at]. rewrite gram_at. destruct (i =? j)%nat; [reflexivity|]. symmetry. apply Rplus_0_r.
Qed.
Lemma gram_sym (J : mat RN) : symmetric_mat (jtj J).
Proof. split; [reflexivity|]. intros i j _ _. rewrite !gram_at. apply rsum_ext. intros k _. apply Rmult_comm. Qed.
Lemma damped_sym l (J : mat RN) : symmetric_mat (add_diag l (jtj J)).
Proof.
  split; [reflexivity|]. intros i j _ _. rewrite !damped_at, (Nat.eqb_sym j i). f_equal. apply rsum_ext. intros k _. apply Rmult_comm.
Qed.
Lemma sum_square n (f : nat -> R) : rsum n f * rsum n f = rsum n (fun i => rsum n (fun j => f i * f j)).
Proof. rewrite <- rsum_scal_r. apply rsum_ext. intros i _. rewrite rsum_scal. reflexivity. Qed.
Lemma image_form (J : mat RN) x : rsum (mcols J) (fun i => rsum (mcols J) (fun j => nth i x 0 * rsum (mrows J) (fun k => mat_at J k i * mat_at J k j) * nth j x 0)) = image_sq J x.
Proof.
  symmetry. unfold image_sq. rewrite (rsum_ext (mrows J) _ (fun k => rsum (mcols J) (fun i => rsum (mcols J) (fun j => (mat_at J k i * nth i x 0) * (mat_at J k j * nth j x 0))))) by (intros; apply sum_square).
  rewrite rsum_swap. apply rsum_ext. intros i _. rewrite rsum_swap. apply rsum_ext. intros j _.
  rewrite <- rsum_scal, <- rsum_scal_r. apply rsum_ext. intros k _. ring.
Qed.
Lemma gram_form (J : mat RN) x : quad_form (jtj J) x = image_sq J x.
Proof.
  rewrite <- image_form. unfold quad_form. change (mrows (jtj J)) with (mcols J). apply rsum_ext. intros i _. apply rsum_ext. intros j _.
  exact (f_equal (fun t => nth i x 0 * t * nth j x 0) (gram_at J i j)).
Qed.
Lemma damped_form l (J : mat RN) x : quad_form (add_diag l (jtj J)) x = damped_sq l J x.
Proof.
  unfold damped_sq. rewrite <- image_form, <- rsum_scal, <- rsum_plus. unfold quad_form. change (mrows (add_diag l (jtj J))) with (mcols J).
  apply rsum_ext. intros i Hi.
  transitivity (rsum (mcols J) (fun j => nth i x 0 * rsum (mrows J) (fun k => mat_at J k i * mat_at J k j) * nth j x 0 + nth i x 0 * (if (i =? j)%nat then l else 0) * nth j x 0)).
  - apply rsum_ext. intros j _. etransitivity; [exact (f_equal (fun t => nth i x 0 * t * nth j x 0) (damped_at l J i j))|]. ring.
  - rewrite rsum_plus. f_equal. rewrite (rsum_single _ i); [rewrite Nat.eqb_refl; ring|exact Hi|].
    intros j _ Hn. destruct (Nat.eqb_spec i j); [congruence|]. ring.
Qed.
Lemma image_nonneg (J : mat RN) x : 0 <= image_sq J x.
Proof. apply rsum_nonneg. intros k _. apply Rle_0_sqr. Qed.
Lemma length_nonneg n (x : list R) : 0 <= rsum n (fun j => nth j x 0 * nth j x 0).
Proof. apply rsum_nonneg. intros k _. apply Rle_0_sqr. Qed.
Lemma term_le n (f : nat -> R) i : (forall k, (k < n)%nat -> 0 <= f k) -> (i < n)%nat -> f i <= rsum n f.
Proof.
  induction n; intros P Hi; [lia|]. cbn [rsum]. destruct (Nat.eq_dec i n) as [->|Hn].
  - assert (0 <= rsum n f) by (apply rsum_nonneg; intros; apply P; lia). lra.
  - assert (f i <= rsum n f) by (apply IHn; [intros; apply P; lia|lia]). assert (0 <= f n) by (apply P; lia). lra.
Qed.
Lemma gram_semi (J : mat RN) : semidefinite_mat (jtj J).
Proof. intros x _. rewrite gram_form. apply image_nonneg. Qed.
Lemma damped_semi l (J : mat RN) : 0 <= l -> semidefinite_mat (add_diag l (jtj J)).
Proof.
  intros Hl x _. rewrite damped_form. unfold damped_sq. pose proof (image_nonneg J x). pose proof (length_nonneg (mcols J) x).
  assert (0 <= l * rsum (mcols J) (fun j => nth j x 0 * nth j x 0)) by (apply Rmult_le_pos; auto). lra.
Qed.
Lemma damped_ge l (J : mat RN) x i : 0 <= l -> (i < mcols J)%nat -> l * (nth i x 0 * nth i x 0) <= damped_sq l J x.
Proof.
  intros Hl Hi. unfold damped_sq. pose proof (image_nonneg J x).
  pose proof (term_le (mcols J) (fun j => nth j x 0 * nth j x 0) i (fun k _ => Rle_0_sqr _) Hi) as T. cbv beta in T.
  apply (Rmult_le_compat_l l) in T; auto. lra.
Qed.
Lemma damped_definite l (J : mat RN) : 0 < l -> definite_mat (add_diag l (jtj J)).
Proof.
  intros Hl x _ (i & Hi & Hx). rewrite damped_form. change (mrows (add_diag l (jtj J))) with (mcols J) in Hi.
  pose proof (damped_ge l J x i (Rlt_le _ _ Hl) Hi) as G. assert (0 < nth i x 0 * nth i x 0) by (apply Rsqr_pos_lt; auto).
  assert (0 < l * (nth i x 0 * nth i x 0)) by (apply Rmult_lt_0_compat; auto). lra.
Qed.
(** J^T J is definite unless there is an unobservable direction *)
Lemma image_zero (J : mat RN) x : image_sq J x = 0 -> forall k, (k < mrows J)%nat -> rsum (mcols J) (fun j => mat_at J k j * nth j x 0) = 0.
Proof.
  intros E k Hk. pose proof (term_le (mrows J) (fun k => rsum (mcols J) (fun j => mat_at J k j * nth j x 0) * rsum (mcols J) (fun j => mat_at J k j * nth j x 0)) k
    (fun k _ => Rle_0_sqr _) Hk) as T. unfold image_sq in E. rewrite E in T. cbv beta in T. apply Rsqr_0_uniq. unfold Rsqr.
  pose proof (Rle_0_sqr (rsum (mcols J) (fun j => mat_at J k j * nth j x 0))) as T2. unfold Rsqr in T2. apply Rle_antisym; auto.
Qed.
Lemma gram_definite (J : mat RN) : (forall x, ~ unobservable J x) -> definite_mat (jtj J).
Proof.
  intros U x Hl Hx. rewrite gram_form. destruct (image_nonneg J x) as [P|P]; auto. exfalso. apply (U x). split; [exact Hl|]. split; [exact Hx|]. apply image_zero. auto.
Qed.
Lemma definite_observable (J : mat RN) : definite_mat (jtj J) -> forall x, ~ unobservable J x.
Proof.
  intros D x (L & Hx & Z). specialize (D x L Hx). rewrite gram_form in D. unfold image_sq in D. rewrite rsum_zero in D; [lra|]. intros k Hk. rewrite Z by auto. ring.
Qed.
Lemma damped_zero (J : mat RN) x : damped_sq 0 J x = image_sq J x. Proof. unfold damped_sq. ring. Qed.
Lemma factorising_exact {S} (SV : solver RN S) : factorising_solver SV -> exact_solver SV.
Proof.
  intros (holds & A & B & C & _). exists holds. split; [exact A|]. split.
  - intros s H b s' x Hh E. destruct (B _ _ _ _ _ Hh E) as (B1 & B2 & B3). split; auto. rewrite B2. auto.
  - intros s H X s' x Hh E E2. destruct (C _ _ _ _ _ Hh E E2) as (B1 & B2 & B3). split; auto. rewrite B2. auto.
Qed.
