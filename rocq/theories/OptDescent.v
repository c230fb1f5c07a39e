(** A solution of the damped normal equations is a descent direction of |r|^2. *)
From Coq Require Import List Arith ZArith Bool Lia Reals Lra.
From Verif Require Import Base Sparse Real RSum SpecSteps.
Import ListNotations.
Local Open Scope R_scope.

Lemma rsum_pos n f k : (forall i, (i < n)%nat -> 0 <= f i) -> (k < n)%nat -> 0 < f k -> 0 < rsum n f.
Proof.
  induction n; simpl; intros H Hk Hf; [lia|]. assert (0 <= f n) by (apply H; lia). assert (0 <= rsum n f) by (apply rsum_nonneg; intros; apply H; lia).
  destruct (Nat.eq_dec k n) as [->|]; [lra|]. assert (0 < rsum n f) by (apply IHn; auto; lia). lra.
Qed.
Section Descent.
Context (l : R) (J : mat RN) (r x : list R).
Let g (i : nat) : R := rsum (mrows J) (fun k => mat_at J k i * nth k r 0).
Let Jx (k : nat) : R := rsum (mcols J) (fun i => mat_at J k i * nth i x 0).
Hypothesis H : damped_solution l J r x.
Lemma slope : rsum (mcols J) (fun i => g i * nth i x 0) = - (rsum (mrows J) (fun k => Jx k * Jx k) + l * rsum (mcols J) (fun i => nth i x 0 * nth i x 0)).
Proof.
  destruct H as (_ & E).
  transitivity (rsum (mcols J) (fun i => - 1 * (rsum (mcols J) (fun j => rsum (mrows J) (fun k => mat_at J k i * mat_at J k j) * nth j x 0) * nth i x 0
     + l * (nth i x 0 * nth i x 0)))).
  - apply rsum_ext. intros i Hi. specialize (E i Hi). unfold g. 
    match type of E with ?a = - ?b => assert (X : b = - a) by lra; rewrite X end. ring.
  - rewrite rsum_scal, rsum_plus, rsum_scal.
    assert (X : rsum (mcols J) (fun i => rsum (mcols J) (fun j => rsum (mrows J) (fun k => mat_at J k i * mat_at J k j) * nth j x 0) * nth i x 0)
      = rsum (mrows J) (fun k => Jx k * Jx k)).
    { transitivity (rsum (mcols J) (fun i => rsum (mrows J) (fun k => mat_at J k i * nth i x 0 * Jx k))).
      - apply rsum_ext. intros i Hi. rewrite <- rsum_scal_r.
        transitivity (rsum (mcols J) (fun j => rsum (mrows J) (fun k => mat_at J k i * nth i x 0 * (mat_at J k j * nth j x 0)))).
        + apply rsum_ext. intros j Hj. rewrite <- !rsum_scal_r. apply rsum_ext. intros k Hk. match goal with |- ?a = ?b => change (@eq R a b) end. ring.
        + rewrite rsum_swap. apply rsum_ext. intros k Hk. unfold Jx. rewrite <- rsum_scal. reflexivity.
      - rewrite rsum_swap. apply rsum_ext. intros k Hk. rewrite rsum_scal_r. reflexivity. }
    rewrite X. lra.
Qed.
Theorem descent_weak : 0 <= l -> rsum (mcols J) (fun i => g i * nth i x 0) <= 0.
Proof.
  intros Hl. rewrite slope. assert (0 <= rsum (mrows J) (fun k => Jx k * Jx k)) by (apply rsum_nonneg; intros; apply Rle_0_sqr).
  assert (0 <= rsum (mcols J) (fun i => nth i x 0 * nth i x 0)) by (apply rsum_nonneg; intros; apply Rle_0_sqr).
  pose proof (Rmult_le_pos _ _ Hl H1). lra.
Qed.
Theorem descent i : 0 <= l -> (i < mcols J)%nat -> g i <> 0 -> rsum (mcols J) (fun i => g i * nth i x 0) < 0.
Proof.
  intros Hl Hi Hg. rewrite slope.
  assert (A : 0 <= rsum (mrows J) (fun k => Jx k * Jx k)) by (apply rsum_nonneg; intros; apply Rle_0_sqr).
  assert (B : 0 <= rsum (mcols J) (fun i => nth i x 0 * nth i x 0)) by (apply rsum_nonneg; intros; apply Rle_0_sqr).
  assert (C : 0 <= l * rsum (mcols J) (fun i => nth i x 0 * nth i x 0)) by (apply Rmult_le_pos; auto).
  destruct (Rlt_dec 0 (rsum (mrows J) (fun k => Jx k * Jx k))) as [P|P]; [lra|].
  assert (Z : forall k, (k < mrows J)%nat -> Jx k = 0).
  { intros k Hk. destruct (Req_dec (Jx k) 0) as [|n]; auto. exfalso. apply P. apply (rsum_pos _ _ k); auto; [intros; apply Rle_0_sqr|].
    pose proof (Rlt_0_sqr _ n) as Q. exact Q. }
  destruct H as (_ & E). specialize (E i Hi). fold (g i) in E.
  assert (Y : rsum (mcols J) (fun j => rsum (mrows J) (fun k => mat_at J k i * mat_at J k j) * nth j x 0) = 0).
  { transitivity (rsum (mrows J) (fun k => mat_at J k i * Jx k)).
    - transitivity (rsum (mcols J) (fun j => rsum (mrows J) (fun k => mat_at J k i * (mat_at J k j * nth j x 0)))).
      + apply rsum_ext. intros j Hj. rewrite <- rsum_scal_r. apply rsum_ext. intros k Hk. match goal with |- ?a = ?b => change (@eq R a b) end. ring.
      + rewrite rsum_swap. apply rsum_ext. intros k Hk. rewrite rsum_scal. reflexivity.
    - apply rsum_zero. intros k Hk. rewrite (Z k Hk). match goal with |- ?a = ?b => change (@eq R a b) end. ring. }
  rewrite Y in E.
  assert (L : l <> 0) by (intros L; rewrite L in E; lra).
  assert (X : nth i x 0 <> 0) by (intros X; rewrite X in E; lra).
  assert (0 < rsum (mcols J) (fun i => nth i x 0 * nth i x 0)).
  { apply (rsum_pos _ _ i); auto; [intros; apply Rle_0_sqr|]. pose proof (Rlt_0_sqr _ X) as Q. exact Q. }
  assert (0 < l * rsum (mcols J) (fun i => nth i x 0 * nth i x 0)) by (apply Rmult_lt_0_compat; lra). lra.
Qed.
End Descent.
