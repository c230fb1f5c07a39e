(** Levenberg-Marquardt on linear problems: no step leads away from an optimum. *)
From Coq Require Import List Arith ZArith QArith Bool Reals Lra Lia Psatz.
From Verif Require Import Base Sparse Graph SpecGraph SpecOpt ListLemmas GraphLayout GraphFin Optimizer OptWork OptMore Real RSum SpecSolver SpecSteps OptSteps OptLinear OptVerdict SpecRest OptOrder OptOrderRun MarginalRun OptLemmas CovRun Info SpecContract Contract SpecNearer.
Import ListNotations.
Local Open Scope nat_scope.
Set Bullet Behavior "Strict Subproofs".

Lemma fold_sq (l : list R) : fold_right (fun x s => x * x + s)%R 0%R l = rsum (length l) (fun j => nth j l 0 * nth j l 0)%R.
Proof.
  induction l as [|x l IH]; [reflexivity|]. cbn [fold_right length]. rewrite IH. clear IH. induction (length l) as [|n IH]; [cbn; ring|].
  cbn [rsum] in *. rewrite <- Rplus_assoc, IH. cbn [nth]. reflexivity.
Qed.

Lemma Rmult_le_0_l' (x y : R) : (0 <= x -> y <= 0 -> x * y <= 0)%R.
Proof. intros. nra. Qed.

Section Nearer.
Context {V : Type} (VC : vclass RN V).
Notation factor := (factor (N:=RN) (V:=V)).
Hypothesis Hok : vclass_ok VC.
Context (h0 : @heap V) (vs : list addr) (fs : list factor) (rate : R).
Hypothesis Nd : NoDup vs.
Hypothesis Hl : Forall (fun a => a < length h0) vs.
Hypothesis W : Forall (factor_wf VC h0 vs) fs.
Hypothesis HL : linear_problem VC h0 vs fs.
Context (hs : @heap V) (J : mat RN) (r0 rs : list R).
Hypothesis Rs : reach VC h0 vs hs.
Hypothesis HJ : jacobian_at VC h0 vs fs J.
Hypothesis S0 : stacked h0 fs r0.
Hypothesis Ss : stacked hs fs rs.
Hypothesis St : forall i, i < mcols J -> rsum (mrows J) (fun k => mat_at J k i * nth k rs 0)%R = 0%R.
Notation d := (Contract.d VC h0 vs).
Definition gap (h : @heap V) : R := rsum (mcols J) (fun j => (d h j - d hs j) * (d h j - d hs j))%R.

Lemma gap_distance h : reach VC h0 vs h -> distance_sq VC hs h vs = gap h.
Proof.
  intros Rh. unfold distance_sq. rewrite fold_sq. assert (Ed : differences VC hs h vs = diffs VC hs h vs) by (unfold differences, diffs; apply flat_map_concat_map). rewrite Ed.
  destruct (cols VC Hok h0 vs Hl hs Rs) as (Tc & Cs). pose proof HJ as (jss & _ & (_ & Jc & _)).
  assert (Ra : reassigned VC hs h vs).
  { destruct Rs as (_ & (L1 & A1)), Rh as (_ & (L2 & A2)). split; [congruence|]. intros a v Hv.
    assert (La : a < length h0) by (rewrite <- L1; apply nth_error_Some; congruence). destruct (nth_error h0 a) as [u|] eqn:Eu; [|apply nth_error_None in Eu; lia].
    destruct (A1 a u Eu) as (v1 & P1 & P2 & P3 & P4 & P5 & P6). destruct (A2 a u Eu) as (v2 & Q1 & Q2 & Q3 & Q4 & Q5 & Q6). assert (v1 = v) by congruence. subst v1.
    exists v2. split; [exact Q1|]. split; [congruence|]. split; [congruence|]. split; [congruence|]. split.
    - intros H. rewrite P4 in H. rewrite (Q5 H), (P5 H). reflexivity.
    - intros C Ha. rewrite P4 in C. rewrite (Q6 C Ha). congruence. }
  rewrite (diffs_length VC hs h vs Ra), Tc. unfold gap. rewrite Jc. apply rsum_ext. intros j Hj.
  destruct (index_of VC h0 vs j Hj) as (m & a & v & c & I1 & I2 & I3 & I4 & ->).
  destruct (proj2 (proj2 Rs) a v I2) as (v1 & P1 & P2 & P3 & P4 & _). destruct (proj2 (proj2 Rh) a v I2) as (v2 & Q1 & _).
  assert (E : nth (col_start VC h0 vs m + c) (diffs VC hs h vs) 0%R = (nth c (vval VC v2) 0 - nth c (vval VC v1) 0)%R).
  { rewrite <- Cs. apply (diffs_nth VC hs h vs m a v1 v2 c Ra I1 P1 Q1); [congruence|lia]. }
  rewrite E, (d_at VC h0 vs h m a v v2 c Rh I1 I2 Q1 I3 I4), (d_at VC h0 vs hs m a v v1 c Rs I1 I2 P1 I3 I4). ring.
Qed.

Lemma towards_damped l (e x r : nat -> R) (Hr : forall k, k < mrows J -> r k = (nth k rs 0 + rsum (mcols J) (fun j => mat_at J k j * e j))%R)
  (D : forall i, i < mcols J -> (rsum (mcols J) (fun j => rsum (mrows J) (fun k => mat_at J k i * mat_at J k j) * x j) + l * x i = - rsum (mrows J) (fun k => mat_at J k i * r k))%R) :
  (0 < l)%R -> (rsum (mcols J) (fun j => x j * x j) + rsum (mcols J) (fun j => x j * e j) <= 0)%R.
Proof.
  intros Pl. set (y := fun j => (x j + e j)%R). set (Jy := fun k => rsum (mcols J) (fun j => mat_at J k j * y j)%R).
  assert (G : forall i, i < mcols J -> rsum (mrows J) (fun k => mat_at J k i * Jy k)%R = (- l * x i)%R).
  { intros i Hi. specialize (D i Hi).
    rewrite (rsum_ext _ (fun k => mat_at J k i * r k)%R (fun k => mat_at J k i * nth k rs 0 + mat_at J k i * rsum (mcols J) (fun j => mat_at J k j * e j))%R) in D by (intros k Hk; rewrite (Hr k Hk); ring).
    rewrite rsum_plus, (St i Hi) in D.
    rewrite (rsum_ext _ (fun j => rsum (mrows J) (fun k => mat_at J k i * mat_at J k j) * x j)%R (fun j => rsum (mrows J) (fun k => mat_at J k i * (mat_at J k j * x j)))%R) in D
      by (intros j Hj; rewrite <- rsum_scal_r; apply rsum_ext; intros; ring).
    rewrite rsum_swap in D. unfold Jy, y.
    rewrite (rsum_ext _ _ (fun k => rsum (mcols J) (fun j => mat_at J k i * (mat_at J k j * x j)) + mat_at J k i * rsum (mcols J) (fun j => mat_at J k j * e j))%R).
    2: { intros k Hk. rewrite rsum_scal. rewrite <- Rmult_plus_distr_l, <- rsum_plus. f_equal. apply rsum_ext. intros; ring. }
    rewrite rsum_plus. lra. }
  assert (P : (0 <= rsum (mcols J) (fun i => y i * (- l * x i)))%R).
  { rewrite (rsum_ext _ _ (fun i => rsum (mrows J) (fun k => mat_at J k i * y i * Jy k)))%R by (intros i Hi; rewrite <- (G i Hi), <- rsum_scal; apply rsum_ext; intros; ring).
    rewrite rsum_swap. apply rsum_nonneg. intros k Hk. rewrite rsum_scal_r. fold (Jy k). apply Rle_0_sqr. }
  rewrite (rsum_ext _ _ (fun i => - l * (x i * x i + x i * e i))%R) in P by (intros i Hi; unfold y; ring). rewrite rsum_scal, rsum_plus in P. nra.
Qed.
Lemma nearer h h1 l r r1 : reach VC h0 vs h -> (0 < l)%R -> (0 < rate < 2)%R -> newton_step VC vs fs rate l h h1 -> stacked h fs r -> stacked h1 fs r1 ->
  (sqnorm (N:=RN) r1 <> sqnorm (N:=RN) r)%R -> (gap h1 < gap h)%R.
Proof.
  intros Rh Pl Pr Nw Hr Hr1 Ne. destruct (newton VC Hok h0 vs fs rate Hl HL h h1 J l Rh HJ Nw) as (r' & x & A & (D1 & D2) & Rh1 & E). pose proof (stacked_fun _ _ _ _ A Hr) as ->.
  set (e := fun j => (d h j - d hs j)%R).
  pose proof (towards_damped l e (fun j => nth j x 0%R) (fun k => nth k r 0%R)) as T.
  assert (T' : (rsum (mcols J) (fun j => nth j x 0 * nth j x 0) + rsum (mcols J) (fun j => nth j x 0 * e j) <= 0)%R).
  { apply T; [|exact D2|exact Pl]. intros k Hk. exact (from_optimum VC h0 vs fs Nd W HL hs J r0 rs Rs HJ S0 Ss h r k (proj2 Rh) Hr Hk). }
  assert (Q : gap h1 = (gap h + (2 * rate * rsum (mcols J) (fun j => nth j x 0 * e j) + rate * rate * rsum (mcols J) (fun j => nth j x 0 * nth j x 0)))%R).
  { unfold gap. rewrite <- !rsum_scal, <- !rsum_plus. apply rsum_ext. intros j Hj. rewrite (E j Hj). unfold e. ring. }
  assert (X : (0 < rsum (mcols J) (fun j => nth j x 0 * nth j x 0))%R).
  { destruct (Rle_lt_or_eq_dec 0 (rsum (mcols J) (fun j => nth j x 0 * nth j x 0)%R)) as [X|X]; [apply rsum_nonneg; intros; apply Rle_0_sqr|exact X|exfalso].
    apply Ne. rewrite (cost_at VC h0 vs fs Nd W HL hs J r0 rs Rs HJ S0 Ss St h1 r1 (proj2 Rh1) Hr1), (cost_at VC h0 vs fs Nd W HL hs J r0 rs Rs HJ S0 Ss St h r (proj2 Rh) Hr). f_equal.
    apply rsum_ext. intros i Hi. assert (Z : forall j, j < mcols J -> nth j x 0%R = 0%R).
    { intros j Hj. exact (Rsqr_0_uniq _ (MarginalMore.rsum_sq_zero _ (fun j => nth j x 0%R) (eq_sym X) j Hj)). }
    assert (Y : rsum (mcols J) (fun j => mat_at J i j * (d h1 j - d hs j))%R = rsum (mcols J) (fun j => mat_at J i j * (d h j - d hs j))%R).
    { apply rsum_ext. intros j Hj. rewrite (E j Hj), (Z j Hj). ring. }
    rewrite Y. reflexivity. }
  rewrite Q. revert T' X. generalize (rsum (mcols J) (fun j => nth j x 0 * nth j x 0)%R) as a. generalize (rsum (mcols J) (fun j => nth j x 0 * e j)%R) as b. intros b a T' X.
  assert (0 < (2 - rate) * (rate * a))%R by (apply Rmult_lt_0_compat; [lra|apply Rmult_lt_0_compat; lra]).
  assert (rate * (a + b) <= 0)%R by (apply Rmult_le_0_l'; lra). lra.
Qed.
End Nearer.
