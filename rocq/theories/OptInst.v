(** The comparison laws assumed by the optimiser theorems hold for doubles and for the reals. *)
From Coq Require Import List Arith ZArith QArith Bool Reals Psatz Lra.
From Flocq Require Import Core.
From Flocq.IEEE754 Require Import BinarySingleNaN.
From Verif Require Import Base SpecOpt Float Real.

Lemma double_cost_order (L : libm) : cost_order (N:=BN L).
Proof. split; [exact b_trans|exact b_half|exact b_half_comm]. Qed.

Lemma Bltb_fin (a b : b64) : is_finite a = true -> is_finite b = true -> Bltb a b = true <-> (B2R a < B2R b)%R.
Proof. intros Fx Fy. rewrite Bltb_correct by auto. destruct (Rlt_bool_spec (B2R a) (B2R b)); split; intros; auto; try discriminate. lra. Qed.
Lemma Bltb_fin_false (a b : b64) : is_finite a = true -> is_finite b = true -> Bltb a b = false <-> (B2R b <= B2R a)%R.
Proof. intros Fx Fy. rewrite Bltb_correct by auto. destruct (Rlt_bool_spec (B2R a) (B2R b)); split; intros; auto; try discriminate. lra. Qed.

Definition blimit : b64 := b_of_Q 1000000000000.
Lemma blimit_R : B2R blimit = 1000000000000%R /\ is_finite blimit = true.
Proof.
  assert (H : B2SF blimit = SpecFloat.S754_finite false 8192000000000000 (-13)) by (vm_compute; reflexivity).
  assert (H2 : SF2R radix2 (B2SF blimit) = B2R blimit) by apply SF2R_B2SF.
  rewrite <- H2, H. split.
  - simpl. unfold F2R. simpl. lra.
  - rewrite <- is_finite_SF_B2SF, H. reflexivity.
Qed.
Lemma two_limit : generic_format radix2 (SpecFloat.fexp 53 1024) 2000000000000%R.
Proof.
  replace 2000000000000%R with (B2R (b_of_Z 2000000000000)); [apply generic_format_B2R|].
  assert (H : B2SF (b_of_Z 2000000000000) = SpecFloat.S754_finite false 8192000000000000 (-12)) by (vm_compute; reflexivity).
  rewrite <- SF2R_B2SF, H. simpl. unfold F2R. simpl. lra.
Qed.
Lemma limit_format : generic_format radix2 (SpecFloat.fexp 53 1024) 1000000000000%R.
Proof. rewrite <- (proj1 blimit_R). apply generic_format_B2R. Qed.

Lemma b_cov_half (x : b64) : is_finite x = true -> Bltb blimit x = false -> Bltb blimit (bmul bhalf (badd x x)) = false.
Proof.
  intros Fx H. destruct blimit_R as (HL & FL). apply Bltb_fin_false in H; auto. rewrite HL in H.
  pose proof (@Bplus_correct 53 1024 P53 PE mode_NE x x Fx Fx) as M. fold badd in M. simpl round_mode in M.
  destruct (Rlt_bool _ _) eqn:Eb in M.
  - destruct M as (M1 & M2 & _). destruct (half_finite _ M2) as (G1 & G2).
    apply Bltb_fin_false; auto. rewrite HL, G2, M1.
    assert (V : Valid_exp (SpecFloat.fexp 53 1024)) by (apply (fexp_correct 53 1024); exact P53).
    rewrite <- (round_generic radix2 (SpecFloat.fexp 53 1024) ZnearestE _ limit_format).
    apply round_le; auto with typeclass_instances.
    assert ((round radix2 (SpecFloat.fexp 53 1024) ZnearestE (B2R x + B2R x) <= 2000000000000)%R).
    { rewrite <- (round_generic radix2 (SpecFloat.fexp 53 1024) ZnearestE _ two_limit). apply round_le; auto with typeclass_instances. lra. }
    lra.
  - destruct M as (M1 & _). destruct (Bsign x) eqn:Sx.
    + assert (badd x x = B754_infinity true) as ->.
      { destruct (badd x x) as [s|s| |s m e B]; simpl in M1; try discriminate. destruct s; [reflexivity|discriminate]. }
      rewrite half_inf. vm_compute. reflexivity.
    + exfalso. assert (0 <= B2R x)%R.
      { destruct x as [|s| |s m e B]; simpl in *; try discriminate; try lra. subst s. apply F2R_ge_0. simpl. lia. }
      destruct (Rlt_bool_spec (Rabs (round radix2 (SpecFloat.fexp 53 1024) ZnearestE (B2R x + B2R x))) (bpow radix2 1024)) as [|B]; [discriminate|].
      assert (V : Valid_exp (SpecFloat.fexp 53 1024)) by (apply (fexp_correct 53 1024); exact P53).
      assert ((Rabs (round radix2 (SpecFloat.fexp 53 1024) ZnearestE (B2R x + B2R x)) <= 2000000000000)%R).
      { apply abs_round_le_generic; auto with typeclass_instances; [apply two_limit|]. rewrite Rabs_pos_eq; lra. }
      assert (bpow radix2 41 <= bpow radix2 1024)%R by (apply bpow_le; lia).
      assert (bpow radix2 41 = 2199023255552)%R by (simpl; lra). lra.
Qed.

Lemma double_cov_order (L : libm) : cov_order (BN L).
Proof.
  destruct blimit_R as (HL & FL). split.
  - intros x y. apply (b_trans blimit).
  - intros m y Fm Fy A B. apply (Bltb_fin_false blimit y); auto. apply (Bltb_fin_false blimit m) in A; auto. apply (Bltb_fin_false m y) in B; auto. lra.
  - intros x. apply b_cov_half.
Qed.

Lemma real_cov_order : cov_order RN.
Proof.
  split; unfold cov_limit; simpl; intros.
  - rewrite Rltb_true in *. lra.
  - rewrite Rltb_false in *. lra.
  - rewrite Rltb_false in *. change (Q2R (1#2)) with (nlit (1#2) : RN). rewrite lit_half. lra.
Qed.
