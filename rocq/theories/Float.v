(** IEEE binary64 scalars (Flocq).  The libm functions are parameters; a witness that needs them says so. *)
From Coq Require Import List Arith ZArith QArith Bool Reals Psatz Lra.
From Flocq Require Import Core.
From Flocq.IEEE754 Require Import BinarySingleNaN.
From Verif Require Import Base.

Notation b64 := (binary_float 53 1024).
Definition P53 : Prec_gt_0 53 := eq_refl.
Definition PE : Prec_lt_emax 53 1024 := eq_refl.
Definition bmul : b64 -> b64 -> b64 := @Bmult 53 1024 P53 PE mode_NE.
Definition badd : b64 -> b64 -> b64 := @Bplus 53 1024 P53 PE mode_NE.
Definition bsub : b64 -> b64 -> b64 := @Bminus 53 1024 P53 PE mode_NE.
Definition bdiv : b64 -> b64 -> b64 := @Bdiv 53 1024 P53 PE mode_NE.
Definition bsqrt : b64 -> b64 := @Bsqrt 53 1024 P53 PE mode_NE.

Record libm : Type := Libm {
  lm_sin : b64 -> b64; lm_cos : b64 -> b64; lm_tan : b64 -> b64; lm_acos : b64 -> b64; lm_atan2 : b64 -> b64 -> b64 }.
(** integers up to 2^53 in absolute value are exact *)
Definition b_of_Z (z : Z) : b64 := @binary_normalize 53 1024 P53 PE mode_NE z 0 false.
(** a literal n/d with n, d <= 2^53 is the correctly rounded quotient, i.e. the double nearest to the decimal constant *)
Definition b_of_Q (q : Q) : b64 := bdiv (b_of_Z (Qnum q)) (b_of_Z (Zpos (Qden q))).
Definition BN (L : libm) : num :=
  MkNum b64 badd bsub bmul bdiv (@Bopp 53 1024) (@Babs 53 1024) bsqrt
        (lm_sin L) (lm_cos L) (lm_tan L) (lm_acos L) (lm_atan2 L) (@Bltb 53 1024) (@Bleb 53 1024) (@is_finite 53 1024) b_of_Q.
Definition bnan : b64 := B754_nan.
Definition binf : b64 := B754_infinity false.

(** class of a double: below, among or above the finite numbers *)
Definition bcls (x : b64) : option Z :=
  match x with B754_nan => None | B754_infinity s => Some (if s then -1 else 1)%Z | _ => Some 0%Z end.
Lemma Bltb_spec (a b : b64) : Bltb a b = true <->
  exists ka kb, bcls a = Some ka /\ bcls b = Some kb /\ ((ka < kb)%Z \/ (ka = 0%Z /\ kb = 0%Z /\ (B2R a < B2R b)%R)).
Proof.
  assert (F : forall a b : b64, is_finite a = true -> is_finite b = true -> Bltb a b = true <-> (B2R a < B2R b)%R).
  { intros x y Fx Fy. rewrite Bltb_correct by auto. destruct (Rlt_bool_spec (B2R x) (B2R y)); split; intros; auto; try discriminate. lra. }
  assert (K : forall x : b64, is_finite x = true -> bcls x = Some 0%Z) by (intros [?|?| |] Hx; try discriminate; reflexivity).
  destruct (is_finite a) eqn:Fa, (is_finite b) eqn:Fb.
  - rewrite F, !K by auto. split.
    + intros H. exists 0%Z, 0%Z. split; auto.
    + intros (ka & kb & A & B & [C|(_ & _ & C)]); auto. inversion A; inversion B; subst; lia.
  - rewrite (K a) by auto. destruct b as [?|[]| |]; try discriminate; simpl bcls.
    + split; [destruct a; discriminate|]. intros (ka & kb & A & B & C). inversion A; inversion B; subst. lia.
    + split; [|destruct a; try discriminate; reflexivity]. intros _. exists 0%Z, 1%Z. split; auto. split; auto. left. lia.
    + split; [destruct a; discriminate|]. intros (ka & kb & A & B & C). discriminate.
  - rewrite (K b) by auto. destruct a as [?|[]| |]; try discriminate; simpl bcls.
    + split; [|destruct b; try discriminate; reflexivity]. intros _. exists (-1)%Z, 0%Z. split; auto. split; auto. left. lia.
    + split; [destruct b; discriminate|]. intros (ka & kb & A & B & C). inversion A; inversion B; subst. lia.
    + split; [destruct b; discriminate|]. intros (ka & kb & A & B & C). discriminate.
  - destruct a as [?|[]| |], b as [?|[]| |]; try discriminate; simpl bcls;
      (split; [intros H; try discriminate H; try (exists (-1)%Z, 1%Z; split; [reflexivity|split; [reflexivity|left; lia]])
              |intros (ka & kb & A & B & C); try discriminate; try reflexivity; inversion A; inversion B; subst; lia]).
Qed.
Lemma b_trans (a b c : b64) : Bltb a b = true -> Bltb b c = true -> Bltb a c = true.
Proof.
  rewrite !Bltb_spec. intros (ka & kb & A & B & H1) (kb' & kc & B' & C & H2). exists ka, kc. split; auto. split; auto.
  assert (kb' = kb) by congruence. subst. destruct H1 as [H1|(? & ? & H1)], H2 as [H2|(? & ? & H2)]; subst; try (left; lia). right. split; auto. split; auto. lra.
Qed.
Definition bhalf : b64 := b_of_Q (1#2).
Lemma bhalf_R : B2R bhalf = (/2)%R /\ is_finite bhalf = true /\ Bsign bhalf = false.
Proof.
  assert (H : B2SF bhalf = SpecFloat.S754_finite false 4503599627370496 (-53)) by (vm_compute; reflexivity).
  assert (H2 : SF2R radix2 (B2SF bhalf) = B2R bhalf) by apply SF2R_B2SF.
  rewrite <- H2, H. split; [|split].
  - simpl. unfold F2R. simpl. lra.
  - rewrite <- is_finite_SF_B2SF, H. reflexivity.
  - vm_compute. reflexivity.
Qed.
Lemma half_finite (x : b64) : is_finite x = true ->
  is_finite (bmul bhalf x) = true /\ B2R (bmul bhalf x) = round radix2 (SpecFloat.fexp 53 1024) ZnearestE (/2 * B2R x).
Proof.
  intros Fx. destruct bhalf_R as (H1 & H2 & _).
  pose proof (@Bmult_correct 53 1024 P53 PE mode_NE bhalf x) as M. fold bmul in M. simpl round_mode in M. rewrite H1, H2, Fx in M.
  rewrite Rlt_bool_true in M; [destruct M as (M1 & M2 & _); auto|].
  apply Rle_lt_trans with (Rabs (B2R x)); [|apply abs_B2R_lt_emax].
  assert (G : generic_format radix2 (SpecFloat.fexp 53 1024) (B2R x)) by apply generic_format_B2R.
  apply abs_round_le_generic; auto with typeclass_instances.
  - apply (fexp_correct 53 1024). exact P53.
  - apply generic_format_abs. exact G.
  - rewrite Rabs_mult, (Rabs_pos_eq (/2)) by lra. pose proof (Rabs_pos (B2R x)). lra.
Qed.
Lemma half_inf s : bmul bhalf (B754_infinity s) = B754_infinity s.
Proof.
  unfold bmul. destruct bhalf_R as (H1 & H2 & H3). destruct bhalf as [?|?| |s0 m e Hb]; simpl in *; try discriminate; try lra.
  subst s0. destruct s; reflexivity.
Qed.
Lemma half_nan : bmul bhalf B754_nan = B754_nan.
Proof. unfold bmul. destruct bhalf; reflexivity. Qed.
Lemma bcls_half x : bcls (bmul bhalf x) = bcls x.
Proof.
  destruct (is_finite x) eqn:F.
  - destruct (half_finite x F) as (G & _). destruct x; try discriminate; destruct (bmul bhalf _); try discriminate; reflexivity.
  - destruct x; try discriminate; [rewrite half_inf|rewrite half_nan]; reflexivity.
Qed.
Lemma bcls_fin x : bcls x = Some 0%Z -> is_finite x = true.
Proof. destruct x as [?|[]| |]; simpl; intros; try discriminate; auto. Qed.
Lemma b_half (a b : b64) : Bltb (bmul bhalf a) (bmul bhalf b) = true -> Bltb a b = true.
Proof.
  rewrite !Bltb_spec, !bcls_half. intros (ka & kb & A & B & H). exists ka, kb. split; auto. split; auto.
  destruct H as [H|(-> & -> & H)]; auto. right. split; auto. split; auto.
  destruct (half_finite a (bcls_fin _ A)) as (_ & Ea). destruct (half_finite b (bcls_fin _ B)) as (_ & Eb).
  rewrite Ea, Eb in H. destruct (Rlt_or_le (B2R a) (B2R b)); auto. exfalso. apply Rlt_not_le in H. apply H.
  apply round_le; auto with typeclass_instances; [apply (fexp_correct 53 1024); exact P53|lra].
Qed.
Lemma b_half_comm (c : b64) : Bltb (bmul bhalf c) (bmul c bhalf) = false.
Proof.
  destruct (Bltb _ _) eqn:E; auto. exfalso. apply Bltb_spec in E. destruct E as (ka & kb & A & B & H).
  assert (X : bcls (bmul c bhalf) = bcls (bmul bhalf c) /\ (is_finite c = true -> B2R (bmul c bhalf) = B2R (bmul bhalf c))).
  { destruct (is_finite c) eqn:F.
    - destruct (half_finite c F) as (G & Eh).
      pose proof (@Bmult_correct 53 1024 P53 PE mode_NE c bhalf) as M. fold bmul in M. simpl round_mode in M. destruct bhalf_R as (H1 & H2 & _). rewrite H1, H2, F in M.
      rewrite (Rmult_comm _ (/2)) in M. rewrite <- Eh in M. rewrite Rlt_bool_true in M by apply abs_B2R_lt_emax. destruct M as (M1 & M2 & _).
      split; auto. destruct (bmul c bhalf); try discriminate; destruct (bmul bhalf c); try discriminate; reflexivity.
    - split; [|discriminate]. rewrite bcls_half. unfold bmul. destruct bhalf_R as (H1 & H2 & H3). destruct bhalf as [?|?| |s0 m e Hb]; simpl in *; try discriminate; try lra.
      subst s0. destruct c as [?|[]| |]; try discriminate; reflexivity. }
  destruct X as (X1 & X2). rewrite X1, A in B. inversion B; subst. destruct H as [H|(-> & _ & H)]; [lia|].
  rewrite bcls_half in A. rewrite X2 in H; [lra|]. apply bcls_fin; auto.
Qed.
