(** Proofs for PropsTools: the stopwatch in IEEE doubles. *)
From Coq Require Import List Arith ZArith QArith Bool Reals Psatz Lra.
From Flocq Require Import Core.
From Flocq.IEEE754 Require Import BinarySingleNaN.
From Verif Require Import Base Float Stopwatch SpecTools StopwatchFacts.
Import ListNotations.
Set Bullet Behavior "Strict Subproofs".
Local Open Scope R_scope.

(** stopwatch.hpp:30: libstdc++ converts a difference of nanoseconds to [duration<double>] by dividing the count by 1e9 *)
Definition ns_secs (L : libm) (z : Z) : BN L := bdiv (b_of_Z z) (b_of_Z 1000000000).

Definition goodb (x : b64) : Prop := (is_finite x = true /\ 0 <= B2R x) \/ x = B754_infinity false.
Definition leb_ext (x y : b64) : Prop := y = B754_infinity false \/ (is_finite x = true /\ is_finite y = true /\ B2R x <= B2R y).
Lemma leb_good x y : goodb x -> goodb y -> (Bleb x y = true <-> leb_ext x y).
Proof.
  intros [(F & P)| ->] [(F' & P')| ->]; unfold leb_ext.
  - rewrite Bleb_correct by auto. destruct (Rle_bool_spec (B2R x) (B2R y)); split; auto; try discriminate.
    + intros [->|(_ & _ & H')]; [discriminate|lra].
  - split; auto. intros _. destruct x as [?|?| |?]; try discriminate; reflexivity.
  - split.
    + intros H. destruct y as [?|?| |[]]; try discriminate.
    + intros [->|(H & _)]; [discriminate|discriminate].
  - split; auto.
Qed.
Notation rnd := (round radix2 (SpecFloat.fexp 53 1024) (round_mode mode_NE)).
Local Instance fexp_valid : Valid_exp (SpecFloat.fexp 53 1024) := (fexp_correct 53 1024 P53).
Local Instance mode_valid : Valid_rnd (round_mode mode_NE) := valid_rnd_round_mode mode_NE.
Lemma rnd_mono x y : x <= y -> rnd x <= rnd y.
Proof. apply round_le; auto with typeclass_instances. Qed.
Lemma rnd_b (x : b64) : rnd (B2R x) = B2R x.
Proof. apply round_generic; auto with typeclass_instances. apply generic_format_B2R. Qed.
Lemma rnd_pos x : 0 <= x -> 0 <= rnd x.
Proof. intros H. rewrite <- (round_0 radix2 (SpecFloat.fexp 53 1024) (round_mode mode_NE)). apply rnd_mono; auto. Qed.
(** saturating description of a correctly rounded nonnegative result *)
Definition is_rnd (x : b64) (r : R) : Prop :=
  (rnd r < bpow radix2 1024 /\ is_finite x = true /\ B2R x = rnd r) \/ (bpow radix2 1024 <= rnd r /\ x = B754_infinity false).
Lemma is_rnd_good x r : 0 <= r -> is_rnd x r -> goodb x.
Proof. intros P [(A & B & C)|(A & B)]; [left; split; auto; rewrite C; apply rnd_pos; auto|right; auto]. Qed.
Lemma is_rnd_le x y r s : r <= s -> is_rnd x r -> is_rnd y s -> leb_ext x y.
Proof.
  intros H A [(A' & B' & C')|(A' & B')]; [|left; auto]. pose proof (rnd_mono _ _ H). destruct A as [(A & B & C)|(A & B)]; [|lra].
  right. repeat split; auto. lra.
Qed.
Lemma overflow_pos (x : b64) : B2SF x = binary_overflow 53 1024 mode_NE false -> x = B754_infinity false.
Proof. intros H. destruct x as [?|?| |?]; cbn in H; try discriminate. inversion H. reflexivity. Qed.
Lemma sign_pos (x : b64) : is_finite x = true -> 0 <= B2R x -> Bsign x = true -> B2R x = 0.
Proof.
  destruct x as [s|s| |s m e B]; intros F P S; try discriminate; auto. cbn in S. subst s.
  exfalso. pose proof (F2R_lt_0 radix2 (Defs.Float radix2 (Z.neg m) e) ltac:(cbn; lia)) as Q.
  change (B2R (B754_finite true m e B)) with (F2R (Defs.Float radix2 (Z.neg m) e)) in P. lra.
Qed.
Lemma add_cases x y : is_finite x = true -> is_finite y = true -> 0 <= B2R x -> 0 <= B2R y -> is_rnd (badd x y) (B2R x + B2R y).
Proof.
  intros Fx Fy Px Py. pose proof (@Bplus_correct 53 1024 P53 PE mode_NE x y Fx Fy) as C. fold badd in C.
  assert (P : 0 <= rnd (B2R x + B2R y)) by (apply rnd_pos; lra).
  destruct (Rlt_bool_spec (Rabs (rnd (B2R x + B2R y))) (bpow radix2 1024)) as [H|H]; rewrite Rabs_pos_eq in H by auto.
  - left. destruct C as (A & B & _). auto.
  - right. split; auto. destruct C as (A & B). destruct (Bsign x) eqn:E.
    + exfalso. pose proof (sign_pos x Fx Px E) as Zx. symmetry in B. pose proof (sign_pos y Fy Py B) as Zy.
      rewrite Zx, Zy, Rplus_0_r, round_0 in H by auto with typeclass_instances. pose proof (bpow_gt_0 radix2 1024). lra.
    + apply overflow_pos. exact A.
Qed.
Lemma good_addb x y : goodb x -> goodb y -> goodb (badd x y).
Proof.
  intros [(F & P)| ->] [(F' & P')| ->].
  - eapply is_rnd_good; [|apply add_cases; auto]. lra.
  - right. destruct x as [?|?| |?]; try discriminate; reflexivity.
  - right. destruct y as [?|?| |?]; try discriminate; reflexivity.
  - right. reflexivity.
Qed.
Lemma add_inf_l y : goodb y -> badd (B754_infinity false) y = B754_infinity false.
Proof. intros [(F & P)| ->]; [destruct y as [?|?| |?]; try discriminate; reflexivity|reflexivity]. Qed.
Lemma add_inf_r y : goodb y -> badd y (B754_infinity false) = B754_infinity false.
Proof. intros [(F & P)| ->]; [destruct y as [?|?| |?]; try discriminate; reflexivity|reflexivity]. Qed.
Lemma is_rnd_self x : is_finite x = true -> is_rnd x (B2R x).
Proof. intros F. left. rewrite rnd_b. repeat split; auto. apply (Rle_lt_trans _ (Rabs (B2R x))); [apply Rle_abs|]. apply abs_B2R_lt_emax. Qed.
Lemma ofZ z : (0 <= z)%Z -> is_rnd (b_of_Z z) (IZR z).
Proof.
  intros H. pose proof (@binary_normalize_correct 53 1024 P53 PE mode_NE z 0 false) as C. fold (b_of_Z z) in C. 
  assert (E : F2R (Float radix2 z 0) = IZR z) by (unfold F2R; cbn; lra). cbv zeta in C. rewrite !E in C.
  assert (P : 0 <= rnd (IZR z)) by (apply rnd_pos; apply IZR_le; auto).
  destruct (Rlt_bool_spec (Rabs (rnd (IZR z))) (bpow radix2 1024)) as [G|G]; rewrite Rabs_pos_eq in G by auto.
  - left. destruct C as (A & B & _). auto.
  - right. split; auto. rewrite Rlt_bool_false in C by (apply IZR_le; auto). apply overflow_pos. exact C.
Qed.
Definition giga : b64 := b_of_Z 1000000000.
Lemma giga_R : is_finite giga = true /\ B2R giga = IZR 1000000000 /\ Bsign giga = false.
Proof.
  assert (E : B2SF giga = SpecFloat.S754_finite false 8388608000000000 (-23)) by (vm_compute; reflexivity).
  destruct giga as [s|s| |s m e B]; try discriminate. cbn in E. inversion E; subst. repeat split.
  unfold B2R, F2R. cbn [Fnum Fexp cond_Zopp bpow]. change (Z.pow_pos radix2 23) with 8388608%Z. lra.
Qed.
Lemma secs_rnd x : is_finite x = true -> 0 <= B2R x -> is_rnd (bdiv x giga) (B2R x / IZR 1000000000).
Proof.
  intros F P. destruct giga_R as (F' & E & S).
  pose proof (@Bdiv_correct 53 1024 P53 PE mode_NE x giga) as C. rewrite E in C. specialize (C ltac:(lra)). fold bdiv in C.
  assert (Q : 0 <= B2R x / 1000000000) by lra.
  assert (P' : 0 <= rnd (B2R x / 1000000000)) by (apply rnd_pos; auto).
  destruct (Rlt_bool_spec (Rabs (rnd (B2R x / 1000000000))) (bpow radix2 1024)) as [G|G]; rewrite Rabs_pos_eq in G by auto.
  - left. destruct C as (A & B & _). rewrite B. auto.
  - exfalso. assert (rnd (B2R x / 1000000000) <= rnd (B2R x)) by (apply rnd_mono; lra). rewrite rnd_b in H.
    pose proof (abs_B2R_lt_emax 53 1024 x). rewrite Rabs_pos_eq in H0 by auto. lra.
Qed.
Lemma div_inf : bdiv (B754_infinity false) giga = B754_infinity false.
Proof. vm_compute. reflexivity. Qed.
Lemma ns_good L z : (0 <= z)%Z -> goodb (ns_secs L z).
Proof.
  intros H. unfold ns_secs. fold giga. destruct (is_rnd_good _ _ ltac:(apply IZR_le; exact H) (ofZ z H)) as [(F & P)|E].
  - eapply is_rnd_good; [|apply secs_rnd; auto]. lra.
  - right. rewrite E. apply div_inf.
Qed.
Lemma ns_mono L y z : (0 <= y <= z)%Z -> leb_ext (ns_secs L y) (ns_secs L z).
Proof.
  intros H. unfold ns_secs. fold giga. pose proof (ofZ y ltac:(lia)) as Y. pose proof (ofZ z ltac:(lia)) as Zr.
  pose proof (is_rnd_le _ _ _ _ (IZR_le y z ltac:(lia)) Y Zr) as [E|(A & B & C)].
  - left. rewrite E. apply div_inf.
  - assert (P : 0 <= B2R (b_of_Z y)).
    { destruct (is_rnd_good _ _ (IZR_le 0 y ltac:(lia)) Y) as [(_ & P)|E]; [exact P|]. rewrite E in A. discriminate. }
    assert (Pz : 0 <= B2R (b_of_Z z)) by lra. refine (is_rnd_le _ _ _ _ _ (secs_rnd _ A P) (secs_rnd _ B Pz)). lra.
Qed.
Lemma watch_mono_double L t0 cs t cs' t' : nondecreasing t0 (cs ++ [(WElapsed, t)] ++ cs' ++ [(WElapsed, t')]) -> existsb is_reset cs' = false ->
  Bleb (w_elapsed (N:=BN L) (ns_secs L) t (w_run (ns_secs L) cs)) (w_elapsed (N:=BN L) (ns_secs L) t' (w_run (ns_secs L) (cs ++ (WElapsed, t) :: cs'))) = true.
Proof.
  intros ND Rs.
  refine (watch_mono (N:=BN L) (ns_secs L) goodb _ (ns_good L) _ _ _ _ _ _ t0 cs t cs' t' ND Rs); cbn [nleb nadd BN car].
  - left. split; [reflexivity|]. assert (B2R (b_of_Q 0) = 0) by (vm_compute; reflexivity). change (@nzero (BN L)) with (b_of_Q 0). lra.
  - apply good_addb.
  - intros x G. apply leb_good; auto. destruct G as [(A & B)| ->]; [right|left]; auto. repeat split; auto. lra.
  - intros x y z Gx Gy Gz A B. apply leb_good in A; auto. apply leb_good in B; auto. apply leb_good; auto.
    destruct B as [B|(B & B' & B'')]; [left; auto|]. destruct A as [A|(A & A' & A'')]; [subst; discriminate|]. right. repeat split; auto. lra.
  - intros x y Gx Gy. apply leb_good; auto; [apply good_addb; auto|]. destruct Gx as [(F & P)| ->]; [|rewrite add_inf_l; auto; left; auto].
    pose proof Gy as [(F' & P')| ->]; [|rewrite add_inf_r by (left; auto); left; auto].
    eapply is_rnd_le; [|apply is_rnd_self; auto|apply add_cases; auto]. lra.
  - intros x y z Gx Gy Gz A. apply leb_good in A; auto. apply leb_good; try (apply good_addb; auto).
    destruct Gx as [(F & P)| ->]; [|rewrite (add_inf_l z) by auto; left; auto].
    destruct A as [->|(A & A' & A'')]; [rewrite add_inf_r by (left; auto); left; auto|].
    destruct Gy as [(_ & Py)|E]; [|subst; discriminate]. destruct Gz as [(_ & Pz)|E]; [|subst; discriminate].
    eapply is_rnd_le; [|apply add_cases; auto|apply add_cases; auto]. lra.
  - intros y z H. apply leb_good; try (apply ns_good; lia). apply ns_mono; auto.
Qed.
