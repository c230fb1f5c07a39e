(** The library's variables in other units. *)
From Coq Require Import List Arith ZArith QArith Bool Reals Lra Lia.
From Verif Require Import Base Sparse Graph SpecGraph ListLemmas Geom Vars Real RSum GeomR FactorsLin FactorsGeo FactorLib SpecTwin TwinGraph MovedVars OptOrder SpecChange Change SpecUnits.
Import ListNotations.
Local Open Scope R_scope.
Set Bullet Behavior "Strict Subproofs".

Ltac rring := match goal with |- ?a = ?b => change (@eq R a b) end; ring.
Lemma Ok_inj {A} (a b : A) : Ok a = Ok b -> a = b.
Proof. intros H. injection H as H. exact H. Qed.
Section Units.
Context (u : addr -> nat -> R).
Hypothesis Hu : forall a i, 0 < u a i.
Notation RV := (rescaled_var u).
Notation heap := (@heap (lvar RN)).
(** increments are multiplied element by element *)
Definition stretch (a : addr) (c' c : nat) : R := if (c' =? c)%nat then u a c else 0.

Lemma times_nth t x x' i : times_vec t x x' -> nth i x' 0 = t i * nth i x 0.
Proof.
  intros (L & H). destruct (Nat.lt_ge_cases i (length x)) as [Hi|Hi]; [apply H; exact Hi|]. rewrite !nth_overflow by lia. rring.
Qed.
Lemma times_nil t x : times_vec t [] x -> x = [].
Proof. intros (L & _). destruct x; [reflexivity|discriminate]. Qed.
Lemma times_cons t y x x' : times_vec t (y :: x) x' -> exists z, x' = (t 0%nat * y) :: z /\ times_vec (fun i => t (S i)) x z.
Proof.
  intros (L & H). destruct x' as [|w z]; [discriminate|]. exists z. split; [f_equal; exact (H 0%nat (Nat.lt_0_succ _))|]. split; [cbn in L; lia|].
  intros i Hi. apply (H (S i)). cbn. lia.
Qed.
Lemma times_of t x x' : length x' = length x -> (forall i, nth i x' 0 = t i * nth i x 0) -> times_vec t x x'.
Proof. intros L H. split; auto. Qed.
Lemma kval_times a v v' : RV a v v' -> times_vec (u a) (kval (l_kind v)) (kval (l_kind v')).
Proof.
  intros (_ & _ & H). destruct (l_kind v), (l_kind v'); cbn [kval]; try contradiction; try exact H; try (apply H).
  - destruct H as (_ & -> & Z). split; [reflexivity|]. intros i _. rewrite Z. rring.
  - destruct H as (-> & -> & Z). split; [reflexivity|]. intros [|[|[|[|i]]]] Hi; cbn; cbn in Hi; [rewrite (Z 0%nat) by lia; symmetry; apply Rmult_1_l|rewrite (Z 1%nat) by lia; symmetry; apply Rmult_1_l|rewrite (Z 2%nat) by lia; symmetry; apply Rmult_1_l|reflexivity|lia].
Qed.
Lemma ksize_times a v v' : RV a v v' -> ksize (l_kind v') = ksize (l_kind v).
Proof. intros (_ & _ & H). destruct (l_kind v), (l_kind v'); cbn [ksize]; try contradiction; auto. apply H. Qed.
Lemma stretch_sum a n c (g : nat -> R) : (c < n)%nat -> rsum n (fun e => stretch a c e * g e) = u a c * g c.
Proof.
  intros Hc. rewrite (rsum_single n c); [unfold stretch; rewrite Nat.eqb_refl; reflexivity|exact Hc|]. intros i _ Hi. unfold stretch. destruct (Nat.eqb_spec c i); [subst; contradiction|]. apply Rmult_0_l.
Qed.
Lemma stretch_sum_r a n c (g : nat -> R) : (c < n)%nat -> rsum n (fun e => g e * stretch a e c) = g c * u a c.
Proof.
  intros Hc. rewrite (rsum_single n c); [unfold stretch; rewrite Nat.eqb_refl; reflexivity|exact Hc|]. intros i _ Hi. unfold stretch. destruct (Nat.eqb_spec i c); [subst; contradiction|]. apply Rmult_0_r.
Qed.
Lemma clip_times t lo hi y : 0 < t -> clip (N:=RN) (t * lo) (t * hi) (t * y) = t * clip (N:=RN) lo hi y.
Proof.
  intros H. unfold clip. rewrite !r_nmin, !r_nmax. unfold Rmin, Rmax. repeat destruct (Rle_dec _ _); try reflexivity; try lra; exfalso; nra.
Qed.
Lemma seg3_times t off x x' : times_vec t x x' -> seg3 (N:=RN) off x' = V3 (N:=RN) (t off * vx (seg3 (N:=RN) off x)) (t (1 + off)%nat * vy (seg3 (N:=RN) off x)) (t (2 + off)%nat * vz (seg3 (N:=RN) off x)).
Proof.
  intros H. unfold seg3. cbn [vx vy vz]. change (car RN) with R. replace (nzero (N:=RN)) with 0 by (symmetry; exact q0). rewrite !(times_nth t x x') by exact H. reflexivity.
Qed.
Lemma times_add t x x' d d' : length d = length x -> times_vec t x x' -> times_vec t d d' -> times_vec t (vadd (N:=RN) x d) (vadd (N:=RN) x' d').
Proof.
  intros L H D. pose proof (proj1 H) as L1. pose proof (proj1 D) as L2. apply times_of; [rewrite !vadd_length; congruence|].
  intros i. rewrite !nth_vadd by congruence. rewrite (times_nth _ _ _ i H), (times_nth _ _ _ i D). rring.
Qed.

Lemma units_coordinates : coordinates (lib RN) RV stretch.
Proof.
  constructor.
  - intros a v v' H. split; [exact (ksize_times a v v' H)|symmetry; apply H].
  - exists (fun a c' c => if (c' =? c)%nat then / u a c else 0). intros a v v' c c' H Hc Hc'.
    rewrite stretch_sum by exact Hc. destruct (Nat.eqb_spec c c') as [->|]; [|apply Rmult_0_r]. apply Rinv_r. pose proof (Hu a c'). lra.
  - intros a [i c k] [i' c' k'] d d' w w' (Hi & Hc & H) Ld Ld' Hd. cbn in Hi, Hc, H, Ld, Ld', Hd. subst i' c'.
    assert (D : times_vec (u a) d d').
    { split; [cbn in *; congruence|]. intros j Hj. assert (Hj' : (j < ksize k)%nat) by (rewrite <- Ld; exact Hj). rewrite (Hd j Hj'). apply stretch_sum. exact Hj'. }
    cbn [lib vinc l_kind]. unfold with_kind, omap. cbn [l_id l_const].
    destruct k as [x|x|x A|x A|o b lo hi x|n e|x], k' as [x'|x'|x' A'|x' A'|o' b' lo' hi' x'|n' e'|x']; try contradiction; cbn [kinc]; cbn [ksize] in *; change (car RN) with R in *.
    + destruct (length d =? length x)%nat eqn:E; [|intros X X'; solve [discriminate X | discriminate X']]. destruct (length d' =? length x')%nat eqn:E'; [|intros X X'; solve [discriminate X | discriminate X']]. intros X X'. injection X as <-. injection X' as <-.
      split; [reflexivity|]. split; [reflexivity|]. cbn [l_kind]. apply times_add; auto.
    + destruct (length d =? 3)%nat; [|intros X X'; solve [discriminate X | discriminate X']]. destruct (length d' =? 3)%nat; [|intros X X'; solve [discriminate X | discriminate X']]. unfold vec_plus; change (car RN) with R. destruct (length x =? length d)%nat eqn:E; [|intros X X'; solve [discriminate X | discriminate X']]. destruct (length x' =? length d')%nat; [|intros X X'; solve [discriminate X | discriminate X']]. cbn [obind].
      intros X X'. injection X as <-. injection X' as <-. split; [reflexivity|]. split; [reflexivity|]. cbn [l_kind]. apply times_add; auto. apply Nat.eqb_eq in E. symmetry; exact E.
    + destruct H as (<- & H & Z). destruct (length d =? 6)%nat; [|intros X X'; solve [discriminate X | discriminate X']]. destruct (length d' =? 6)%nat; [|intros X X'; solve [discriminate X | discriminate X']].
      destruct (length x <? 6)%nat eqn:E; [intros X X'; solve [discriminate X | discriminate X']|]. destruct (length x' <? 6)%nat; [intros X X'; solve [discriminate X | discriminate X']|]. intros X X'. apply Ok_inj in X. apply Ok_inj in X'. subst w w'. split; [reflexivity|]. split; [reflexivity|]. cbn [l_kind].
      apply Nat.ltb_ge in E. assert (Er : seg3 (N:=RN) 3 d' = seg3 (N:=RN) 3 d).
      { rewrite (seg3_times _ 3 d d' D). rewrite (Z 3%nat), (Z (1+3)%nat), (Z (2+3)%nat) by lia. destruct (seg3 (N:=RN) 3 d). cbn. f_equal; apply Rmult_1_l. }
      rewrite Er. split; [reflexivity|]. split; [|exact Z]. generalize (log_so3 (N:=RN) (m3mul (exp_so3 (seg3 (N:=RN) 3 d)) A)). intros r.
      pose proof (proj1 H) as LH. apply times_of.
      { assert (LK : length (skipn 6 x') = length (skipn 6 x)) by (rewrite !skipn_length, LH; reflexivity). exact (f_equal (fun n => S (S (S (S (S (S n)))))) LK). }
      rewrite (seg3_times _ 0 x x' H), (seg3_times _ 0 d d' D). intros j. cbn [v3list v3add vx vy vz app].
      destruct j as [|[|[|[|[|[|j]]]]]]; cbn [nth Nat.add]; try (rewrite Z by lia; symmetry; apply Rmult_1_l); try (cbn; symmetry; apply Rmult_plus_distr_l).
      rewrite !nth_skipn'. exact (times_nth _ _ _ (6 + j) H).
    + destruct H as (<- & <- & Z). assert (d' = d) as ->.
      { destruct D as (LD & D). apply (nth_ext _ _ 0 0); auto. intros j Hj. rewrite LD in Hj. rewrite (D j Hj), Z. rring. }
      destruct (to_v3 d) as [y|e|e]; cbn [obind]; try (intros X X'; solve [discriminate X | discriminate X']). intros X X'. injection X as <-. injection X' as <-. repeat split; auto.
    + destruct H as (Ho & <- & -> & -> & H & F & F'). destruct (length d =? 1)%nat eqn:E; [|intros X X'; solve [discriminate X | discriminate X']]. destruct (length d' =? 1)%nat; [|intros X X'; solve [discriminate X | discriminate X']]. unfold vec_plus; change (car RN) with R.
      destruct (length x =? length d)%nat eqn:E2; [|intros X X'; solve [discriminate X | discriminate X']]. destruct (length x' =? length d')%nat; [|intros X X'; solve [discriminate X | discriminate X']]. cbn [obind].
      apply Nat.eqb_eq in E. apply Nat.eqb_eq in E2. rewrite E in E2. destruct d as [|y [|? ?]]; try discriminate E. destruct x as [|z [|? ?]]; try discriminate E2.
      apply times_cons in D. destruct D as (d2 & -> & D). apply times_nil in D. subst d2. apply times_cons in H. destruct H as (x2 & -> & H). apply times_nil in H. subst x2.
      cbn [clip0 vadd vzip obind combine map fst snd]. intros X X'. injection X as <-. injection X' as <-. split; [reflexivity|]. split; [reflexivity|]. cbn [l_kind firstn].
      change (nadd (n:=RN)) with Rplus. rewrite <- Rmult_plus_distr_l. rewrite (clip_times _ lo hi _ (Hu a 0%nat)).
      inversion F as [|? ? F1 F2]; subst. inversion F2 as [|? ? F3 F4]; subst. inversion F' as [|? ? G1 G2]; subst. inversion G2 as [|? ? G3 G4]; subst.
      split; [exact Ho|]. split; [reflexivity|]. split; [reflexivity|]. split; [reflexivity|]. split; [|split].
      * apply times_of; [reflexivity|]. intros [|[|j]]; cbn; try rring; reflexivity.
      * constructor; [exact F1|]. constructor; [exact F3|]. constructor; [apply clip_ge; auto|constructor].
      * constructor; [exact G1|]. constructor; [exact G3|]. constructor; [|constructor]. rewrite <- (clip_times _ lo hi _ (Hu a 0%nat)). apply clip_ge; auto.
    + destruct H as (<- & -> & Z). destruct (length d =? 4)%nat; [|intros X X'; solve [discriminate X | discriminate X']]. destruct (length d' =? 4)%nat; [|intros X X'; solve [discriminate X | discriminate X']]. intros X X'. apply Ok_inj in X. apply Ok_inj in X'. subst w w'.
      split; [reflexivity|]. split; [reflexivity|]. cbn [l_kind]. split; [|split; [|exact Z]].
      * f_equal. f_equal. rewrite (seg3_times _ 0 d d' D). cbn [Nat.add]. rewrite (Z 0%nat), (Z 1%nat), (Z 2%nat) by lia. destruct (seg3 (N:=RN) 0 d). cbn. f_equal; symmetry; apply Rmult_1_l.
      * change (car RN) with R. replace (nzero (N:=RN)) with 0 by (symmetry; exact q0). rewrite (times_nth _ _ _ 3 D). cbn. symmetry. apply Rmult_plus_distr_l.
    + destruct H as (L3 & H & Z). destruct (length d =? 3)%nat; [|intros X X'; solve [discriminate X | discriminate X']]. destruct (length d' =? 3)%nat; [|intros X X'; solve [discriminate X | discriminate X']]. intros X X'. apply Ok_inj in X. apply Ok_inj in X'. subst w w'.
      split; [reflexivity|]. split; [reflexivity|]. cbn [l_kind]. split; [reflexivity|]. split; [|exact Z]. apply times_of; [reflexivity|].
      change (car RN) with R. replace (nzero (N:=RN)) with 0 by (symmetry; exact q0). intros [|[|[|j]]]; cbn [nth]; [| | |destruct j; cbn; rring].
      * rewrite (times_nth _ _ _ 0 D), (times_nth _ _ _ 0 H). cbn. symmetry. apply Rmult_plus_distr_l.
      * rewrite (times_nth _ _ _ 1 D), (times_nth _ _ _ 1 H). cbn. symmetry. apply Rmult_plus_distr_l.
      * rewrite (times_nth _ _ _ 2 D), (times_nth _ _ _ 2 H). rewrite Z, !Rmult_1_l. reflexivity.
Qed.
End Units.
