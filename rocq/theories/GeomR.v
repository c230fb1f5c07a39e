(** Algebra of 3x3 matrices over the reals. *)
From Coq Require Import Reals Lra Psatz Bool List ZArith QArith Nsatz.
From Coquelicot Require Import Coquelicot.
From Verif Require Import Base SpecOpt Real Geom SpecGeom Trig VarsLemmas.
Local Open Scope R_scope.

Lemma q0 : Q2R 0 = 0. Proof. unfold Q2R; simpl; lra. Qed.
Lemma q1 : Q2R 1 = 1. Proof. unfold Q2R; simpl; lra. Qed.
Lemma qh : Q2R (1#2) = / 2. Proof. unfold Q2R; simpl; lra. Qed.
Lemma q2 : Q2R 2 = 2. Proof. unfold Q2R; simpl; lra. Qed.
Lemma qm1 : Q2R (-1) = -1. Proof. unfold Q2R; simpl; lra. Qed.

(** reduce the model's operations to real arithmetic on the components *)
Ltac gx :=
  cbv [m3mul m3v m3add m3sub m3map2 m3map m3scale m3neg m3t m3row0 m3row1 m3row2 m3outer m3trace v3dot v3add v3sub v3neg v3scale v3div v3cross
       skew unskew m3id m3zero v3zero m00 m01 m02 m10 m11 m12 m20 m21 m22 vx vy vz nzero nunit v3sq aa_matrix
       nadd nsub nmul ndiv nneg nabs nsqrt nsin ncos ntan nacos nlit RN car length2 sum3 ent coord crossm det];
  rewrite ?q0, ?q1, ?qh, ?q2, ?qm1.
Tactic Notation "gx" "in" hyp(H) :=
  cbv [m3mul m3v m3add m3sub m3map2 m3map m3scale m3neg m3t m3row0 m3row1 m3row2 m3outer m3trace v3dot v3add v3sub v3neg v3scale v3div v3cross
       skew unskew m3id m3zero v3zero m00 m01 m02 m10 m11 m12 m20 m21 m22 vx vy vz nzero nunit v3sq aa_matrix
       nadd nsub nmul ndiv nneg nabs nsqrt nsin ncos ntan nacos nlit RN car length2 sum3 ent coord crossm det] in H;
  rewrite ?q0, ?q1, ?qh, ?q2, ?qm1 in H.

Lemma m3_eq (a b : m3 RN) : (forall i j, (i < 3)%nat -> (j < 3)%nat -> ent a i j = ent b i j) -> a = b.
Proof.
  intros H. destruct a, b.
  pose proof (H 0 0)%nat; pose proof (H 0 1)%nat; pose proof (H 0 2)%nat; pose proof (H 1 0)%nat; pose proof (H 1 1)%nat;
  pose proof (H 1 2)%nat; pose proof (H 2 0)%nat; pose proof (H 2 1)%nat; pose proof (H 2 2)%nat. cbn in *.
  f_equal; auto with arith.
Qed.
Lemma v3_eq (a b : v3 RN) : (forall i, (i < 3)%nat -> coord a i = coord b i) -> a = b.
Proof.
  intros H. destruct a, b. pose proof (H 0)%nat; pose proof (H 1)%nat; pose proof (H 2)%nat. cbn in *. f_equal; auto with arith.
Qed.
Ltac dm a := let r00 := fresh "a00" in let r01 := fresh "a01" in let r02 := fresh "a02" in let r10 := fresh "a10" in let r11 := fresh "a11" in
  let r12 := fresh "a12" in let r20 := fresh "a20" in let r21 := fresh "a21" in let r22 := fresh "a22" in
  destruct a as [r00 r01 r02 r10 r11 r12 r20 r21 r22].
Ltac dv a := let x := fresh "x" in let y := fresh "y" in let z := fresh "z" in destruct a as [x y z].
Ltac nsz := first [solve [ring] | solve [nsatz]].
Ltac gring := gx; f_equal; ring.

Lemma m3mul_assoc (a b c : m3 RN) : m3mul (m3mul a b) c = m3mul a (m3mul b c).
Proof. dm a; dm b; dm c. gring. Qed.
Lemma m3mul_id_l (a : m3 RN) : m3mul m3id a = a.
Proof. dm a. gring. Qed.
Lemma m3mul_id_r (a : m3 RN) : m3mul a m3id = a.
Proof. dm a. gring. Qed.
Lemma m3t_mul (a b : m3 RN) : m3t (m3mul a b) = m3mul (m3t b) (m3t a).
Proof. dm a; dm b. gring. Qed.
Lemma m3t_t (a : m3 RN) : m3t (m3t a) = a.
Proof. dm a. reflexivity. Qed.
Lemma m3v_mul (a b : m3 RN) v : m3v (m3mul a b) v = m3v a (m3v b v).
Proof. dm a; dm b; dv v. gring. Qed.
Lemma m3v_id (v : v3 RN) : m3v m3id v = v.
Proof. dv v. gring. Qed.

Lemma product_mul (a b c : m3 RN) : product a b c <-> c = m3mul a b.
Proof.
  split.
  - intros H. apply m3_eq. intros i j Hi Hj. rewrite (H i j Hi Hj). dm a; dm b; dm c.
    destruct i as [|[|[|i]]]; [| | |lia]; destruct j as [|[|[|j]]]; try lia; reflexivity.
  - intros -> i j Hi Hj. dm a; dm b. destruct i as [|[|[|i]]]; [| | |lia]; destruct j as [|[|[|j]]]; try lia; reflexivity.
Qed.
Lemma image_mul (a : m3 RN) x y : image a x y <-> y = m3v a x.
Proof.
  split.
  - intros H. apply v3_eq. intros i Hi. rewrite (H i Hi). dm a; dv x; dv y.
    destruct i as [|[|[|i]]]; [| | |lia]; reflexivity.
  - intros -> i Hi. dm a; dv x. destruct i as [|[|[|i]]]; [| | |lia]; reflexivity.
Qed.

Definition mdet (a : m3 RN) : R := det (ent a).
Definition adj (a : m3 RN) : m3 RN :=
  M3 (N:=RN) (m11 a * m22 a - m12 a * m21 a) (m02 a * m21 a - m01 a * m22 a) (m01 a * m12 a - m02 a * m11 a)
     (m12 a * m20 a - m10 a * m22 a) (m00 a * m22 a - m02 a * m20 a) (m02 a * m10 a - m00 a * m12 a)
     (m10 a * m21 a - m11 a * m20 a) (m01 a * m20 a - m00 a * m21 a) (m00 a * m11 a - m01 a * m10 a).
Lemma mul_adj (a : m3 RN) : m3mul a (adj a) = m3scale (mdet a) m3id.
Proof. dm a. unfold mdet, adj. gring. Qed.
Lemma adj_mul (a : m3 RN) : m3mul (adj a) a = m3scale (mdet a) m3id.
Proof. dm a. unfold mdet, adj. gring. Qed.
Lemma m3scale_1 (a : m3 RN) : m3scale 1 a = a.
Proof. dm a. gring. Qed.
Lemma mdet_mul (a b : m3 RN) : mdet (m3mul a b) = mdet a * mdet b.
Proof. dm a; dm b. unfold mdet. gx. ring. Qed.
Lemma mdet_t (a : m3 RN) : mdet (m3t a) = mdet a.
Proof. dm a. unfold mdet. gx. ring. Qed.
Lemma mdet_id : mdet m3id = 1.
Proof. unfold mdet. gx. ring. Qed.

Lemma rotation_alg (a : m3 RN) : rotation a <-> m3mul (m3t a) a = m3id /\ mdet a = 1.
Proof.
  unfold rotation. split; intros [A B]; (split; [|exact B]).
  - apply m3_eq. intros i j Hi Hj. specialize (A i j Hi Hj). dm a.
    destruct i as [|[|[|i]]]; [| | |lia]; destruct j as [|[|[|j]]]; try lia;
    (etransitivity; [|etransitivity; [exact A|]]; [reflexivity|cbn; rewrite ?q0, ?q1; reflexivity]).
  - intros i j Hi Hj. transitivity (ent (m3mul (m3t a) a) i j).
    + dm a. destruct i as [|[|[|i]]]; [| | |lia]; destruct j as [|[|[|j]]]; try lia; reflexivity.
    + rewrite A. destruct i as [|[|[|i]]]; [| | |lia]; destruct j as [|[|[|j]]]; try lia; cbn; rewrite ?q0, ?q1; reflexivity.
Qed.

(** a rotation equals its cofactor matrix; hence the rows are orthonormal as well *)
Lemma rot_adj (a : m3 RN) : rotation a -> m3t a = adj a.
Proof.
  intros H. apply rotation_alg in H. destruct H as [A B].
  rewrite <- (m3mul_id_r (m3t a)), <- (m3scale_1 m3id), <- B, <- mul_adj, <- m3mul_assoc, A. apply m3mul_id_l.
Qed.
Lemma rot_mul_t (a : m3 RN) : rotation a -> m3mul a (m3t a) = m3id.
Proof. intros H. rewrite (rot_adj a H), mul_adj. apply rotation_alg in H. destruct H as [_ ->]. apply m3scale_1. Qed.
Lemma rot_t_mul (a : m3 RN) : rotation a -> m3mul (m3t a) a = m3id.
Proof. intros H. apply rotation_alg in H. apply H. Qed.
Lemma rot_id : rotation m3id.
Proof. apply rotation_alg. split; [|apply mdet_id]. gring. Qed.
Lemma rot_mul (a b : m3 RN) : rotation a -> rotation b -> rotation (m3mul a b).
Proof.
  intros Ha Hb. apply rotation_alg. split.
  - rewrite m3t_mul, m3mul_assoc, <- (m3mul_assoc (m3t a)), rot_t_mul, m3mul_id_l by auto. apply rot_t_mul; auto.
  - rewrite mdet_mul. apply rotation_alg in Ha, Hb. destruct Ha as [_ ->], Hb as [_ ->]. ring.
Qed.
Lemma rot_t (a : m3 RN) : rotation a -> rotation (m3t a).
Proof.
  intros Ha. apply rotation_alg. split; [rewrite m3t_t; apply rot_mul_t; auto|].
  rewrite mdet_t. apply rotation_alg in Ha. apply Ha.
Qed.
(** all the equations of a rotation at once *)
Record rot_eqs (a : m3 RN) : Prop := {
  rq_adj : m3t a = adj a; rq_rows : m3mul a (m3t a) = m3id; rq_cols : m3mul (m3t a) a = m3id }.
Lemma rot_all (a : m3 RN) : rotation a -> rot_eqs a.
Proof. intros H. split; [apply rot_adj|apply rot_mul_t|apply rot_t_mul]; auto. Qed.

(** explicit equations *)
Lemma m3_inj (a b c d e f g h i a' b' c' d' e' f' g' h' i' : R) :
  M3 (N:=RN) a b c d e f g h i = M3 (N:=RN) a' b' c' d' e' f' g' h' i' ->
  a = a' /\ b = b' /\ c = c' /\ d = d' /\ e = e' /\ f = f' /\ g = g' /\ h = h' /\ i = i'.
Proof. intros H. injection H. intros. repeat split; assumption. Qed.
Lemma v3_inj (a b c a' b' c' : R) : V3 (N:=RN) a b c = V3 (N:=RN) a' b' c' -> a = a' /\ b = b' /\ c = c'.
Proof. intros H. injection H. intros. repeat split; assumption. Qed.

Lemma v3sq_len (v : v3 RN) : v3norm v = len v.
Proof. reflexivity. Qed.
Lemma len_nonneg (v : v3 RN) : 0 <= len v.
Proof. apply sqrt_pos. Qed.
Lemma len_sq (v : v3 RN) : len v * len v = length2 v.
Proof. unfold len. apply sqrt_sqrt. unfold length2. destruct v as [x y z]. cbn. nra. Qed.
Lemma rot_len (a : m3 RN) v : rotation a -> length2 (m3v a v) = length2 v.
Proof.
  intros H. apply rot_t_mul in H. dm a; dv v. gx in H. apply m3_inj in H. gx. decompose [and] H. nsatz.
Qed.
