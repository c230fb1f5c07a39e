(** Increments of zero on the library's variables. *)
From Coq Require Import List Arith ZArith QArith Bool Reals Lra Lia Qreals.
From Verif Require Import Base Sparse Graph SpecGraph Real Geom GeomR SpecGeom GeomExp GeomLog GeomFacts Trig Vars VarsLemmas SpecRest.
Set Bullet Behavior "Strict Subproofs".
Import ListNotations.
Local Open Scope nat_scope.

Lemma vadd_zero (x : list R) : vadd (N:=RN) x (repeat 0%R (length x)) = x.
Proof.
  unfold vadd. induction x as [|y x IH]; [reflexivity|]. cbn. f_equal; [match goal with |- ?a = ?b => change (@eq R a b) end; ring|exact IH].
Qed.
Lemma zero_sum (a : R) : nadd (n:=RN) a 0%R = a.
Proof. match goal with |- ?a = ?b => change (@eq R a b) end. change (a + 0 = a)%R. ring. Qed.
Lemma zero_vec3 (v : v3 RN) : v3add v (V3 (N:=RN) 0%R 0%R 0%R) = v.
Proof. destruct v. unfold v3add. cbn. rewrite !zero_sum. reflexivity. Qed.
Lemma exp_zeros : exp_so3 (V3 (N:=RN) 0%R 0%R 0%R) = m3id.
Proof.
  assert (E : V3 (N:=RN) 0%R 0%R 0%R = v3zero) by (unfold v3zero; change (nzero (N:=RN)) with (Q2R 0); rewrite q0; reflexivity).
  rewrite E. apply exp_zero.
Qed.
Theorem settled_rests (v : lvar RN) : settled (l_kind v) -> rests (lib RN) v.
Proof.
  destruct v as [i c k]. unfold rests. cbn [vsize vinc lib l_kind l_id l_const]. intros H.
  destruct k as [x|x|x r|x r|o b lo hi x|n d|x]; cbn [settled ksize] in *.
  - unfold with_kind. cbn [l_kind kinc]. rewrite repeat_length, Nat.eqb_refl. cbn. rewrite vadd_zero. reflexivity.
  - unfold with_kind. cbn [l_kind kinc]. rewrite repeat_length. cbn [Nat.eqb]. unfold vec_plus. rewrite repeat_length, H. cbn [Nat.eqb obind omap].
    rewrite <- H, vadd_zero. reflexivity.
  - destruct H as (L & E1 & E2). destruct x as [|x0 [|x1 [|x2 [|x3 [|x4 [|x5 [|? ?]]]]]]]; try discriminate L.
    unfold with_kind. cbn [l_kind kinc]. rewrite repeat_length. cbn [Nat.eqb length Nat.ltb Nat.leb]. 
    change (seg3 3 (repeat 0%R 6)) with (V3 (N:=RN) 0%R 0%R 0%R). change (seg3 0 (repeat 0%R 6)) with (V3 (N:=RN) 0%R 0%R 0%R).
    rewrite exp_zeros, m3mul_id_l, zero_vec3, E1, E2. reflexivity.
  - unfold with_kind. cbn [l_kind kinc]. change (to_v3 (repeat 0%R 3)) with (Ok (V3 (N:=RN) 0%R 0%R 0%R)). cbn [obind omap].
    rewrite exp_zeros, m3mul_id_l, <- H. reflexivity.
  - destruct x as [|y [|? ?]]; try contradiction. unfold with_kind. cbn [l_kind kinc repeat length Nat.eqb]. unfold vec_plus. cbn [length Nat.eqb vadd obind combine map fst snd].
    cbn. rewrite zero_sum, H. reflexivity.
  - unfold with_kind. cbn [l_kind kinc]. rewrite repeat_length. cbn [Nat.eqb]. change (seg3 0 (repeat 0%R 4)) with (V3 (N:=RN) 0%R 0%R 0%R). rewrite zero_vec3, H. cbn. rewrite zero_sum. reflexivity.
  - destruct x as [|y0 [|y1 [|y2 [|? ?]]]]; try contradiction. unfold with_kind. cbn [l_kind kinc]. rewrite repeat_length. cbn [Nat.eqb repeat nth]. rewrite !zero_sum, H. reflexivity.
Qed.

(** GenericVariable and LandmarkVariable stay only then *)
Lemma vadd_same (x d : list R) c : length d = length x -> vadd (N:=RN) x d = x -> c < length x -> nth c d 0%R = 0%R.
Proof.
  unfold vadd. revert d c. induction x as [|y x IH]; intros [|e d] c L E Hc; cbn in *; try lia; try discriminate.
  pose proof (f_equal (hd 0%R) E) as E1. pose proof (f_equal (@tl R) E) as E2. cbn in E1, E2. destruct c; [change (y + e = y)%R in E1; lra|]. apply IH; auto; lia.
Qed.
Theorem linear_responsive (v : lvar RN) : match l_kind v with KGeneric _ => True | KLandmark x => length x = 3 | _ => False end -> responsive (lib RN) v.
Proof.
  destruct v as [i c k]. intros H d L E. cbn [vsize vinc lib l_kind] in *. destruct k as [x|x|x r|x r|o b lo hi x|n e|x]; try contradiction; unfold with_kind in E; cbn [l_kind kinc ksize] in *.
  - rewrite L, Nat.eqb_refl in E. cbn in E. injection E as E. intros j Hj. exact (vadd_same x d j L E Hj).
  - rewrite L in E. cbn [Nat.eqb] in E. unfold vec_plus in E. rewrite H, L in E. cbn in E. injection E as E. intros j Hj. apply (vadd_same x d j); [exact (eq_trans L (eq_sym H))|exact E|exact (eq_ind_r (fun n => j < n) Hj H)].
Qed.

Lemma zeros_len : len (V3 (N:=RN) 0%R 0%R 0%R) = 0%R.
Proof.
  assert (E : V3 (N:=RN) 0%R 0%R 0%R = v3zero) by (unfold v3zero; change (nzero (N:=RN)) with (Q2R 0); rewrite q0; reflexivity). rewrite E. apply len0.
Qed.
Lemma pose_settled : settled (KPose (N:=RN) [1; 2; 3; 0; 0; 0]%R m3id) /\ ~ settled (KPose2 (N:=RN) [1; 2; 7]%R).
Proof.
  split.
  - split; [reflexivity|]. change (seg3 3 [1; 2; 3; 0; 0; 0]%R) with (V3 (N:=RN) 0%R 0%R 0%R). split.
    + rewrite <- exp_zeros. apply log_of_exp. left. rewrite zeros_len. lra.
    + unfold dcm_of_rot. change (v3norm (V3 (N:=RN) 0%R 0%R 0%R)) with (len (V3 (N:=RN) 0%R 0%R 0%R)). rewrite zeros_len.
      replace (nltb (n:=RN) 0%R (nlit (1#100000000))) with true; [reflexivity|]. symmetry. change (Rltb 0 (Q2R (1#100000000)) = true). apply Rltb_true. unfold Q2R. cbn. lra.
  - cbn [settled]. intros E. pose proof (wrap_spec 7) as B. destruct B as (B & _). change (Ratan2 (sin 7) (cos 7) = 7%R) in E. cbv zeta in B. rewrite E in B. pose proof PI_4. lra.
Qed.
