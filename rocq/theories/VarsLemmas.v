(** The library's variable classes satisfy the interface contract; which of them can be restored exactly. *)
From Coq Require Import List Arith ZArith QArith Bool Lia Reals Lra.
From Verif Require Import Base Sparse Graph SpecGraph SpecOpt Geom Vars Real Trig.
Import ListNotations.

Section Any.
Context {N : num}.
Local Open Scope nat_scope.

Lemma vadd_length (a b : list N) : length (vadd a b) = min (length a) (length b).
Proof. unfold vadd, vzip. rewrite map_length. apply combine_length. Qed.

Lemma with_kind_ok (v : lvar N) o v' : with_kind v o = Ok v' -> exists k, o = Ok k /\ v' = LVar (l_id v) (l_const v) k.
Proof. unfold with_kind. destruct o; simpl; intros H; inversion H; eauto. Qed.

Ltac kcase :=
  repeat match goal with
  | H : context [if ?b then _ else _] |- _ => destruct b eqn:?; simpl in H; try discriminate
  | H : context [obind ?o _] |- _ => destruct o eqn:?; simpl in H; try discriminate
  | H : Ok _ = Ok _ |- _ => inversion H; clear H; subst
  end; simpl in *.

Lemma kset_size (k : kind N) x k' : kset k x = Ok k' -> ksize k' = ksize k.
Proof.
  destruct k; simpl; intros H; kcase; auto.
  apply Nat.eqb_eq in Heqb. auto.
Qed.
Lemma kinc_size (k : kind N) x k' : kinc k x = Ok k' -> ksize k' = ksize k.
Proof.
  destruct k; simpl; intros H; kcase; auto.
  apply Nat.eqb_eq in Heqb. rewrite vadd_length, Heqb. apply Nat.min_id.
Qed.

Lemma lib_ok : vclass_ok (lib N).
Proof.
  split; simpl; intros.
  - apply with_kind_ok in H. destruct H as [k [H ->]]. simpl. repeat split. eapply kset_size; eauto.
  - apply with_kind_ok in H. destruct H as [k [H ->]]. simpl. repeat split. eapply kinc_size; eauto.
  - auto.
Qed.

(** states that set_value_from_vector(value()) restores in any arithmetic *)
Definition exact_kind (k : kind N) : Prop :=
  match k with
  | KGeneric _ => True
  | KLandmark x => length x = 3
  | KPose x R => length x = 6 /\ R = dcm_of_rot (seg3 3 x)
  | _ => False
  end.
Lemma vec_plus_ok (a b c : list N) : vec_plus a b = Ok c -> length a = length b /\ length c = length a.
Proof.
  unfold vec_plus. destruct (length a =? length b) eqn:E; [|discriminate]. intros H; inversion H. apply Nat.eqb_eq in E.
  rewrite vadd_length, E, Nat.min_id. auto.
Qed.

Lemma seg3_app (a b : v3 N) t : seg3 3 (v3list a ++ v3list b ++ t) = b.
Proof. destruct b; reflexivity. Qed.

Lemma lib_exact : undoable (lib N) (fun v => exact_kind (l_kind v)).
Proof.
  split; simpl.
  - intros [i c k] x v' Hk H. apply with_kind_ok in H. destruct H as [k' [H ->]]. simpl in *.
    destruct k; simpl in *; try contradiction; kcase.
    + apply Nat.eqb_eq in Heqb. rewrite vadd_length, Heqb, Nat.min_id, Nat.eqb_refl. auto.
    + apply Nat.eqb_eq in Heqb. apply vec_plus_ok in Heqo. split; [lia|]. unfold with_kind; simpl. auto.
    + destruct Hk as [Hl ->]. do 7 (destruct x0 as [|? x0]; try discriminate). simpl. auto.
  - intros [i c k] Hk. unfold with_kind. destruct k; simpl in *; try contradiction; auto.
    + rewrite Nat.eqb_refl. auto.
    + destruct Hk as [-> ->]. reflexivity.
Qed.
End Any.

(** ** Over the reals *)
Local Open Scope R_scope.

Lemma clip_idem (lo hi x : R) : clip (N:=RN) lo hi (clip (N:=RN) lo hi x) = clip (N:=RN) lo hi x.
Proof.
  unfold clip. rewrite !r_nmin, !r_nmax. unfold Rmin, Rmax.
  destruct (Rle_dec x lo); [destruct (Rle_dec lo hi)|destruct (Rle_dec x hi)];
  repeat match goal with |- context [Rle_dec ?a ?b] => destruct (Rle_dec a b) end;
  repeat match goal with H : context [if Rle_dec ?a ?b then _ else _] |- _ => destruct (Rle_dec a b) end; lra.
Qed.

Lemma wrap_idem (x : R) : wrap_angle (N:=RN) (wrap_angle (N:=RN) x) = wrap_angle (N:=RN) x.
Proof.
  change (Ratan2 (sin (Ratan2 (sin x) (cos x))) (cos (Ratan2 (sin x) (cos x))) = Ratan2 (sin x) (cos x)).
  destruct (wrap_spec x) as [A [B C]]. simpl in *. rewrite B, C. reflexivity.
Qed.

Lemma v3sq_r (a : v3 RN) : v3sq a = vx a * vx a + vy a * vy a + vz a * vz a.
Proof. reflexivity. Qed.
Lemma v3sq_nonneg (a : v3 RN) : 0 <= v3sq a.
Proof. rewrite v3sq_r. pose proof (Rle_0_sqr (vx a)). pose proof (Rle_0_sqr (vy a)). pose proof (Rle_0_sqr (vz a)). unfold Rsqr in *. lra. Qed.

Lemma pos_true (x : RN) : 0 < x -> nltb nzero x = true.
Proof. intros H. apply Rltb_true. rewrite lit_zero. exact H. Qed.
Lemma pos_false (x : RN) : x <= 0 -> nltb nzero x = false.
Proof. intros H. apply Rltb_false. rewrite lit_zero. exact H. Qed.

(** Eigen's normalized() *)
Lemma normalized_pos (a : v3 RN) : 0 < v3sq a ->
  v3normalized a = v3div a (sqrt (v3sq a)) /\ v3sq (v3normalized a) = 1.
Proof.
  intros H. unfold v3normalized. rewrite (pos_true _ H). split; [reflexivity|].
  destruct a as [x y z]. change (0 < x * x + y * y + z * z) in H.
  set (q := x * x + y * y + z * z) in *.
  change (x / sqrt q * (x / sqrt q) + y / sqrt q * (y / sqrt q) + z / sqrt q * (z / sqrt q) = 1).
  assert (0 < sqrt q) by (apply sqrt_lt_R0; auto).
  assert (Hs : sqrt q * sqrt q = q) by (apply sqrt_sqrt; lra).
  transitivity (q / (sqrt q * sqrt q)); [unfold q at 7; field; lra|].
  rewrite Hs. field. lra.
Qed.
Lemma normalized_zero (a : v3 RN) : v3sq a = 0 -> v3normalized a = a.
Proof.
  intros H. unfold v3normalized. rewrite pos_false; [reflexivity|]. rewrite H. apply Rle_refl.
Qed.
Lemma normalized_unit (a : v3 RN) : v3sq a = 1 -> v3normalized a = a.
Proof.
  intros H. destruct (normalized_pos a) as [E _]; [rewrite H; lra|]. rewrite E, H. rewrite sqrt_1.
  destruct a as [x y z]. change (V3 (N:=RN) (x / 1) (y / 1) (z / 1) = V3 (N:=RN) x y z). f_equal; unfold Rdiv; rewrite Rinv_1; apply Rmult_1_r.
Qed.
Lemma normalized_idem (a : v3 RN) : v3normalized (v3normalized a) = v3normalized a.
Proof.
  destruct (v3sq_nonneg a) as [H|H].
  - apply normalized_unit. apply normalized_pos; auto.
  - rewrite (normalized_zero a) by auto. apply normalized_zero; auto.
Qed.

(** states that set_value_from_vector(value()) restores in exact arithmetic: every class except RotationVariable *)
Definition real_kind (k : kind RN) : Prop :=
  match k with
  | KGeneric _ => True
  | KLandmark x => length x = 3%nat
  | KPose x R => length x = 6%nat /\ R = dcm_of_rot (seg3 3 x)
  | KInv _ _ lo hi x => match x with [y] => clip lo hi y = y | _ => False end
  | KPlane n _ => v3normalized n = n
  | KPose2 x => match x with [_; _; t] => wrap_angle t = t | _ => False end
  | KRot _ _ => False
  end.

Lemma plane_self {N : num} (n m : v3 N) d e : kset (KPlane m e) (kval (KPlane n d)) = Ok (KPlane (v3normalized n) d).
Proof. destruct n; reflexivity. Qed.

Lemma exact_real (k : kind RN) : exact_kind k -> real_kind k.
Proof. destruct k; simpl; auto; contradiction. Qed.

Lemma lib_real : undoable (lib RN) (fun v => real_kind (l_kind v)).
Proof.
  split; simpl.
  - intros [i c k] x v' Hk H.
    destruct k; cbn [l_kind] in Hk.
    1-3: match type of H with with_kind ?v _ = _ =>
        destruct (un_inc _ _ lib_exact v x v' Hk H) as [A B]; split; [apply exact_real; exact A|exact B] end.
    + apply with_kind_ok in H. destruct H as [k' [H ->]]. contradiction.
    + apply with_kind_ok in H. destruct H as [k' [H ->]]. simpl in *. destruct x0 as [|y [|? ?]]; try contradiction.
      destruct (length x =? 1)%nat eqn:El; [|discriminate]. destruct x as [|dx [|? ?]]; try discriminate.
      simpl in H. inversion H; subst; clear H. simpl. split; [apply clip_idem|]. unfold with_kind; simpl. rewrite Hk. reflexivity.
    + apply with_kind_ok in H. destruct H as [k' [H ->]]. cbn [l_kind l_id l_const kinc real_kind] in *.
      revert H. match goal with |- (if ?b then _ else _) = _ -> _ => destruct b eqn:El end; [|discriminate]. intros H. injection H as <-. cbn [real_kind l_kind].
      split; [apply normalized_idem|]. unfold with_kind. cbn [l_kind l_id l_const]. rewrite plane_self, Hk. reflexivity.
    + apply with_kind_ok in H. destruct H as [k' [H ->]]. simpl in *. destruct x0 as [|y0 [|y1 [|y2 [|? ?]]]]; try contradiction.
      revert H. match goal with |- (if ?b then _ else _) = _ -> _ => destruct b eqn:El end; [|discriminate]. intros H. inversion H; subst; clear H. simpl.
      split; [apply wrap_idem|]. unfold with_kind; simpl. unfold wrap2; simpl. rewrite Hk. reflexivity.
  - intros [i c k] Hk. cbn [l_kind l_id l_const] in *.
    destruct k; try solve [apply (un_self _ _ lib_exact (LVar i c _) Hk)]; try contradiction; try (match goal with |- with_kind ?v _ = _ => apply (un_self _ _ lib_exact v); exact Hk end).
    + destruct x as [|y [|? ?]]; try contradiction. unfold with_kind; simpl. rewrite Hk. reflexivity.
    + unfold with_kind. cbn [l_kind l_id l_const]. rewrite plane_self, Hk. reflexivity.
    + destruct x as [|y0 [|y1 [|y2 [|? ?]]]]; try contradiction. unfold with_kind; simpl. unfold wrap2; simpl. rewrite Hk. reflexivity.
Qed.
