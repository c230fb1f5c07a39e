(** The library's variables and their displacement. *)
From Coq Require Import List Arith ZArith Bool Reals Lra Lia.
From Verif Require Import Base Sparse Graph ListLemmas Geom Vars Real FactorsLin FactorsGeo FactorLib Optimizer SpecTwin TwinGraph SpecMoved.
Import ListNotations.
Local Open Scope R_scope.
Set Bullet Behavior "Strict Subproofs".

Section Moved.
Context (tr org : addr -> nat -> R).
Notation RV := (moved_var tr org).
Notation XR := (fun a : addr => by_vec (tr a)).
Notation heap := (@heap (lvar RN)).

Lemma by_vec_zero t x x' : by_vec t x x' -> (forall i, t i = 0) -> x' = x.
Proof.
  intros (L & H) Z. apply (nth_ext _ _ 0 0); auto. intros i Hi. rewrite L in Hi. rewrite H, Z by auto. lra.
Qed.
Lemma by_vec_refl t x : (forall i, t i = 0) -> by_vec t x x.
Proof. intros Z. split; auto. intros i _. rewrite Z. lra. Qed.
Lemma by_vec_nil t x : by_vec t [] x -> x = [].
Proof. intros (L & _). destruct x; [reflexivity|discriminate]. Qed.
Lemma by_vec_cons t y x x' : by_vec t (y :: x) x' -> exists z, x' = (y + t 0%nat) :: z /\ by_vec (fun i => t (S i)) x z.
Proof.
  intros (L & H). destruct x' as [|w z]; [discriminate|]. exists z. split; [f_equal; exact (H 0%nat (Nat.lt_0_succ _))|]. split; [cbn in L; lia|].
  intros i Hi. apply (H (S i)). cbn. lia.
Qed.
Lemma kval_moved a v v' : RV a v v' -> by_vec (tr a) (kval (l_kind v)) (kval (l_kind v')).
Proof.
  intros (_ & _ & H). destruct (l_kind v), (l_kind v'); cbn [kval]; try contradiction; try exact H; try (apply H).
  - destruct H as (_ & -> & Z). apply by_vec_refl. exact Z.
  - destruct H as (_ & _ & _ & _ & -> & Z & _). apply by_vec_refl. exact Z.
  - destruct H as (-> & -> & Z). apply by_vec_refl. exact Z.
Qed.
Lemma ksize_moved a v v' : RV a v v' -> ksize (l_kind v) = ksize (l_kind v').
Proof. intros (_ & _ & H). destruct (l_kind v), (l_kind v'); cbn [ksize]; try contradiction; auto. symmetry. apply H. Qed.
Lemma nth_by t (x x' : list R) i (d : R) : by_vec t x x' -> (i < length x)%nat -> nth i x' d = nth i x d + t i.
Proof. intros (L & H) Hi. rewrite (nth_indep x' d 0), (nth_indep x d 0) by lia. apply H. exact Hi. Qed.
(** adding the same vector *)
Lemma nth_vadd (x y : list R) i : length x = length y -> nth i (vadd (N:=RN) x y) 0 = nth i x 0 + nth i y 0.
Proof.
  revert y i. induction x as [|a x IH]; intros [|b y] [|i] L; cbn in *; try discriminate; try lra. apply IH. congruence.
Qed.
Lemma vadd_length (x y : list R) : length x = length y -> length (vadd (N:=RN) x y) = length x.
Proof. revert y. induction x as [|a x IH]; intros [|b y] L; cbn in *; try discriminate; auto. f_equal. apply IH. congruence. Qed.
Lemma by_vadd t x x' d : length d = length x -> by_vec t x x' -> by_vec t (vadd (N:=RN) x d) (vadd (N:=RN) x' d).
Proof.
  intros L H. pose proof H as (L' & _). split; [rewrite !vadd_length; cbn in *; lia|]. intros i Hi. rewrite vadd_length in Hi by (cbn in *; lia).
  rewrite !nth_vadd by (cbn in *; lia). rewrite (nth_by t x x' i 0 H Hi). lra.
Qed.
Lemma clip_ge lo hi y : / 1000000000 <= lo -> / 1000000000 <= hi -> / 1000000000 <= clip (N:=RN) lo hi y.
Proof.
  intros A B. unfold clip. rewrite r_nmin, r_nmax. unfold Rmin, Rmax. repeat destruct (Rle_dec _ _); lra.
Qed.
Lemma seg3_by t off x x' : by_vec t x x' -> (3 + off <= length x)%nat -> by_v3 (fun i => t (i + off)%nat) (seg3 (N:=RN) off x) (seg3 (N:=RN) off x').
Proof.
  intros H L. unfold by_v3, seg3. cbn [vx vy vz]. rewrite !(nth_by t x x') by (auto; lia). repeat split; reflexivity.
Qed.
Lemma by_v3_zero t p p' : by_v3 t p p' -> (forall i, t i = 0) -> p' = p.
Proof. intros (A & B & C) Z. rewrite Z, Rplus_0_r in *. destruct p, p'. cbn in *. congruence. Qed.

Lemma by_cons t y x z : by_vec (fun i => t (S i)) x z -> by_vec t (y :: x) ((y + t 0%nat) :: z).
Proof.
  intros (L & H). split; [cbn; congruence|]. intros [|i] Hi; cbn in *; [reflexivity|]. apply H. lia.
Qed.
Lemma pose_inc t (x x' : list R) (p r : v3 RN) : by_vec t x x' -> (6 <= length x)%nat -> (forall i, (3 <= i)%nat -> t i = 0) ->
  by_vec t (v3list (v3add (seg3 (N:=RN) 0 x) p) ++ v3list r ++ skipn 6 x) (v3list (v3add (seg3 (N:=RN) 0 x') p) ++ v3list r ++ skipn 6 x').
Proof.
  intros H L Z. do 6 (destruct x as [|? x]; [exfalso; cbn in L; lia|]). do 6 (apply by_vec_cons in H; destruct H as (?z & -> & H)).
  cbn [v3list v3add seg3 nth app skipn vx vy vz Nat.add]. 
  assert (E : forall u v w : R, u + v + w = u + w + v) by (intros; lra).
  change (nadd (n:=RN)) with Rplus. rewrite !(E _ (t _)). do 3 apply by_cons.
  replace (vx r) with (vx r + t 3%nat) at 2 by (rewrite Z by lia; apply Rplus_0_r). apply by_cons.
  replace (vy r) with (vy r + t 4%nat) at 2 by (rewrite Z by lia; apply Rplus_0_r). apply by_cons.
  replace (vz r) with (vz r + t 5%nat) at 2 by (rewrite Z by lia; apply Rplus_0_r). apply by_cons. exact H.
Qed.
Ltac lens H L := pose proof (proj1 H) as L; change (@length R) with (@length (car RN)) in L.
Lemma lib_twinned : twinned (lib RN) RV XR.
Proof.
  constructor.
  - intros a v v' H. split; [apply H|]. split; [exact (ksize_moved a v v' H)|apply H].
  - intros a v v' H. exact (kval_moved a v v' H).
  - intros a x x' (H & _). auto.
  - intros a [i c k] [i' c' k'] d (Hi & Hc & H). cbn in Hi, Hc, H. subst i' c'. cbn [lib vinc l_kind]. unfold with_kind, omap. cbn [l_id l_const].
    destruct k as [x|x|x A|x A|o b lo hi x|n e|x], k' as [x'|x'|x' A'|x' A'|o' b' lo' hi' x'|n' e'|x']; try contradiction; cbn [kinc].
    + lens H L. rewrite L. destruct (length d =? length x)%nat eqn:E; [|reflexivity]. cbn. split; auto. split; auto. apply by_vadd; auto. apply Nat.eqb_eq. exact E.
    + lens H L. destruct (length d =? 3)%nat; [|reflexivity]. unfold vec_plus. rewrite L. destruct (length x =? length d)%nat eqn:E; cbn; [|reflexivity].
      split; auto. split; auto. apply by_vadd; auto. apply Nat.eqb_eq in E. symmetry; exact E.
    + destruct H as (<- & H & Z). lens H L. rewrite L. destruct (length d =? 6)%nat; [|reflexivity]. destruct (length x <? 6)%nat eqn:E; [reflexivity|].
      apply Nat.ltb_ge in E. cbn [alike]. split; [reflexivity|]. split; [reflexivity|]. cbn [l_kind]. split; [reflexivity|]. exact (conj (pose_inc (tr a) x x' _ _ H E Z) Z).
    + destruct H as (<- & <- & Z). destruct (to_v3 d) as [w|e|u]; cbn [alike obind]; try reflexivity; (split; [reflexivity|split; [reflexivity|cbn; auto 10]]).
    + destruct H as (Ho & <- & <- & <- & <- & Z & A & B & C). destruct (length d =? 1)%nat eqn:E; [|reflexivity]. unfold vec_plus. destruct (length x =? length d)%nat eqn:E2; [|reflexivity]. cbn.
      apply Nat.eqb_eq in E. apply Nat.eqb_eq in E2. destruct d as [|e [|? ?]]; try discriminate E. destruct x as [|y [|? ?]]; try discriminate E2. cbn [alike clip0 vadd vzip obind].
      split; [reflexivity|]. split; [reflexivity|]. cbn [l_kind]. split; [exact Ho|]. repeat (split; [solve [auto]|]). constructor; [apply clip_ge; auto|constructor].
    + destruct H as (<- & <- & Z). destruct (length d =? 4)%nat; cbn [alike obind]; try reflexivity; (split; [reflexivity|split; [reflexivity|cbn; auto 10]]).
    + destruct H as (L3 & H & Z). destruct (length d =? 3)%nat; [|reflexivity]. cbn. split; auto. split; auto. split; auto. split; auto.
      assert (X : forall j d0, (j < 3)%nat -> nth j x' d0 = nth j x d0 + tr a j) by (intros j d0 Hj; apply nth_by; [exact H|exact (eq_ind_r (fun n => (j < n)%nat) Hj L3)]).
      split; [reflexivity|]. cbn [length]. intros j Hj. destruct j as [|[|[|j]]]; cbn; try lia; change (car RN) with R in *; rewrite X by lia; [lra..|]. rewrite (Z 2%nat) by lia. rewrite !Rplus_0_r. reflexivity.
  - intros a [i c k] [i' c' k'] x x' (Hi & Hc & H) HX. cbn in Hi, Hc, H. subst i' c'. cbn [lib vset l_kind]. unfold with_kind, omap. cbn [l_id l_const].
    lens HX LX. destruct k as [y|y|y A|y A|o b lo hi y|n d|y], k' as [y'|y'|y' A'|y' A'|o' b' lo' hi' y'|n' d'|y']; try contradiction; cbn [kset].
    + lens H L. rewrite LX, L. destruct (_ =? _)%nat; [|reflexivity]. split; [reflexivity|]. split; [reflexivity|]. exact HX.
    + split; [reflexivity|]. split; [reflexivity|]. exact HX.
    + destruct H as (<- & H & Z). rewrite LX. destruct (length x <? 6)%nat eqn:E; [reflexivity|]. apply Nat.ltb_ge in E. cbn [alike]. split; [reflexivity|]. split; [reflexivity|]. cbn [l_kind].
      split; [|auto]. f_equal. symmetry. apply (by_v3_zero (fun j => tr a (j + 3)%nat)); [apply seg3_by; auto|]. intros j. apply Z. lia.
    + destruct H as (<- & <- & Z). rewrite (by_vec_zero _ _ _ HX Z). destruct (to_v3 x) as [w|e|u]; cbn [alike obind]; try reflexivity; (split; [reflexivity|split; [reflexivity|cbn; auto 10]]).
    + destruct H as (Ho & <- & <- & <- & <- & Z & P & Q & C). rewrite (by_vec_zero _ _ _ HX Z). destruct x as [|z x]; [reflexivity|]. cbn [alike clip0 obind].
      split; [reflexivity|]. split; [reflexivity|]. cbn [l_kind]. split; [exact Ho|]. repeat (split; [solve [auto]|]). constructor; [apply clip_ge; auto|constructor].
    + destruct H as (<- & <- & Z). rewrite (by_vec_zero _ _ _ HX Z). destruct (length x =? 4)%nat; cbn [alike obind]; try reflexivity; (split; [reflexivity|split; [reflexivity|cbn; auto 10]]).
    + destruct H as (L3 & H & Z). rewrite LX. destruct (length x =? 3)%nat eqn:E; [|reflexivity]. apply Nat.eqb_eq in E. cbn [alike]. split; [reflexivity|]. split; [reflexivity|]. cbn [l_kind]. split; auto. split; auto.
      assert (X : forall j d0, (j < 3)%nat -> nth j x' d0 = nth j x d0 + tr a j) by (intros j d0 Hj; apply nth_by; [exact HX|exact (eq_ind_r (fun n => (j < n)%nat) Hj E)]).
      split; [reflexivity|]. cbn [length wrap2]. intros j Hj. destruct j as [|[|[|j]]]; cbn; try lia; change (car RN) with R in *; rewrite X by lia; [lra..|]. rewrite (Z 2%nat) by lia. rewrite !Rplus_0_r. reflexivity.
  - intros a v v' b (H1 & H2 & H3). split; [exact H1|]. split; [reflexivity|exact H3].
Qed.

(** ** Reading *)
Lemma hget_alike h h' a : heaps RV h h' -> alike (RV a) (hget h a) (hget h' a).
Proof. intros H. exact (hget_pair RV h h' a H). Qed.
Lemma const_alike h h' a : heaps RV h h' -> alike (fun v v' => l_const v' = l_const v) (hget h a) (hget h' a).
Proof. intros H. pose proof (hget_alike h h' a H) as X. destruct (hget h a), (hget h' a); cbn [alike obind] in *; auto. symmetry. apply X. Qed.
Lemma blk_same h h' a M : heaps RV h h' -> blk h a M = blk h' a M.
Proof.
  intros H. pose proof (const_alike h h' a H) as X. unfold blk, block_for. destruct (hget h a), (hget h' a); cbn [alike obind] in *; try contradiction; try congruence. cbn [vconst lib]. rewrite X. reflexivity.
Qed.
Lemma value_pair h h' a : heaps RV h h' -> alike (by_vec (tr a)) (value_at h a) (value_at h' a).
Proof. intros H. pose proof (hget_alike h h' a H) as X. unfold value_at. destruct (hget h a), (hget h' a); cbn [alike obind] in *; auto. apply (kval_moved a); exact X. Qed.
Lemma to_v3_by t x x' : by_vec t x x' -> alike (by_v3 t) (to_v3 (N:=RN) x) (to_v3 (N:=RN) x').
Proof.
  intros H. unfold to_v3. change (car RN) with R. rewrite (proj1 H). destruct (length x =? 3)%nat eqn:E; cbn; auto. apply Nat.eqb_eq in E.
  destruct (seg3_by t 0 x x' H) as (A & B & C); [cbn in *; lia|]. cbn [Nat.add] in A, B, C. exact (conj A (conj B C)).
Qed.
Lemma value3_pair h h' a : heaps RV h h' -> alike (by_v3 (tr a)) (value3_at h a) (value3_at h' a).
Proof. intros H. pose proof (value_pair h h' a H) as X. unfold value3_at. destruct (value_at h a), (value_at h' a); cbn [alike obind] in *; try contradiction; auto. apply to_v3_by. exact X. Qed.
Lemma landmark_pair h h' a : heaps RV h h' -> alike (by_v3 (tr a)) (landmark_at h a) (landmark_at h' a).
Proof.
  intros H. pose proof (hget_alike h h' a H) as X. unfold landmark_at. destruct (hget h a) as [v|e|u], (hget h' a) as [v'|e'|u']; cbn [alike obind] in *; try contradiction; auto.
  destruct X as (_ & _ & X). destruct (l_kind v), (l_kind v'); try contradiction; try reflexivity. apply to_v3_by. exact X.
Qed.
Lemma rot_same h h' a : heaps RV h h' -> rot_at h a = rot_at h' a.
Proof.
  intros H. pose proof (hget_alike h h' a H) as X. unfold rot_at. destruct (hget h a) as [v|e|u], (hget h' a) as [v'|e'|u']; cbn [alike obind] in *; try contradiction; try congruence.
  destruct X as (_ & _ & X). destruct (l_kind v), (l_kind v'); try contradiction; try reflexivity. destruct X as (-> & _). reflexivity.
Qed.
Lemma plane_same h h' a : heaps RV h h' -> plane_at h a = plane_at h' a.
Proof.
  intros H. pose proof (hget_alike h h' a H) as X. unfold plane_at. destruct (hget h a) as [v|e|u], (hget h' a) as [v'|e'|u']; cbn [alike obind] in *; try contradiction; try congruence.
  destruct X as (_ & _ & X). destruct (l_kind v), (l_kind v'); try contradiction; try reflexivity. destruct X as (-> & -> & _). reflexivity.
Qed.
Lemma generic_pair h h' a : heaps RV h h' -> alike (by_vec (tr a)) (generic_at h a) (generic_at h' a).
Proof.
  intros H. pose proof (hget_alike h h' a H) as X. unfold generic_at. destruct (hget h a) as [v|e|u], (hget h' a) as [v'|e'|u']; cbn [alike obind] in *; try contradiction; auto.
  destruct X as (_ & _ & X). destruct (l_kind v), (l_kind v'); try contradiction; try reflexivity. exact X.
Qed.
Lemma pose_pair h h' a : heaps RV h h' -> alike (fun P P' => snd P' = snd P /\ by_v3 (tr a) (fst P) (fst P')) (pose_at h a) (pose_at h' a).
Proof.
  intros H. pose proof (hget_alike h h' a H) as X. unfold pose_at. destruct (hget h a) as [v|e|u], (hget h' a) as [v'|e'|u']; cbn [alike obind] in *; try contradiction; auto.
  destruct X as (_ & _ & X). destruct (l_kind v) as [y|y|y A|y A|o b lo hi y|n d|y], (l_kind v') as [y'|y'|y' A'|y' A'|o' b' lo' hi' y'|n' d'|y']; try contradiction; try reflexivity.
  destruct X as (<- & X & _). lens X L. rewrite L. destruct (length y <? 3)%nat eqn:E; [reflexivity|]. apply Nat.ltb_ge in E. cbn. split; auto.
  destruct (seg3_by (tr a) 0 y y' X) as (P & Q & C); [cbn in *; lia|]. cbn [Nat.add] in P, Q, C. exact (conj P (conj Q C)).
Qed.
Lemma pose2_pair h h' a : heaps RV h h' ->
  alike (fun P P' => snd P' = snd P /\ v2x (fst P') = v2x (fst P) + tr a 0%nat /\ v2y (fst P') = v2y (fst P) + tr a 1%nat) (pose2_at h a) (pose2_at h' a).
Proof.
  intros H. pose proof (hget_alike h h' a H) as X. unfold pose2_at. destruct (hget h a) as [v|e|u], (hget h' a) as [v'|e'|u']; cbn [alike obind] in *; try contradiction; auto.
  destruct X as (_ & _ & X). destruct (l_kind v) as [y|y|y A|y A|o b lo hi y|n d|y], (l_kind v') as [y'|y'|y' A'|y' A'|o' b' lo' hi' y'|n' d'|y']; try contradiction; try reflexivity.
  destruct X as (L & X & Z). destruct y as [|y0 [|y1 [|y2 [|? ?]]]]; try discriminate L. apply by_vec_cons in X. destruct X as (z & -> & X). apply by_vec_cons in X. destruct X as (z1 & -> & X).
  apply by_vec_cons in X. destruct X as (z2 & -> & X). apply by_vec_nil in X. subst z2. cbn. rewrite (Z 2%nat) by lia. rewrite Rplus_0_r. auto.
Qed.
Lemma value2_pair h h' a : heaps RV h h' -> alike (fun p p' => v2x p' = v2x p + tr a 0%nat /\ v2y p' = v2y p + tr a 1%nat) (value2_at h a) (value2_at h' a).
Proof.
  intros H. pose proof (value_pair h h' a H) as X. unfold value2_at. destruct (value_at h a) as [x|e|u], (value_at h' a) as [x'|e'|u']; cbn [alike obind] in *; try contradiction; auto.
  destruct x as [|p x]; [apply by_vec_nil in X; subst; reflexivity|]. apply by_vec_cons in X. destruct X as (z & -> & X).
  destruct x as [|q x]; [apply by_vec_nil in X; subst; reflexivity|]. apply by_vec_cons in X. destruct X as (z1 & -> & X). cbn. auto.
Qed.
Lemma inv_pair h h' a : heaps RV h h' ->
  alike (fun P P' => snd P' = snd P /\ snd (fst P') = snd (fst P) /\ by_v3 (org a) (fst (fst P)) (fst (fst P'))) (inv_at h a) (inv_at h' a).
Proof.
  intros H. pose proof (hget_alike h h' a H) as X. unfold inv_at. destruct (hget h a) as [v|e|u], (hget h' a) as [v'|e'|u']; cbn [alike obind] in *; try contradiction; auto.
  destruct X as (_ & _ & X). unfold inv_pos. destruct (l_kind v) as [y|y|y A|y A|o b lo hi y|n d|y], (l_kind v') as [y'|y'|y' A'|y' A'|o' b' lo' hi' y'|n' d'|y']; try contradiction; try reflexivity.
  destruct X as (Ho & <- & <- & <- & <- & Z & P & Q & C). destruct y as [|y0 y]; [reflexivity|]. cbn in C. apply Forall_inv in C. cbn [nth].
  assert (E : (negb (nfinite (n:=RN) y0) || nltb (n:=RN) (nabs y0) (nlit (QArith_base.Qmake 1 1000000000)))%bool = false).
  { cbn. unfold Rltb. destruct (Rlt_dec _ _) as [X|_]; [exfalso|reflexivity]. rewrite Rabs_right in X by lra. cbn in X. lra. }
  change (car RN) with R in *. rewrite E. cbn [alike fst snd]. split; [reflexivity|]. split; [reflexivity|]. destruct Ho as (P1 & P2 & P3). unfold by_v3, v3add. cbn [vx vy vz nadd RN]. rewrite P1, P2, P3. repeat split; cbn; lra.
Qed.
Lemma v3sub_by t s p p' q q' : by_v3 t p p' -> by_v3 s q q' -> (forall i, (i < 3)%nat -> t i = s i) -> v3sub (N:=RN) p' q' = v3sub p q.
Proof.
  intros (A & B & C) (A' & B' & C') H. unfold v3sub. rewrite A, B, C, A', B', C', !H by lia. cbn. f_equal; cbn; lra.
Qed.
End Moved.
