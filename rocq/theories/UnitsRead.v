(** Reading the library's variables, and geometry, in other units. *)
From Coq Require Import List Arith ZArith QArith Bool Reals Lra Lia.
From Verif Require Import Base Sparse Graph SpecGraph ListLemmas Geom Vars Real RSum GeomR Trig FactorsLin FactorsGeo FactorLib FactorShape SpecTwin TwinGraph SpecBlocks SpecChange Change SpecUnits UnitsVars.
Import ListNotations.
Local Open Scope R_scope.
Set Bullet Behavior "Strict Subproofs".

(** ** geometry *)
Section Geometry.
Context (e : R).
Hypothesis He : 0 < e.
Notation sc := (v3scale (N:=RN) (e : RN)).
Lemma sc_sub p q : v3sub (sc p) (sc q) = sc (v3sub p q).
Proof. dv p; dv q. gx. f_equal; ring. Qed.
Lemma sc_m C p : m3v C (sc p) = sc (m3v C p).
Proof. dm C; dv p. gx. f_equal; ring. Qed.
Lemma sc_dot n p : v3dot (N:=RN) n (sc p) = (e * v3dot (N:=RN) n p)%R.
Proof. dv n; dv p. gx. ring. Qed.
Lemma sc_sq p : v3sq (N:=RN) (sc p) = (e * e * v3sq (N:=RN) p)%R.
Proof. dv p. gx. ring. Qed.
Lemma sqrt_sc x : sqrt (e * e * x) = e * sqrt x.
Proof.
  destruct (Rle_lt_dec 0 x) as [Hx|Hx]; [|rewrite (sqrt_neg_0 x), (sqrt_neg_0 (e * e * x)) by nra; ring]. rewrite sqrt_mult by nra. rewrite sqrt_square by lra. reflexivity.
Qed.
Lemma sc_norm p : v3norm (N:=RN) (sc p) = (e * v3norm (N:=RN) p)%R.
Proof. unfold v3norm. rewrite sc_sq. exact (sqrt_sc _). Qed.
Lemma div_sc x n : (e * x) / (e * n) = x / n.
Proof. unfold Rdiv. rewrite Rinv_mult. replace (e * x * (/ e * / n)) with (e * / e * (x * / n)) by ring. rewrite Rinv_r by lra. ring. Qed.
Lemma sc_div p n : v3div (N:=RN) (sc p) ((e * n)%R : RN) = v3div p (n : RN).
Proof. dv p. unfold v3div, v3scale. cbn [vx vy vz]. cbn. rewrite !div_sc. reflexivity. Qed.
Lemma sc_normalized p : v3normalized (N:=RN) (sc p) = v3normalized p \/ v3sq (N:=RN) p = 0.
Proof.
  assert (P : 0 <= v3sq (N:=RN) p) by (dv p; gx; nra). destruct (Req_dec (v3sq (N:=RN) p) 0) as [Z|Z]; [right; exact Z|left].
  unfold v3normalized. change (nsqrt (n:=RN)) with sqrt. rewrite sc_sq, sqrt_sc. replace (nzero (N:=RN)) with (0 : RN) by (symmetry; exact q0).
  assert (P' : (0 < v3sq (N:=RN) p)%R) by (destruct P as [P|P]; [exact P|exfalso; apply Z; symmetry; exact P]).
  assert (A : nltb (n:=RN) 0 (e * e * v3sq (N:=RN) p) = true) by (apply Rltb_true; apply Rmult_lt_0_compat; [nra|exact P']). assert (B : nltb (n:=RN) 0 (v3sq (N:=RN) p) = true) by (apply Rltb_true; exact P').
  rewrite A, B. apply sc_div.
Qed.
Lemma normalized_sc p : v3normalized (N:=RN) (sc p) = v3normalized p.
Proof.
  destruct (sc_normalized p) as [E|Z]; [exact E|]. assert (p = v3zero (N:=RN)) as ->.
  { dv p. gx in Z. gx. f_equal; nra. }
  unfold v3zero, v3scale, v3normalized, v3sq. cbn [vx vy vz]. f_equal; cbn; rewrite q0.
  match goal with |- (if ?a then ?b else ?c) = (if ?a' then ?b' else ?c') => assert (E : c = c') end; [f_equal; ring|].
  rewrite !Rmult_0_r. reflexivity.
Qed.
Lemma atan2_sc y x : Ratan2 (e * y) (e * x) = Ratan2 y x.
Proof.
  unfold Ratan2. assert (D : e * y / (e * x) = y / x) by apply div_sc. rewrite D.
  repeat match goal with |- context [Rlt_dec ?a ?b] => destruct (Rlt_dec a b) | |- context [Rle_dec ?a ?b] => destruct (Rle_dec a b) | |- context [Req_EM_T ?a ?b] => destruct (Req_EM_T a b) end; try reflexivity; try lra; exfalso; try nra.
Qed.
End Geometry.

(** ** reading *)
Section Reading.
Context (u : addr -> nat -> R).
Hypothesis Hu : forall a i, 0 < u a i.
Notation RV := (rescaled_var u).
Notation heap := (@heap (lvar RN)).
Notation unit_is := (unit_is u).

Ltac ends X := cbn [alike obind] in *; try contradiction; auto; destruct X as (_ & _ & X).
Lemma value_times h h' a : heaps RV h h' -> alike (times_vec (u a)) (value_at h a) (value_at h' a).
Proof. intros H. pose proof (hget_pair RV h h' a H) as X. unfold value_at. destruct (hget h a), (hget h' a); cbn [alike obind] in *; auto. apply (kval_times u a); exact X. Qed.
Lemma to_v3_times t e x x' : times_vec t x x' -> (forall i, (i < 3)%nat -> t i = e) -> alike (fun p p' => p' = v3scale (e : RN) p) (to_v3 (N:=RN) x) (to_v3 (N:=RN) x').
Proof.
  intros H Z. unfold to_v3. change (car RN) with R. rewrite (proj1 H). destruct (length x =? 3)%nat; cbn [alike]; auto. rewrite (seg3_times _ 0 x x' H). cbn [Nat.add]. rewrite (Z 0%nat), (Z 1%nat), (Z 2%nat) by lia. reflexivity.
Qed.
Lemma value3_scaled h h' a e : heaps RV h h' -> unit_is a 3 e -> alike (fun p p' => p' = v3scale (e : RN) p) (value3_at h a) (value3_at h' a).
Proof. intros H Z. pose proof (value_times h h' a H) as X. unfold value3_at. destruct (value_at h a), (value_at h' a); cbn [alike obind] in *; try contradiction; auto. exact (to_v3_times _ e _ _ X Z). Qed.
Lemma landmark_scaled h h' a e : heaps RV h h' -> unit_is a 3 e -> alike (fun p p' => p' = v3scale (e : RN) p) (landmark_at h a) (landmark_at h' a).
Proof.
  intros H Z. pose proof (hget_pair RV h h' a H) as X. unfold landmark_at. destruct (hget h a) as [v|e0|u0], (hget h' a) as [v'|e0'|u0']; ends X.
  destruct (l_kind v), (l_kind v'); try contradiction; try reflexivity. exact (to_v3_times _ e _ _ X Z).
Qed.
Lemma rot_same h h' a : heaps RV h h' -> alike (fun A A' => A' = A /\ forall i, u a i = 1) (rot_at h a) (rot_at h' a).
Proof.
  intros H. pose proof (hget_pair RV h h' a H) as X. unfold rot_at. destruct (hget h a) as [v|e|u0], (hget h' a) as [v'|e'|u0']; ends X.
  destruct (l_kind v), (l_kind v'); try contradiction; try reflexivity. destruct X as (-> & _ & Z). split; [reflexivity|exact Z].
Qed.
Lemma plane_scaled h h' a : heaps RV h h' -> alike (fun P P' => P' = (fst P, (u a 3%nat * snd P)%R : RN) /\ unit_is a 3 1) (plane_at h a) (plane_at h' a).
Proof.
  intros H. pose proof (hget_pair RV h h' a H) as X. unfold plane_at. destruct (hget h a) as [v|e|u0], (hget h' a) as [v'|e'|u0']; ends X.
  destruct (l_kind v), (l_kind v'); try contradiction; try reflexivity. destruct X as (-> & -> & Z). split; [reflexivity|exact Z].
Qed.
Lemma generic_times h h' a : heaps RV h h' -> alike (times_vec (u a)) (generic_at h a) (generic_at h' a).
Proof.
  intros H. pose proof (hget_pair RV h h' a H) as X. unfold generic_at. destruct (hget h a) as [v|e|u0], (hget h' a) as [v'|e'|u0']; ends X.
  destruct (l_kind v), (l_kind v'); try contradiction; try reflexivity. exact X.
Qed.
Lemma pose_scaled h h' a e : heaps RV h h' -> unit_is a 3 e ->
  alike (fun P P' => P' = (v3scale (e : RN) (fst P), snd P) /\ u a 3%nat = 1 /\ u a 4%nat = 1 /\ u a 5%nat = 1) (pose_at h a) (pose_at h' a).
Proof.
  intros H Z. pose proof (hget_pair RV h h' a H) as X. unfold pose_at. destruct (hget h a) as [v|e0|u0], (hget h' a) as [v'|e0'|u0']; ends X.
  destruct (l_kind v) as [y|y|y A|y A|o b lo hi y|n d|y], (l_kind v') as [y'|y'|y' A'|y' A'|o' b' lo' hi' y'|n' d'|y']; try contradiction; try reflexivity.
  destruct X as (<- & X & O). pose proof (proj1 X) as L. change R with (car RN) in L. rewrite L. destruct (length y <? 3)%nat; [reflexivity|]. cbn [alike fst snd]. split; [|repeat split; apply O; lia].
  f_equal. rewrite (seg3_times _ 0 y y' X). cbn [Nat.add]. rewrite (Z 0%nat), (Z 1%nat), (Z 2%nat) by lia. reflexivity.
Qed.
(** the rotation only *)
Lemma pose_turned h h' a : heaps RV h h' -> alike (fun P P' => snd P' = snd P /\ u a 3%nat = 1 /\ u a 4%nat = 1 /\ u a 5%nat = 1) (pose_at h a) (pose_at h' a).
Proof.
  intros H. pose proof (hget_pair RV h h' a H) as X. unfold pose_at. destruct (hget h a) as [v|e0|u0], (hget h' a) as [v'|e0'|u0']; ends X.
  destruct (l_kind v) as [y|y|y A|y A|o b lo hi y|n d|y], (l_kind v') as [y'|y'|y' A'|y' A'|o' b' lo' hi' y'|n' d'|y']; try contradiction; try reflexivity.
  destruct X as (<- & X & O). pose proof (proj1 X) as L. change R with (car RN) in L. rewrite L. destruct (length y <? 3)%nat; [reflexivity|]. cbn [alike fst snd]. split; [|repeat split; apply O; lia]. reflexivity.
Qed.
Lemma pose2_scaled h h' a e : heaps RV h h' -> unit_is a 2 e ->
  alike (fun P P' => P' = (v2scale (e : RN) (fst P), snd P) /\ u a 2%nat = 1) (pose2_at h a) (pose2_at h' a).
Proof.
  intros H O. pose proof (hget_pair RV h h' a H) as X. unfold pose2_at. destruct (hget h a) as [v|e0|u0], (hget h' a) as [v'|e0'|u0']; ends X.
  destruct (l_kind v) as [y|y|y A|y A|o b lo hi y|n d|y], (l_kind v') as [y'|y'|y' A'|y' A'|o' b' lo' hi' y'|n' d'|y']; try contradiction; try reflexivity.
  destruct X as (L & X & Z). destruct y as [|y0 [|y1 [|y2 [|? ?]]]]; try discriminate L. apply times_cons in X. destruct X as (z & -> & X). apply times_cons in X. destruct X as (z1 & -> & X).
  apply times_cons in X. destruct X as (z2 & -> & X). apply times_nil in X. subst z2. cbn [alike fst snd]. rewrite Z, Rmult_1_l, (O 0%nat), (O 1%nat) by lia. split; reflexivity.
Qed.
Lemma value2_scaled h h' a e : heaps RV h h' -> unit_is a 2 e -> alike (fun p p' => p' = v2scale (e : RN) p) (value2_at h a) (value2_at h' a).
Proof.
  intros H O. pose proof (value_times h h' a H) as X. unfold value2_at. destruct (value_at h a) as [x|e0|u0], (value_at h' a) as [x'|e0'|u0']; cbn [alike obind] in *; try contradiction; auto.
  destruct x as [|p x]; [apply times_nil in X; subst; reflexivity|]. apply times_cons in X. destruct X as (z & -> & X).
  destruct x as [|q x]; [apply times_nil in X; subst; reflexivity|]. apply times_cons in X. destruct X as (z1 & -> & X). cbn [alike]. rewrite (O 0%nat), (O 1%nat) by lia. reflexivity.
Qed.
Lemma inv_scaled h h' a e : heaps RV h h' -> u a 0%nat = / e -> 0 < e ->
  alike (fun P P' => P' = (v3scale (e : RN) (fst (fst P)), (/ e * snd (fst P))%R : RN, snd P)) (inv_at h a) (inv_at h' a).
Proof.
  intros H O He. pose proof (hget_pair RV h h' a H) as X. unfold inv_at. destruct (hget h a) as [v|e0|u0], (hget h' a) as [v'|e0'|u0']; ends X.
  unfold inv_pos. destruct (l_kind v) as [y|y|y A|y A|o b lo hi y|n d|y], (l_kind v') as [y'|y'|y' A'|y' A'|o' b' lo' hi' y'|n' d'|y']; try contradiction; try reflexivity.
  destruct X as (Ho & <- & -> & -> & X & F & F'). destruct y as [|y0 y]; [apply times_nil in X; subst; reflexivity|]. apply times_cons in X. destruct X as (z & -> & X). cbn [nth].
  assert (C : forall t : R, / 1000000000 <= t -> (negb (nfinite (n:=RN) t) || nltb (n:=RN) (nabs (n:=RN) t) (nlit (n:=RN) (1#1000000000)))%bool = false).
  { intros t Ht. cbn. unfold Rltb. destruct (Rlt_dec _ _) as [Y|_]; [exfalso|reflexivity]. rewrite Rabs_right in Y by lra. cbn in Y. unfold Q2R in Y. cbn in Y. lra. }
  rewrite Forall_forall in F, F'. specialize (F y0 (or_intror (or_intror (or_introl eq_refl)))). specialize (F' _ (or_intror (or_intror (or_introl eq_refl)))).
  change (car RN) with R in *. rewrite (C _ F), (C _ F'). cbn [alike fst snd]. rewrite O in *. destruct Ho as (P1 & P2 & P3). rewrite Rinv_inv in P1, P2, P3. do 2 f_equal.
  destruct o as [ox oy oz], o' as [ox' oy' oz'], b as [bx b_y bz]. cbn in P1, P2, P3. subst. unfold v3add, v3scale. cbn [vx vy vz]. cbn. rewrite q1. assert (y0 <> 0) by lra. f_equal; field; lra.
Qed.

(** ** blocks *)
Definition same_entries (k : R) (n : nat) (h : heap) (a : addr) (B B' : mat RN) : Prop :=
  forall i c, (i < n)%nat -> (c < width (lib RN) h a)%nat -> mat_at B i c = (k * (mat_at B' i c * u a c))%R.
Fixpoint same_blocks (k : R) (n : nat) (h : heap) (vars : list (option addr)) (js js' : list (mat RN)) : Prop :=
  match vars, js, js' with
  | [], _, _ => True
  | Some a :: t, B :: js, B' :: js' => same_entries k n h a B B' /\ same_blocks k n h t js js'
  | _, _, _ => False
  end.
Definition scaled_factor (k : R) (f f' : factor (N:=RN) (V:=lvar RN)) : Prop :=
  f_rsize f' = f_rsize f /\ f_vars f' = f_vars f /\ forall h h', heaps RV h h' ->
    (forall x x' i, f_res_ref f h = Ok x -> f_res_ref f' h' = Ok x' -> (i < f_rsize f)%nat -> nth i x 0 = k * nth i x' 0) /\
    (forall js js', f_jac f h [] = (js, Ok tt) -> f_jac f' h' [] = (js', Ok tt) -> same_blocks k (f_rsize f) h (f_vars f) js js').
Lemma same_deriv k n h vars js js' a q : same_blocks k n h vars js js' -> listed_at a vars = Some q ->
  exists B B', nth_error js q = Some B /\ nth_error js' q = Some B' /\ same_entries k n h a B B'.
Proof.
  revert js js' q. induction vars as [|[b|] vars IH]; intros js js' q H L; cbn in L; [discriminate| |contradiction].
  destruct js as [|B js], js' as [|B' js']; cbn in H; try contradiction. destruct H as (E & H).
  destruct (Nat.eqb_spec a b) as [->|]; [injection L as <-; exists B, B'; auto|]. destruct (listed_at a vars) as [q'|] eqn:Eq; [|discriminate]. injection L as <-. cbn [nth_error]. eapply IH; eauto.
Qed.
Lemma scaled_changed k f f' h h' vs : 0 < k -> scaled_factor k f f' -> heaps RV h h' -> changed (lib RN) (stretch u) (/ (k * k)) h h' vs f f'.
Proof.
  intros Hk (A & B & C) H. destruct (C h h' H) as (C1 & C2). split; [exact A|]. split; [exact B|]. exists (fun i j => if (i =? j)%nat then / k else 0).
  assert (S1 : forall n i (g : nat -> R), (i < n)%nat -> rsum n (fun j => (if (i =? j)%nat then / k else 0) * g j)%R = (/ k * g i)%R).
  { intros n i g Hi. rewrite (rsum_single n i); [rewrite Nat.eqb_refl; reflexivity|exact Hi|]. intros j _ Hj. destruct (Nat.eqb_spec i j); [subst; contradiction|apply Rmult_0_l]. }
  split; [|split].
  - intros i j Hi Hj. rewrite (rsum_ext _ _ (fun e => (if (i =? e)%nat then / k else 0) * (if (e =? j)%nat then / k else 0))%R) by (intros e _; rewrite (Nat.eqb_sym e i); reflexivity).
    rewrite S1 by exact Hi. destruct (Nat.eqb_spec i j) as [->|]; [rewrite Rinv_mult; reflexivity|apply Rmult_0_r].
  - intros x x' i X X' Hi. rewrite S1 by exact Hi. rewrite (C1 x x' i X X' Hi). rewrite <- Rmult_assoc, Rinv_l by lra. symmetry. apply Rmult_1_l.
  - intros js js' a i c J J' Ha Hi Hc. rewrite S1 by exact Hi. rewrite (stretch_sum_r u a _ c (fun e => deriv h' f' a i e)) by exact Hc.
    specialize (C2 js js' J J'). unfold deriv. rewrite B, J, J'. cbn [fst]. destruct (listed_at a (f_vars f)) as [q|] eqn:Eq; [|rewrite Rmult_0_l, Rmult_0_r; reflexivity].
    destruct (same_deriv _ _ _ _ _ _ _ _ C2 Eq) as (M & M' & -> & -> & E). rewrite (E i c Hi Hc). rewrite <- Rmult_assoc, Rinv_l by lra. symmetry. apply Rmult_1_l.
Qed.
(** [blk] writes its matrix for every variable that is optimised *)
Lemma blk_entry (h : heap) a M B i c : blk h a M = Ok B -> (c < width (lib RN) h a)%nat -> mat_at B i c = mat_at M i c.
Proof.
  unfold blk, block_for, hget, width. destruct (nth_error h a) as [v|]; cbn; [|discriminate]. destruct (l_const v); [intros _ Hc; lia|]. intros E _. injection E as ->. reflexivity.
Qed.
Lemma heaps_wide h h' a : heaps RV h h' -> width (lib RN) h' a = width (lib RN) h a.
Proof.
  intros H. specialize (H a). unfold width. destruct (nth_error h a) as [v|], (nth_error h' a) as [v'|]; try contradiction; auto. cbn.
  rewrite (ksize_times u a v v' H). destruct H as (_ & <- & _). reflexivity.
Qed.
Lemma blk_same k n h h' a M M' B B' : heaps RV h h' -> blk h a M = Ok B -> blk h' a M' = Ok B' ->
  (forall i c, (i < n)%nat -> (c < width (lib RN) h a)%nat -> mat_at M i c = (k * (mat_at M' i c * u a c))%R) -> same_entries k n h a B B'.
Proof.
  intros H X X' E i c Hi Hc. rewrite (blk_entry _ _ _ _ i c X Hc). rewrite (blk_entry _ _ _ _ i c X') by (rewrite (heaps_wide h h' a H); exact Hc). apply E; auto.
Qed.
(** results of the chains of assignments *)
Lemma set1 (o0 : outcome (mat RN)) js : setj 0 o0 (sized 1 [], Ok tt) = (js, Ok tt) -> exists B0, o0 = Ok B0 /\ js = [B0].
Proof. destruct o0; cbn; intros E; inversion E. eauto. Qed.
Lemma set2 (o0 o1 : outcome (mat RN)) js : setj 1 o1 (setj 0 o0 (sized 2 [], Ok tt)) = (js, Ok tt) -> exists B0 B1, o0 = Ok B0 /\ o1 = Ok B1 /\ js = [B0; B1].
Proof. destruct o0; cbn; [destruct o1; cbn|..]; intros E; inversion E. eauto. Qed.
Lemma set3 (o0 o1 o2 : outcome (mat RN)) js : setj 2 o2 (setj 1 o1 (setj 0 o0 (sized 3 [], Ok tt))) = (js, Ok tt) -> exists B0 B1 B2, o0 = Ok B0 /\ o1 = Ok B1 /\ o2 = Ok B2 /\ js = [B0; B1; B2].
Proof. destruct o0; cbn; [destruct o1; cbn; [destruct o2; cbn|..]|..]; intros E; inversion E. eauto 8. Qed.
Lemma blocks1 k n h h' a M M' js js' : heaps RV h h' -> setj 0 (blk h a M) (sized 1 [], Ok tt) = (js, Ok tt) -> setj 0 (blk h' a M') (sized 1 [], Ok tt) = (js', Ok tt) ->
  (forall i c, (i < n)%nat -> mat_at M i c = (k * (mat_at M' i c * u a c))%R) -> same_blocks k n h [Some a] js js'.
Proof.
  intros H X X' E. apply set1 in X. apply set1 in X'. destruct X as (B & X & ->), X' as (B' & X' & ->). split; [|exact I]. eapply blk_same; eauto.
Qed.
Lemma blocks2 k n h h' a b M M' Nm Nm' js js' : heaps RV h h' ->
  setj 1 (blk h b Nm) (setj 0 (blk h a M) (sized 2 [], Ok tt)) = (js, Ok tt) -> setj 1 (blk h' b Nm') (setj 0 (blk h' a M') (sized 2 [], Ok tt)) = (js', Ok tt) ->
  (forall i c, (i < n)%nat -> mat_at M i c = (k * (mat_at M' i c * u a c))%R) -> (forall i c, (i < n)%nat -> mat_at Nm i c = (k * (mat_at Nm' i c * u b c))%R) ->
  same_blocks k n h [Some a; Some b] js js'.
Proof.
  intros H X X' E F. apply set2 in X. apply set2 in X'. destruct X as (B & C & X & Y & ->), X' as (B' & C' & X' & Y' & ->). split; [|split; [|exact I]]; eapply blk_same; eauto.
Qed.
Lemma blocks3 k n h h' a b d M M' Nm Nm' P P' js js' : heaps RV h h' ->
  setj 2 (blk h d P) (setj 1 (blk h b Nm) (setj 0 (blk h a M) (sized 3 [], Ok tt))) = (js, Ok tt) -> setj 2 (blk h' d P') (setj 1 (blk h' b Nm') (setj 0 (blk h' a M') (sized 3 [], Ok tt))) = (js', Ok tt) ->
  (forall i c, (i < n)%nat -> mat_at M i c = (k * (mat_at M' i c * u a c))%R) -> (forall i c, (i < n)%nat -> mat_at Nm i c = (k * (mat_at Nm' i c * u b c))%R) ->
  (forall i c, (i < n)%nat -> mat_at P i c = (k * (mat_at P' i c * u d c))%R) ->
  same_blocks k n h [Some a; Some b; Some d] js js'.
Proof.
  intros H X X' E F G. apply set3 in X. apply set3 in X'. destruct X as (B & C & D & X & Y & Z & ->), X' as (B' & C' & D' & X' & Y' & Z' & ->). split; [|split; [|split; [|exact I]]]; eapply blk_same; eauto.
Qed.
End Reading.
