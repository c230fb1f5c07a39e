(** The library's factors in another spatial frame. *)
From Coq Require Import List Arith ZArith QArith Bool Reals Lra Lia.
From Verif Require Import Base Sparse Graph SpecGraph ListLemmas Geom Vars Real RSum SpecGeom GeomR GeomLog Trig FactorsLin FactorsLinFacts FactorsGeo FactorLib FactorShape SpecTwin TwinGraph SpecBlocks SpecChange Change SpecPart PartLib UnitsVars UnitsRead UnitsFactors SpecSpace SpaceVars.
Import ListNotations.
Local Open Scope R_scope.
Set Bullet Behavior "Strict Subproofs".

Ltac zz := change (nzero (N:=RN)) with (Q2R 0); rewrite ?q0.
Ltac i3 i := destruct i as [|[|[|i]]]; [| | |lia].
Ltac cols c := destruct c as [|[|[|[|[|[|[|c]]]]]]].
(** ** algebra *)
Lemma alg_point_sub (Q : m3 RN) (w : R) x p t : v3scale (N:=RN) w (v3sub (v3add (m3v Q x) t) (v3add (m3v Q p) t)) = m3v Q (v3scale (N:=RN) w (v3sub x p)).
Proof. destruct Q, x, p, t. gring. Qed.
Lemma alg_local (Q A A' : m3 RN) x p t : m3mul A' Q = A -> m3v A' (v3sub (v3add (m3v Q x) t) (v3add (m3v Q p) t)) = m3v A (v3sub x p).
Proof. intros <-. rewrite m3v_mul. f_equal. destruct Q, x, p, t. gring. Qed.
Lemma alg_diff (Q : m3 RN) (w : R) b a m t : v3scale (N:=RN) w (v3sub (v3sub (v3add (m3v Q b) t) (v3add (m3v Q a) t)) (m3v Q m)) = m3v Q (v3scale (N:=RN) w (v3sub (v3sub b a) m)).
Proof. destruct Q, b, a, m, t. gring. Qed.
Lemma alg_vel (Q : m3 RN) (w dt : R) b a m t : v3scale (N:=RN) w (v3sub (v3sub (v3add (m3v Q b) t) (v3add (m3v Q a) t)) (v3scale (N:=RN) dt (m3v Q m))) = m3v Q (v3scale (N:=RN) w (v3sub (v3sub b a) (v3scale (N:=RN) dt m))).
Proof. destruct Q, b, a, m, t. gring. Qed.
Lemma alg_scale (w : R) (A Q : m3 RN) : m3mul (m3scale (N:=RN) w A) Q = m3scale (N:=RN) w (m3mul A Q).
Proof. destruct A, Q. gring. Qed.
Lemma alg_diag_l (w : R) (Q : m3 RN) : m3mul (m3diag (N:=RN) w) Q = m3scale (N:=RN) w Q.
Proof. unfold m3diag. destruct Q. gring. Qed.
Lemma alg_diag_r (w : R) (Q : m3 RN) : m3mul Q (m3diag (N:=RN) w) = m3scale (N:=RN) w Q.
Proof. unfold m3diag. destruct Q. gring. Qed.
Lemma alg_zero_r (Q : m3 RN) : m3mul Q m3zero = m3zero.
Proof. destruct Q. gring. Qed.
Lemma alg_zero_l (Q : m3 RN) : m3mul m3zero Q = m3zero.
Proof. destruct Q. gring. Qed.
Lemma v3add_zero (p : v3 RN) : v3add p (V3 (N:=RN) 0 0 0) = p.
Proof. destruct p. gring. Qed.

Section Factors.
Context (Q : m3 RN) (t : v3 RN) (ro : addr -> role3).
Hypothesis HQ : rotation Q.
Notation RV := (reframed3_var Q t ro).
Notation heap := (@heap (lvar RN)).
Notation turning := (turning3 Q).
Notation turning_of := (turning3_of Q ro).
Notation turned := (turned ro).

(** ** reading *)
Definition shift (a : addr) : v3 RN := match ro a with Place => t | _ => V3 (N:=RN) 0 0 0 end.
Lemma shift_place a : ro a = Place -> shift a = t.
Proof. unfold shift. intros ->. reflexivity. Qed.
Lemma shift_difference a : ro a = Difference -> shift a = V3 (N:=RN) 0 0 0.
Proof. unfold shift. intros ->. reflexivity. Qed.
Lemma value_turned h h' a : heaps RV h h' -> turned a -> alike (fun x x' => first3 x' = v3add (m3v Q (first3 x)) (shift a)) (value_at h a) (value_at h' a).
Proof.
  intros H Hr. pose proof (hget_pair RV h h' a H) as X. unfold value_at, shift. destruct (hget h a) as [v| |], (hget h' a) as [v'| |]; cbn [alike obind] in *; auto. destruct X as (_ & _ & X). unfold SpaceVars.turned in Hr.
  destruct (ro a) eqn:Er; try contradiction; destruct (l_kind v), (l_kind v'); try contradiction; cbn [kval]; destruct X as (_ & _ & X); first [apply point_alg; first [exact X|exact (proj1 X)] | rewrite v3add_zero; apply image_mul; exact X].
Qed.
Lemma seg3_first (x : list R) : seg3 (N:=RN) 0 x = first3 x.
Proof. unfold seg3, first3. cbn [Nat.add]. zz. reflexivity. Qed.
Lemma pose_placed h h' a : heaps RV h h' -> ro a = Place ->
  alike (fun P P' => fst P' = v3add (m3v Q (fst P)) t /\ rotation (snd P) /\ rotation (snd P') /\ m3mul (snd P') Q = snd P) (pose_at h a) (pose_at h' a).
Proof.
  intros H Hr. pose proof (hget_pair RV h h' a H) as X. unfold pose_at. destruct (hget h a) as [v| |], (hget h' a) as [v'| |]; cbn [alike obind] in *; try contradiction; try exact X. destruct X as (_ & _ & X). rewrite Hr in X.
  destruct (l_kind v) as [x|x|x A|x A|o b lo hi x|n e|x], (l_kind v') as [x'|x'|x' A'|x' A'|o' b' lo' hi' x'|n' e'|x']; try contradiction; try reflexivity.
  destruct X as (L & L' & P & (R1 & R2 & E)). change (car RN) with R in *. rewrite L, L'. cbn [Nat.ltb Nat.leb alike fst snd]. rewrite !seg3_first. split; [apply point_alg; exact P|]. split; [exact R1|]. split; [exact R2|]. symmetry. apply product_mul. exact E.
Qed.
Lemma to_first3 (x : list R) : length x = 3%nat -> to_v3 (N:=RN) x = Ok (first3 x).
Proof. destruct x as [|? [|? [|? [|? ?]]]]; intros L; try discriminate L. reflexivity. Qed.
Lemma landmark_placed h h' a : heaps RV h h' -> ro a = Place -> alike (fun x x' => x' = v3add (m3v Q x) t) (landmark_at h a) (landmark_at h' a).
Proof.
  intros H Hr. pose proof (hget_pair RV h h' a H) as X. unfold landmark_at. destruct (hget h a) as [v| |], (hget h' a) as [v'| |]; cbn [alike obind] in *; try contradiction; try exact X. destruct X as (_ & _ & X). rewrite Hr in X.
  destruct (l_kind v) as [x|x|x A|x A|o b lo hi x|n e|x], (l_kind v') as [x'|x'|x' A'|x' A'|o' b' lo' hi' x'|n' e'|x']; try contradiction; try reflexivity.
  destruct X as (L & L' & P). rewrite !to_first3 by assumption. cbn [alike]. apply point_alg. exact P.
Qed.
Lemma value3_turned h h' a : heaps RV h h' -> ro a = Difference -> alike (fun x x' => x' = m3v Q x) (value3_at h a) (value3_at h' a).
Proof.
  intros H Hr. pose proof (hget_pair RV h h' a H) as X. unfold value3_at, value_at. destruct (hget h a) as [v| |], (hget h' a) as [v'| |]; cbn [alike obind] in *; try contradiction; try exact X. destruct X as (_ & _ & X). rewrite Hr in X.
  destruct (l_kind v) as [x|x|x A|x A|o b lo hi x|n e|x], (l_kind v') as [x'|x'|x' A'|x' A'|o' b' lo' hi' x'|n' e'|x']; try contradiction; cbn [kval]; destruct X as (L & L' & P); rewrite !to_first3 by assumption; cbn [alike]; apply image_mul; exact P.
Qed.
Lemma still_heap h h' a : heaps RV h h' -> ro a = Still -> nth_error h a = nth_error h' a.
Proof.
  intros H Hr. specialize (H a). destruct (nth_error h a) as [[i c k]|], (nth_error h' a) as [[i' c' k']|]; try contradiction; auto. destruct H as (E1 & E2 & E3). rewrite Hr in E3. cbn in *. subst. reflexivity.
Qed.
Lemma rot_still h h' a : heaps RV h h' -> ro a = Still -> rot_at h' a = rot_at h a.
Proof. intros H Hr. unfold rot_at, hget. rewrite (still_heap h h' a H Hr). reflexivity. Qed.
Lemma value3_still h h' a : heaps RV h h' -> ro a = Still -> value3_at h' a = value3_at h a.
Proof. intros H Hr. unfold value3_at, value_at, hget. rewrite (still_heap h h' a H Hr). reflexivity. Qed.
Lemma sight_seen h h' a : heaps RV h h' -> ro a = Sight ->
  alike (fun x x' => fst (fst x') = v3add (m3v Q (fst (fst x))) t /\ snd (fst x') = snd (fst x) /\ snd x' = m3v Q (snd x)) (inv_at h a) (inv_at h' a).
Proof.
  intros H Hr. pose proof (hget_pair RV h h' a H) as X. unfold inv_at. destruct (hget h a) as [v| |], (hget h' a) as [v'| |]; cbn [alike obind] in *; try contradiction; try exact X. destruct X as (_ & _ & X). rewrite Hr in X. unfold inv_pos.
  destruct (l_kind v) as [x|x|x A|x A|o b lo hi x|n e|x] eqn:Ek, (l_kind v') as [x'|x'|x' A'|x' A'|o' b' lo' hi' x'|n' e'|x'] eqn:Ek'; try contradiction; try reflexivity.
  destruct X as (P & D & E & L & F). injection E as <- <- <-. destruct x as [|y [|? ?]]; try discriminate L. inversion F as [|? ? F1 F']; subst. inversion F' as [|? ? F2 F'']; subst. inversion F'' as [|? ? F3 F4]; subst. cbn [nth].
  assert (C : (negb (nfinite (n:=RN) y) || nltb (n:=RN) (nabs (n:=RN) y) (nlit (n:=RN) (1 # 1000000000)))%bool = false).
  { clear -F3. cbn. unfold Rltb. destruct (Rlt_dec _ _) as [Y|_]; [exfalso|reflexivity]. cbn in F3. rewrite Rabs_right in Y by lra. cbn in Y. unfold Q2R in Y. cbn in Y. lra. }
  rewrite C. cbn [alike fst snd]. apply point_alg in P. apply image_mul in D. rewrite P, D. split; [|auto]. clear. destruct Q, o, b, t. gring.
Qed.

(** ** blocks *)
Definition turned_entries (U : nat -> nat -> R) (n : nat) (h : heap) (a : addr) (B B' : mat RN) : Prop :=
  forall i c, (i < n)%nat -> (c < width (lib RN) h a)%nat -> rsum (width (lib RN) h a) (fun c' => mat_at B' i c' * turning_of a c' c) = rsum n (fun j => U i j * mat_at B j c).
Fixpoint turned_blocks (U : nat -> nat -> R) (n : nat) (h : heap) (vars : list (option addr)) (js js' : list (mat RN)) : Prop :=
  match vars, js, js' with
  | [], _, _ => True
  | _, [], [] => True
  | Some a :: t, B :: js, B' :: js' => turned_entries U n h a B B' /\ turned_blocks U n h t js js'
  | _, _, _ => False
  end.
Definition framed_factor (f f' : factor (N:=RN) (V:=lvar RN)) : Prop :=
  f_rsize f' = f_rsize f /\ f_vars f' = f_vars f /\ exists U : nat -> nat -> R,
    (forall j k, (j < f_rsize f)%nat -> (k < f_rsize f)%nat -> rsum (f_rsize f) (fun i => U i j * U i k) = if (j =? k)%nat then 1 else 0) /\
    forall h h', heaps RV h h' ->
    (forall x x' i, f_res_ref f h = Ok x -> f_res_ref f' h' = Ok x' -> (i < f_rsize f)%nat -> nth i x' 0 = rsum (f_rsize f) (fun j => U i j * nth j x 0)) /\
    (forall js js', f_jac f h [] = (js, Ok tt) -> f_jac f' h' [] = (js', Ok tt) -> turned_blocks U (f_rsize f) h (f_vars f) js js').
Lemma turned_deriv U n h vars js js' a q : turned_blocks U n h vars js js' -> listed_at a vars = Some q ->
  (nth_error js q = None /\ nth_error js' q = None) \/ exists B B', nth_error js q = Some B /\ nth_error js' q = Some B' /\ turned_entries U n h a B B'.
Proof.
  revert js js' q. induction vars as [|[b|] vars IH]; intros js js' q H L; cbn in L; [discriminate| |].
  - destruct js as [|B js], js' as [|B' js']; cbn in H; try contradiction; [left; split; destruct q; reflexivity|]. destruct H as (E & H).
    destruct (Nat.eqb_spec a b) as [->|]; [injection L as <-; right; exists B, B'; auto|]. destruct (listed_at a vars) as [q'|] eqn:Eq; [|discriminate]. injection L as <-. cbn [nth_error]. eapply IH; eauto.
  - destruct js as [|B js], js' as [|B' js']; cbn in H; try contradiction. left; split; destruct q; reflexivity.
Qed.
Lemma framed_changed f f' h h' vs : framed_factor f f' -> heaps RV h h' -> changed (lib RN) turning_of 1 h h' vs f f'.
Proof.
  intros (A & B & U & O & C) H. destruct (C h h' H) as (C1 & C2). split; [exact A|]. split; [exact B|]. exists U. split; [exact O|]. split; [exact C1|].
  intros js js' a i c J J' Ha Hi Hc. specialize (C2 js js' J J'). unfold deriv. rewrite B, J, J'. cbn [fst]. destruct (listed_at a (f_vars f)) as [q|] eqn:Eq.
  - destruct (turned_deriv _ _ _ _ _ _ _ _ C2 Eq) as [(-> & ->)|(M & M' & -> & -> & E)]; [rewrite !rsum_zero; [reflexivity|intros; ring..]|exact (E i c Hi Hc)].
  - rewrite !rsum_zero; [reflexivity|intros; ring..].
Qed.
Lemma wide_turned h h' a : heaps RV h h' -> width (lib RN) h' a = width (lib RN) h a.
Proof.
  intros H. specialize (H a). unfold width. destruct (nth_error h a) as [v|], (nth_error h' a) as [v'|]; try contradiction; auto. cbn.
  rewrite (reframed_size Q t ro a v v' H). destruct H as (_ & <- & _). reflexivity.
Qed.
Lemma wide_enough h h' a c : heaps RV h h' -> turned a -> (c < width (lib RN) h a)%nat -> (3 <= width (lib RN) h a)%nat.
Proof.
  intros H Hr. specialize (H a). unfold width. destruct (nth_error h a) as [v|], (nth_error h' a) as [v'|]; try contradiction; try lia. cbn. destruct (l_const v); [lia|]. intros _. exact (turned_size Q t ro a v v' H Hr).
Qed.
(** an entry of M' T, and of U M for the turn U *)
Definition right_turned (M : mat RN) (i c : nat) : R := if (c <? 3)%nat then sum3 (fun k => mat_at M i k * ent Q k c) else mat_at M i c.
Definition left_turned (M : mat RN) (i c : nat) : R := sum3 (fun k => ent Q i k * mat_at M k c).
Lemma entries_turned U n h h' a (B B' : mat RN) : heaps RV h h' -> turned a ->
  (forall i c, (i < n)%nat -> (c < width (lib RN) h a)%nat -> right_turned B' i c = rsum n (fun j => U i j * mat_at B j c)) -> turned_entries U n h a B B'.
Proof.
  intros H Hr E i c Hi Hc. pose proof (wide_enough h h' a c H Hr Hc) as W. rewrite <- (E i c Hi Hc). transitivity (rsum (width (lib RN) h a) (fun e => mat_at B' i e * turning e c)).
  - apply rsum_ext. intros e _. unfold turning3_of, SpaceVars.turned in *. destruct (ro a); try contradiction; reflexivity.
  - rewrite (turning_sum_r Q _ c (fun e => mat_at B' i e) W Hc). reflexivity.
Qed.
Lemma blk_turned U n h h' a M M' B B' : heaps RV h h' -> turned a -> blk h a M = Ok B -> blk h' a M' = Ok B' ->
  (forall i c, (i < n)%nat -> (c < width (lib RN) h a)%nat -> right_turned M' i c = rsum n (fun j => U i j * mat_at M j c)) -> turned_entries U n h a B B'.
Proof.
  intros H Hr X X' E. apply (entries_turned U n h h' a B B' H Hr). intros i c Hi Hc. pose proof (wide_enough h h' a c H Hr Hc) as W. pose proof (wide_turned h h' a H) as Ew.
  rewrite (rsum_ext n _ (fun j => U i j * mat_at M j c)) by (intros j _; rewrite (blk_entry _ _ _ _ j c X Hc); reflexivity). rewrite <- (E i c Hi Hc).
  unfold right_turned, sum3. rewrite (blk_entry _ _ _ _ i 0 X'), (blk_entry _ _ _ _ i 1 X'), (blk_entry _ _ _ _ i 2 X'), (blk_entry _ _ _ _ i c X') by lia. reflexivity.
Qed.
Lemma by_turning (M : mat RN) i c : (i < 3)%nat -> rsum 3 (fun j => turning i j * mat_at (N:=RN) M j c) = left_turned M i c.
Proof. intros Hi. rewrite (turning_sum Q 3 i (fun j => mat_at (N:=RN) M j c) (le_n 3) Hi). destruct (Nat.ltb_spec i 3); [reflexivity|lia]. Qed.
Lemma by_standing n (M : mat RN) i c : (i < n)%nat -> rsum n (fun j => (if (i =? j)%nat then 1 else 0) * mat_at M j c) = mat_at M i c.
Proof. intros Hi. exact (still_sum n i (fun j => mat_at (N:=RN) M j c) Hi). Qed.
(** blocks of variables that are not turned *)
Lemma blk_still n h h' a M B B' : heaps RV h h' -> ~ turned a -> blk h a M = Ok B -> blk h' a M = Ok B' -> turned_entries (fun i j => if (i =? j)%nat then 1 else 0) n h a B B'.
Proof.
  intros H Hr X X' i c Hi Hc. pose proof (wide_turned h h' a H) as Ew. rewrite by_standing by exact Hi. rewrite (rsum_ext _ _ (fun e => mat_at B' i e * (if (e =? c)%nat then 1 else 0))).
  - rewrite still_sum_r by exact Hc. rewrite (blk_entry _ _ _ _ i c X Hc). apply (blk_entry _ _ _ _ i c X'). lia.
  - intros e _. unfold turning3_of, SpaceVars.turned in *. destruct (ro a); try reflexivity; exfalso; apply Hr; exact I.
Qed.
Ltac entries := cbn [diagm Nat.eqb fst snd rows_mat mat33 mat36 m3rows mat_at nth v3list app].
Ltac bare := unfold right_turned, left_turned, sum3, mat36, mat33, m3rows; clear.
Lemma diag_turned n (w : RN) i c : (i < 3)%nat -> right_turned (diagm n w) i c = left_turned (diagm n w) i c.
Proof. intros Hi. revert i c Hi. bare. intros i c Hi. i3 i; destruct c as [|[|[|c]]]; cbn [Nat.ltb Nat.leb]; entries; zz; rring. Qed.
Lemma right36 (P S : m3 RN) i c : (i < 3)%nat -> right_turned (mat36 P S) i c = mat_at (mat36 (m3mul P Q) S) i c.
Proof. bare. intros Hi. destruct Q, P, S. i3 i; cols c; cbn [Nat.ltb Nat.leb]; entries; gx; try rring; try reflexivity. Qed.
Lemma left36 (P S : m3 RN) i c : (i < 3)%nat -> left_turned (mat36 P S) i c = mat_at (mat36 (m3mul Q P) (m3mul Q S)) i c.
Proof. bare. intros Hi. destruct Q, P, S. i3 i; cols c; entries; gx; try rring. all: destruct c; try rring. Qed.
Lemma right33 (P : m3 RN) i c : (i < 3)%nat -> right_turned (mat33 P) i c = mat_at (mat33 (m3mul P Q)) i c.
Proof. bare. intros Hi. destruct Q, P. i3 i; destruct c as [|[|[|c]]]; cbn [Nat.ltb Nat.leb]; entries; gx; try rring; try reflexivity. Qed.
Definition two6 (T : v3 RN * v3 RN) (A B : m3 RN) : mat RN := rows_mat 2 6 [v3list (row_m (fst T) A) ++ v3list (row_m (fst T) B); v3list (row_m (snd T) A) ++ v3list (row_m (snd T) B)].
Definition two3 (T : v3 RN * v3 RN) (A : m3 RN) : mat RN := rows_mat 2 3 [v3list (row_m (fst T) A); v3list (row_m (snd T) A)].
Lemma right26 T (P S : m3 RN) i c : (i < 2)%nat -> right_turned (two6 T P S) i c = mat_at (two6 T (m3mul P Q) S) i c.
Proof. bare. intros Hi. destruct T as [[? ? ?] [? ? ?]]. destruct Q, P, S. unfold two6, row_m. destruct i as [|[|i]]; [| |lia]; cols c; cbn [Nat.ltb Nat.leb]; entries; gx; try rring; try reflexivity. Qed.
Lemma right23 T (P : m3 RN) i c : (i < 2)%nat -> right_turned (two3 T P) i c = mat_at (two3 T (m3mul P Q)) i c.
Proof. bare. intros Hi. destruct T as [[? ? ?] [? ? ?]]. destruct Q, P. unfold two3, row_m. destruct i as [|[|i]]; [| |lia]; destruct c as [|[|[|c]]]; cbn [Nat.ltb Nat.leb]; entries; gx; try rring; try reflexivity. Qed.
Lemma right0 r k i c : right_turned (mzero (N:=RN) r k) i c = mat_at (mzero (N:=RN) r k) i c.
Proof. unfold right_turned, sum3. cbn [mzero mat_at]. zz. destruct (_ <? _)%nat; rring. Qed.
(** a residual whose first three elements are turned *)
Lemma first_turned (x x' : list R) i : first3 x' = m3v Q (first3 x) -> (i < 3)%nat -> nth i x' 0 = rsum 3 (fun j => turning i j * nth j x 0).
Proof.
  intros E Hi. rewrite (turning_sum Q 3 i (fun j => nth j x 0) (le_n 3) Hi). destruct (Nat.ltb_spec i 3); [|lia]. transitivity (coord (first3 x') i); [unfold first3; i3 i; reflexivity|]. rewrite E. clear -Hi. destruct Q. unfold first3. i3 i; gx; reflexivity.
Qed.
Lemma first_list (x : v3 RN) : first3 (v3list x) = x.
Proof. destruct x. reflexivity. Qed.
Lemma first_scale (w : R) (x : list R) : first3 (vscale (N:=RN) w x) = v3scale (N:=RN) w (first3 x).
Proof. unfold first3. rewrite !nth_vscale. reflexivity. Qed.
Lemma first_minus (x y z : list R) : vec_minus (N:=RN) x y = Ok z -> first3 z = v3sub (first3 x) (first3 y).
Proof. intros E. unfold first3. rewrite !(nth_minus _ _ _ _ E). reflexivity. Qed.

Lemma f_still f : (forall a, In (Some a) (f_vars (build f)) -> ro a = Still) -> framed_factor (build f) (build f).
Proof.
  intros S. split; [reflexivity|]. split; [reflexivity|]. exists (fun i j => if (i =? j)%nat then 1 else 0). split.
  { intros j k Hj Hk. rewrite (rsum_ext _ _ (fun i => (if (j =? i)%nat then 1 else 0) * (if (i =? k)%nat then 1 else 0))) by (intros i _; rewrite (Nat.eqb_sym i j); reflexivity). apply (still_sum _ j (fun i => if (i =? k)%nat then 1 else 0) Hj). }
  intros h h' H. assert (Eq : forall a, In (Some a) (f_vars (build f)) -> nth_error h a = nth_error h' a) by (intros a Ha; apply (still_heap h h' a H (S a Ha))).
  destruct (lib_reads_only f h h' Eq) as (Q1 & Q2). split.
  - intros x x' i X X' Hi. rewrite <- Q1, X in X'. apply Ok_inj in X'. subst x'. symmetry. exact (still_sum _ i (fun j => nth j x 0) Hi).
  - intros js js' X X'. assert (Es : js' = js) by (rewrite <- Q2, X in X'; apply (f_equal fst) in X'; symmetry; exact X'). subst js'.
    assert (G : forall vars (l : list (mat RN)), (forall a, In (Some a) vars -> ro a = Still) -> (forall o, In o vars -> exists a, o = Some a) -> turned_blocks (fun i j => if (i =? j)%nat then 1 else 0) (f_rsize (build f)) h vars l l).
    { induction vars as [|[a|] vars IH]; intros l Sv Av; [exact I| |destruct (Av None (or_introl eq_refl)); discriminate]. destruct l as [|B l]; [exact I|]. split; [|apply IH; [intros; apply Sv; right; assumption|intros; apply Av; right; assumption]].
      intros i c Hi Hc. rewrite by_standing by exact Hi. rewrite (rsum_ext _ _ (fun e => mat_at B i e * (if (e =? c)%nat then 1 else 0))) by (intros e _; unfold turning3_of; rewrite (Sv a (or_introl eq_refl)); reflexivity).
      exact (still_sum_r _ c (fun e => mat_at B i e) Hc). }
    apply G; [exact S|intros o Ho; destruct f; cbn in Ho; repeat destruct Ho as [<-|Ho]; try contradiction; eauto].
Qed.

(** ** one factor at a time *)
Ltac rd L Y := pose proof L as Y; match type of Y with alike _ ?o ?o' => destruct o as [?y|?e|?u], o' as [?y'|?e'|?u'] end; cbn [alike] in Y; try contradiction; cbn [obind withj] in *;
  try (match goal with Z : _ = Ok _ |- _ => discriminate Z | Z : _ = (_, Ok tt) |- _ => discriminate Z end).
Ltac got X X' := apply Ok_inj in X; apply Ok_inj in X'; subst.
Ltac turn := split; [reflexivity|]; split; [reflexivity|]; exists turning; split; [intros j1 j2 J1 J2; apply (turning_orthogonal Q HQ 3); [lia|exact J1|exact J2]|];
  intros h h' H; split; [intros zr zr' i X X' Hi | intros js js' X X']; cbn [f_res_ref f_jac f_rsize f_vars] in *.
Ltac stand n := unfold framed_factor; cbn [f_rsize f_vars f_res_ref f_jac]; split; [reflexivity|]; split; [reflexivity|]; exists (fun i j => if (i =? j)%nat then 1 else 0); split;
  [intros j1 j2 J1 J2; rewrite (rsum_ext _ _ (fun i => (if (j1 =? i)%nat then 1 else 0) * (if (i =? j2)%nat then 1 else 0))) by (intros i _; rewrite (Nat.eqb_sym i j1); reflexivity); apply (still_sum n j1 (fun i => if (i =? j2)%nat then 1 else 0)); exact J1|];
  intros h h' H; split; [intros zr zr' i X X' Hi | intros js js' X X']; cbn [f_res_ref f_jac f_rsize f_vars] in *.
Ltac role E := unfold SpaceVars.turned; rewrite E; first [exact I | intros []].
Lemma turned_place a : ro a = Place -> turned a. Proof. intros E. role E. Qed.
Lemma turned_difference a : ro a = Difference -> turned a. Proof. intros E. role E. Qed.
Lemma turned_still a : ro a = Still -> ~ turned a. Proof. intros E. role E. Qed.
Lemma turned_sight a : ro a = Sight -> ~ turned a. Proof. intros E. role E. Qed.
Hint Resolve turned_place turned_difference turned_still turned_sight : core.

Lemma f_generic_prior j a x s x' : length x = 3%nat -> length x' = 3%nat -> ro a = Place /\ point_to Q t (first3 x) (first3 x') \/ ro a = Difference /\ direction_to Q (first3 x) (first3 x') ->
  framed_factor (build (LGenericPrior j a x s)) (build (LGenericPrior j a x' s)).
Proof.
  intros L L' G. assert (Hr : turned a) by (destruct G as [(E & _)|(E & _)]; auto).
  assert (Fx : first3 x' = v3add (m3v Q (first3 x)) (shift a)) by (destruct G as [(E & G)|(E & G)]; [rewrite (shift_place _ E); apply point_alg; exact G|rewrite (shift_difference _ E), v3add_zero; apply image_mul; exact G]).
  cbn [build]. unfold generic_prior. cbv zeta. generalize (nunit / s)%num. intros w. change (car RN) with R in *. rewrite L, L'. turn.
  - unfold gprior_ref in *. pose proof (value_turned h h' a H Hr) as Y. unfold value_at in Y. destruct (hget h a) as [v| |], (hget h' a) as [v'| |]; cbn [alike obind] in *; try contradiction; try discriminate. cbn [vval lib] in *.
    destruct (vec_minus (kval (l_kind v)) x) as [d| |] eqn:Ed; cbn [obind] in X; try discriminate. destruct (vec_minus (kval (l_kind v')) x') as [d'| |] eqn:Ed'; cbn [obind] in X'; try discriminate. got X X'.
    change (car RN) with R in *. apply first_turned; [|exact Hi]. rewrite !first_scale, (first_minus _ _ _ Ed), (first_minus _ _ _ Ed'), Y, Fx. apply alg_point_sub.
  - unfold gprior_jac in *. pose proof (hget_pair RV h h' a H) as Y. assert (Ew : forall v, hget h a = Ok v -> l_const v = true -> width (lib RN) h a = 0%nat).
    { intros v. unfold hget, width. destruct (nth_error h a) as [w0|]; [|discriminate]. intros E. apply Ok_inj in E. subst w0. cbn. intros ->. reflexivity. }
    destruct (hget h a) as [v| |], (hget h' a) as [v'| |]; cbn [alike obind all_blocks] in *; try contradiction; try discriminate. destruct Y as (_ & C & _). cbn [vconst lib] in *. rewrite <- C in X'. destruct (l_const v) eqn:Ec.
    + inversion X. inversion X'. split; [|exact I]. intros i c _ Hc. rewrite (Ew v eq_refl Ec) in Hc. lia.
    + apply (f_equal fst) in X. apply (f_equal fst) in X'. cbn [fst] in X, X'. subst js js'. split; [|exact I]. apply (entries_turned _ _ h h' a _ _ H Hr). intros i c Hi _. rewrite by_turning by exact Hi. apply diag_turned. exact Hi.
Qed.
Lemma same_shift a b : ro a = Place /\ ro b = Place \/ ro a = Difference /\ ro b = Difference -> turned a /\ turned b /\ shift a = shift b.
Proof. intros [(A & B)|(A & B)]; (split; [auto|split; [auto|unfold shift; rewrite A, B; reflexivity]]). Qed.
Lemma f_generic_between j a b d s : ro d = Difference -> ro a = Place /\ ro b = Place \/ ro a = Difference /\ ro b = Difference ->
  framed_factor (build (LGenericBetween j a b d 3 s)) (build (LGenericBetween j a b d 3 s)).
Proof.
  intros Gd G. apply same_shift in G. destruct G as (Ra & Rb & Sh). assert (Rd : turned d) by auto.
  cbn [build]. unfold generic_between. cbv zeta. generalize (nunit / s)%num. intros w. turn.
  - unfold gbetween_ref in *. pose proof (value_turned h h' a H Ra) as Ya. pose proof (value_turned h h' b H Rb) as Yb. pose proof (value_turned h h' d H Rd) as Yd. unfold value_at in Ya, Yb, Yd.
    destruct (hget h a) as [va| |], (hget h' a) as [va'| |]; cbn [alike obind] in *; try contradiction; try discriminate. destruct (hget h b) as [vb| |], (hget h' b) as [vb'| |]; cbn [alike obind] in *; try contradiction; try discriminate.
    destruct (hget h d) as [vd| |], (hget h' d) as [vd'| |]; cbn [alike obind] in *; try contradiction; try discriminate. cbn [vval lib] in *.
    destruct (vec_minus (kval (l_kind vb)) (kval (l_kind va))) as [q| |] eqn:Eq; cbn [obind] in X; try discriminate. destruct (vec_minus (kval (l_kind vb')) (kval (l_kind va'))) as [q'| |] eqn:Eq'; cbn [obind] in X'; try discriminate.
    destruct (vec_minus q _) as [z| |] eqn:Ez; cbn [obind] in X; try discriminate. destruct (vec_minus q' _) as [z'| |] eqn:Ez'; cbn [obind] in X'; try discriminate. got X X'.
    apply first_turned; [|exact Hi]. rewrite !first_scale, (first_minus _ _ _ Ez), (first_minus _ _ _ Ez'), (first_minus _ _ _ Eq), (first_minus _ _ _ Eq'), Ya, Yb, Yd, Sh, (shift_difference _ Gd), v3add_zero. apply alg_diff.
  - unfold gbetween_jac in *. apply all3 in X. apply all3 in X'. destruct X as (B0 & B1 & B2 & X0 & X1 & X2 & ->), X' as (C0 & C1 & C2 & X0' & X1' & X2' & ->).
    split; [|split; [|split; [|exact I]]]; [eapply (blk_turned _ 3 h h' a)|eapply (blk_turned _ 3 h h' b)|eapply (blk_turned _ 3 h h' d)]; try exact H; try eassumption; intros i c Hi _; rewrite by_turning by exact Hi; apply diag_turned; exact Hi.
Qed.
Lemma same_minus (x y : list R) : length x = length y -> vec_minus (N:=RN) x y = Ok (vsub (N:=RN) x y).
Proof. unfold vec_minus. change (car RN) with R. intros ->. rewrite Nat.eqb_refl. reflexivity. Qed.
Lemma first_segment (x y : list R) : segment (N:=RN) 0 3 x = Ok y -> first3 y = first3 x.
Proof. intros E. unfold first3. rewrite !(nth_segment _ _ _ _ _ E) by lia. reflexivity. Qed.
Lemma first_mapdt (dt : R) (x : list R) : first3 (map (fun y => nmul (n:=RN) y dt) x) = v3scale (N:=RN) dt (first3 x).
Proof. unfold first3. rewrite !nth_mapdt. unfold v3scale. cbn [vx vy vz]. f_equal; apply Rmult_comm. Qed.
Lemma f_linear_velocity j a b c dt s : ro c = Difference -> ro a = Place /\ ro b = Place \/ ro a = Difference /\ ro b = Difference ->
  framed_factor (build (LLinearVelocity j a b c 3 dt s 0)) (build (LLinearVelocity j a b c 3 dt s 0)).
Proof.
  intros Gc G. apply same_shift in G. destruct G as (Ra & Rb & Sh). assert (Rc : turned c) by auto.
  cbn [build]. unfold linear_velocity. cbv zeta. generalize (nunit / s)%num. intros w. turn.
  - unfold linvel_ref in *. rd (value_turned h h' b H Rb) Yb. destruct (segment 0 3 y) as [sb| |] eqn:Eb; cbn [obind] in X; try discriminate. destruct (segment 0 3 y') as [sb'| |] eqn:Eb'; cbn [obind] in X'; try discriminate.
    rd (value_turned h h' a H Ra) Ya. destruct (segment 0 3 y0) as [sa| |] eqn:Ea; cbn [obind] in X; try discriminate. destruct (segment 0 3 y'0) as [sa'| |] eqn:Ea'; cbn [obind] in X'; try discriminate. rd (value_turned h h' c H Rc) Yc.
    destruct (vec_minus (vsub sb sa) _) as [z| |] eqn:Ez; cbn [obind] in X; try discriminate. destruct (vec_minus (vsub sb' sa') _) as [z'| |] eqn:Ez'; cbn [obind] in X'; try discriminate. got X X'.
    assert (V : first3 (vsub (N:=RN) sb sa) = v3sub (first3 y) (first3 y0)).
    { rewrite <- (first_segment _ _ Eb), <- (first_segment _ _ Ea). apply first_minus. apply same_minus. rewrite (segment_length _ _ _ _ Eb), (segment_length _ _ _ _ Ea). reflexivity. }
    assert (V' : first3 (vsub (N:=RN) sb' sa') = v3sub (first3 y') (first3 y'0)).
    { rewrite <- (first_segment _ _ Eb'), <- (first_segment _ _ Ea'). apply first_minus. apply same_minus. rewrite (segment_length _ _ _ _ Eb'), (segment_length _ _ _ _ Ea'). reflexivity. }
    apply first_turned; [|exact Hi]. rewrite !first_scale, (first_minus _ _ _ Ez), (first_minus _ _ _ Ez'), !first_mapdt, V, V', Ya, Yb, Yc, Sh, (shift_difference _ Gc), v3add_zero. apply alg_vel.
  - unfold linvel_jac in *. pose proof (hget_pair RV h h' c H) as Yc. destruct (hget h c) as [vc| |] eqn:Ec, (hget h' c) as [vc'| |] eqn:Ec'; cbn [alike obind withj] in *; try contradiction; try discriminate. pose proof (reframed_size Q t ro c vc vc' Yc) as K. change (car RN) with R in *. rewrite K in X'. clear K.
    assert (K3 : ksize (l_kind vc) = 3%nat) by (destruct Yc as (_ & _ & Yc); rewrite Gc in Yc; destruct (l_kind vc), (l_kind vc'); try contradiction; cbn [ksize]; try reflexivity; apply Yc).
    rewrite K3 in *. apply set3 in X. apply set3 in X'. destruct X as (B0 & B1 & B2 & X0 & X1 & X2 & ->), X' as (C0 & C1 & C2 & X0' & X1' & X2' & ->).
    assert (F : forall (w : R) v B B', turned v ->
       (let* x := hget h v in if l_const x then Ok mempty else diag_block 3 (ksize (l_kind x)) 0 3 (w : RN)) = Ok B ->
       (let* x := hget h' v in if l_const x then Ok mempty else diag_block 3 (ksize (l_kind x)) 0 3 (w : RN)) = Ok B' -> turned_entries turning 3 h v B B').
    { intros w0 v B B' Rv Z Z'. apply (entries_turned _ 3 h h' v B B' H Rv). intros i q Hi Hq. pose proof (hget_pair RV h h' v H) as Y. unfold width in Hq. unfold hget in *. destruct (nth_error h v) as [x|], (nth_error h' v) as [x'|]; cbn [alike obind] in *; try contradiction; try discriminate.
      pose proof (proj1 (proj2 Y)) as Ek. cbn in Hq. rewrite <- Ek in Z'. destruct (l_const x); [cbn in Hq; lia|]. unfold diag_block in *.
      destruct ((3 <=? 3) && (0 + 3 <=? ksize (l_kind x)))%bool; [|discriminate]. destruct ((3 <=? 3) && (0 + 3 <=? ksize (l_kind x')))%bool; [|discriminate]. apply Ok_inj in Z. apply Ok_inj in Z'. subst B B'.
      rewrite by_turning by exact Hi. unfold right_turned, left_turned, sum3. cbn [mat_at].
      i3 i; destruct q as [|[|[|q]]]; cbn [Nat.eqb Nat.add Nat.ltb Nat.leb andb]; zz; rring. }
    split; [|split; [|split; [|exact I]]].
    + exact (F _ a B0 C0 Ra X0 X0').
    + exact (F _ b B1 C1 Rb X1 X1').
    + eapply (blk_turned _ 3 h h' c); try exact H; try eassumption. intros i q Hi _. rewrite by_turning by exact Hi. apply diag_turned. exact Hi.
Qed.
Lemma f_position_prior j p x s x' : ro p = Place -> point_to Q t x x' -> framed_factor (build (LPositionPrior j p x s)) (build (LPositionPrior j p x' s)).
Proof.
  intros Rp D. apply point_alg in D. cbn [build]. unfold pose_position_prior. cbv zeta. generalize (nunit / s)%num. intros w. turn.
  - unfold pospri_ref in *. rd (pose_placed h h' p H Rp) Y. destruct Y as (Y & _). got X X'. apply first_turned; [|exact Hi]. rewrite !first_list, Y. apply alg_point_sub.
  - unfold pospri_jac in *. apply set1 in X. apply set1 in X'. destruct X as (B0 & X0 & ->), X' as (C0 & X0' & ->). split; [|exact I]. eapply (blk_turned _ 3 h h' p); try exact H; try eassumption; auto.
    intros i c Hi _. rewrite by_turning by exact Hi. rewrite right36, left36 by exact Hi. rewrite alg_zero_r, alg_diag_l, alg_diag_r. reflexivity.
Qed.
(** the error of an orientation prior does not depend on the frame *)
Lemma attitude_error A A' B B' : m3mul A' Q = A -> m3mul B' Q = B -> m3mul A' (m3t B') = m3mul A (m3t B).
Proof. intros <- <-. rewrite m3t_mul, m3mul_assoc, <- (m3mul_assoc Q (m3t Q) (m3t B')), (rot_mul_t Q HQ), m3mul_id_l. reflexivity. Qed.
Lemma far_logged (x : m3 RN) : rotation x -> / 100000 <= acos ((ent x 0 0 + ent x 1 1 + ent x 2 2 - 1) / 2) -> exp_so3 (log_so3 x) = x.
Proof. intros R1 F. apply exp_of_log; [exact R1|right]. exact F. Qed.
Lemma f_orientation_prior j p x s x' : ro p = Place -> attitude_to Q x x' -> / 100000 <= acos ((ent x 0 0 + ent x 1 1 + ent x 2 2 - 1) / 2) -> / 100000 <= acos ((ent x' 0 0 + ent x' 1 1 + ent x' 2 2 - 1) / 2) ->
  framed_factor (build (LOrientationPrior j p x s)) (build (LOrientationPrior j p x' s)).
Proof.
  intros Rp (R1 & R2 & P) F1 F2. apply product_mul in P. cbn [build]. unfold pose_orientation_prior. cbv zeta. generalize (nunit / s)%num. intros w. 
  assert (E : forall A A', m3mul A' Q = A -> oripri_err A' (log_so3 x') = oripri_err A (log_so3 x)) by (intros A A' Z; unfold oripri_err; rewrite !far_logged by assumption; apply attitude_error; [exact Z|symmetry; exact P]).
  clear F1 F2 R1 R2 P. generalize dependent (log_so3 x). generalize dependent (log_so3 x'). intros rp' rp E. stand 3%nat.
  - unfold oripri_ref in *. rd (pose_placed h h' p H Rp) Y. destruct Y as (_ & _ & _ & Y). cbv zeta in X, X'. rewrite (E _ _ Y) in X'. got X X'. rewrite (still_sum 3 i (fun e => nth e _ 0) Hi). reflexivity.
  - unfold oripri_jac in *. pose proof (hget_pair RV h h' p H) as Yh. pose proof (wide_turned h h' p H) as Ew. assert (Cw : forall v, hget h p = Ok v -> l_const v = true -> width (lib RN) h p = 0%nat).
    { intros v. unfold hget, width. destruct (nth_error h p) as [w0|]; [|discriminate]. intros Z. apply Ok_inj in Z. subst w0. cbn. intros ->. reflexivity. }
    rd (pose_placed h h' p H Rp) Y.
    + destruct Y as (_ & _ & _ & Y). rewrite (E _ _ Y) in X'. destruct (hget h p) as [v| |], (hget h' p) as [v'| |]; cbn [alike obind withj] in *; try contradiction; try discriminate. destruct Yh as (_ & C & _). rewrite <- C in X'. destruct (l_const v) eqn:Ec.
      * cbn in X, X'. inversion X. inversion X'. split; [|exact I]. intros i c _ Hc. rewrite (Cw v eq_refl Ec) in Hc. lia.
      * destruct (inv_right_jacobian _) as [M| |]; cbn in X, X'; try discriminate. inversion X. inversion X'. split; [|exact I]. eapply (entries_turned _ 3 h h' p); try exact H; auto.
        intros i c Hi _. rewrite by_standing by exact Hi. rewrite right36 by exact Hi. rewrite alg_zero_l. reflexivity.
    + destruct (hget h p) as [v| |], (hget h' p) as [v'| |]; cbn [alike obind withj] in *; try contradiction; try discriminate. destruct Yh as (_ & C & _). rewrite <- C in X'. destruct (l_const v) eqn:Ec; cbn in X, X'; inversion X. inversion X'. split; [|exact I]. intros i c _ Hc. rewrite (Cw v eq_refl Ec) in Hc. lia.
    + destruct (hget h p) as [v| |], (hget h' p) as [v'| |]; cbn [alike obind withj] in *; try contradiction; try discriminate. destruct Yh as (_ & C & _). rewrite <- C in X'. destruct (l_const v) eqn:Ec; cbn in X, X'; inversion X. inversion X'. split; [|exact I]. intros i c _ Hc. rewrite (Cw v eq_refl Ec) in Hc. lia.
Qed.
Lemma f_position_between j a b m s (loc : bool) : ro a = Place -> ro b = Place -> ro m = (if loc then Still else Difference) -> framed_factor (build (LPositionBetween j a b m s loc)) (build (LPositionBetween j a b m s loc)).
Proof.
  intros Ra Rb Rm. cbn [build]. unfold pose_position_between. cbv zeta. generalize (nunit / s)%num. intros w. destruct loc.
  - stand 3%nat.
    + unfold posbet_ref in *. rd (pose_placed h h' b H Rb) Yb. rd (pose_placed h h' a H Ra) Ya. rewrite (value3_still h h' m H Rm) in X'. destruct (value3_at h m) as [z| |]; cbn [obind] in X, X'; try discriminate.
      destruct Ya as (Ya & _ & _ & Aa), Yb as (Yb & _). rewrite Ya, Yb, (alg_local Q _ _ _ _ t Aa) in X'. got X X'. rewrite (still_sum 3 i (fun e => nth e _ 0) Hi). reflexivity.
    + unfold posbet_jac in *. cbv zeta in X, X'. rd (pose_placed h h' b H Rb) Yb; try (destruct (blk h m _); cbn in X; discriminate X). rd (pose_placed h h' a H Ra) Ya; try (destruct (blk h m _); cbn in X; discriminate X).
      destruct Ya as (Ya & _ & _ & Aa), Yb as (Yb & _). cbv zeta in X, X'. rewrite Ya, Yb, (alg_local Q _ _ _ _ t Aa) in X'.
      apply set3 in X. apply set3 in X'. destruct X as (B0 & B1 & B2 & X0 & X1 & X2 & ->), X' as (C0 & C1 & C2 & X0' & X1' & X2' & ->).
      split; [|split; [|split; [|exact I]]]; [eapply (blk_turned _ 3 h h' a)|eapply (blk_turned _ 3 h h' b)|eapply (blk_still 3 h h' m)]; try exact H; try eassumption; auto; intros i c Hi _; rewrite by_standing by exact Hi; rewrite right36 by exact Hi; rewrite alg_scale, Aa; reflexivity.
  - turn.
    + unfold posbet_ref in *. rd (pose_placed h h' b H Rb) Yb. rd (pose_placed h h' a H Ra) Ya. rd (value3_turned h h' m H Rm) Ym. destruct Ya as (Ya & _), Yb as (Yb & _). got X X'. apply first_turned; [|exact Hi]. rewrite !first_list, Ya, Yb. apply alg_diff.
    + unfold posbet_jac in *. cbv zeta in X, X'. apply set3 in X. apply set3 in X'. destruct X as (B0 & B1 & B2 & X0 & X1 & X2 & ->), X' as (C0 & C1 & C2 & X0' & X1' & X2' & ->).
      split; [|split; [|split; [|exact I]]]; [eapply (blk_turned _ 3 h h' a)|eapply (blk_turned _ 3 h h' b)|eapply (blk_turned _ 3 h h' m)]; try exact H; try eassumption; auto; intros i c Hi _; rewrite by_turning by exact Hi; try (apply diag_turned; exact Hi); rewrite right36, left36 by exact Hi; rewrite alg_zero_r, alg_diag_l, alg_diag_r; reflexivity.
Qed.
Lemma f_orientation_between j a b c s : ro a = Place -> ro b = Place -> ro c = Still -> framed_factor (build (LOrientationBetween j a b c s)) (build (LOrientationBetween j a b c s)).
Proof.
  intros Ra Rb Rc. cbn [build]. unfold pose_orientation_between. cbv zeta. generalize (nunit / s)%num. intros w. 
  assert (E : forall A A' B B' C, m3mul A' Q = A -> m3mul B' Q = B -> oribet_err A' B' C = oribet_err A B C) by (intros A A' B B' C Z1 Z2; unfold oribet_err; rewrite (attitude_error B B' A A' Z2 Z1); reflexivity). stand 3%nat.
  - unfold oribet_ref in *. rd (pose_placed h h' a H Ra) Ya. rd (pose_placed h h' b H Rb) Yb. rewrite (rot_still h h' c H Rc) in X'. destruct (rot_at h c) as [z| |]; cbn [obind] in X, X'; try discriminate.
    destruct Ya as (_ & _ & _ & Ya), Yb as (_ & _ & _ & Yb). cbv zeta in X, X'. rewrite (E _ _ _ _ _ Ya Yb) in X'. got X X'. rewrite (still_sum 3 i (fun e => nth e _ 0) Hi). reflexivity.
  - unfold oribet_jac in *. cbv zeta in X, X'. rd (pose_placed h h' a H Ra) Ya. rd (pose_placed h h' b H Rb) Yb. rewrite (rot_still h h' c H Rc) in X'. destruct (rot_at h c) as [z| |]; cbn [obind withj] in X, X'; try discriminate.
    destruct Ya as (_ & _ & _ & Ya), Yb as (_ & _ & _ & Yb). rewrite (E _ _ _ _ _ Ya Yb) in X'. destruct (inv_right_jacobian _) as [M| |]; cbn [obind withj] in X, X'; try discriminate.
    apply set3 in X. apply set3 in X'. destruct X as (B0 & B1 & B2 & X0 & X1 & X2 & ->), X' as (C0 & C1 & C2 & X0' & X1' & X2' & ->).
    split; [|split; [|split; [|exact I]]]; [eapply (blk_turned _ 3 h h' a)|eapply (blk_turned _ 3 h h' b)|eapply (blk_still 3 h h' c)]; try exact H; try eassumption; auto; intros i e Hi _; rewrite by_standing by exact Hi; rewrite right36 by exact Hi; rewrite alg_zero_l; reflexivity.
Qed.
Ltac passed X := match type of X with context [if ?b then _ else _] => destruct b; cbn [withj obind] in X; [discriminate X|] end.
Lemma f_bearing j p l o s : ro p = Place -> ro l = Place -> framed_factor (build (LBearing j p l o s)) (build (LBearing j p l o s)).
Proof.
  intros Rp Rl. cbn [build]. unfold bearing_observation. cbv zeta. generalize (nunit / s)%num (v3normalized o). intros w o'. stand 3%nat.
  - unfold bearing_ref in *. rd (landmark_placed h h' l H Rl) Yl. rd (pose_placed h h' p H Rp) Y. destruct Y as (Y & _ & _ & Ya). rewrite Y, Yl, (alg_local Q _ _ _ _ t Ya) in X'. got X X'. rewrite (still_sum 3 i (fun e => nth e _ 0) Hi). reflexivity.
  - unfold bearing_jac in *. rd (pose_placed h h' p H Rp) Y. rd (landmark_placed h h' l H Rl) Yl. cbv zeta in X, X'. destruct Y as (Y & _ & _ & Ya). rewrite Y, Yl, (alg_local Q _ _ _ _ t Ya) in X'. passed X. cbn [withj] in X'.
    apply set2 in X. apply set2 in X'. destruct X as (B0 & B1 & X0 & X1 & ->), X' as (C0 & C1 & X0' & X1' & ->).
    split; [|split; [|exact I]]; [eapply (blk_turned _ 3 h h' p)|eapply (blk_turned _ 3 h h' l)]; try exact H; try eassumption; auto; intros i c Hi _; rewrite by_standing by exact Hi; rewrite ?right36, ?right33 by exact Hi; rewrite m3mul_assoc, Ya; reflexivity.
Qed.
Lemma f_projection j p l o s tol : ro p = Place -> ro l = Place -> framed_factor (build (LProjection j p l o s tol)) (build (LProjection j p l o s tol)).
Proof.
  intros Rp Rl. cbn [build]. unfold bearing_projection. cbv zeta. generalize (nunit / s)%num (v3normalized o). intros w k. generalize (tangent_basis k). intros T. stand 2%nat.
  - unfold proj_ref in *. rd (landmark_placed h h' l H Rl) Yl. rd (pose_placed h h' p H Rp) Y. destruct Y as (Y & _ & _ & Ya). cbv zeta in X, X'. rewrite Y, Yl, (alg_local Q _ _ _ _ t Ya) in X'. rewrite X in X'. apply Ok_inj in X'. subst zr'. rewrite (still_sum 2 i (fun e => nth e _ 0) Hi). reflexivity.
  - unfold proj_jac in *. rd (landmark_placed h h' l H Rl) Yl. rd (pose_placed h h' p H Rp) Y. cbv zeta in X, X'. destruct Y as (Y & _ & _ & Ya). rewrite Y, Yl, (alg_local Q _ _ _ _ t Ya) in X'. destruct (nleb _ _).
    + apply set2 in X. apply set2 in X'. destruct X as (B0 & B1 & X0 & X1 & ->), X' as (C0 & C1 & X0' & X1' & ->).
      split; [|split; [|exact I]]; [eapply (blk_turned _ 2 h h' p)|eapply (blk_turned _ 2 h h' l)]; try exact H; try eassumption; auto; intros i c Hi _; rewrite by_standing by exact Hi; apply right0.
    + apply set2 in X. apply set2 in X'. destruct X as (B0 & B1 & X0 & X1 & ->), X' as (C0 & C1 & X0' & X1' & ->).
      split; [|split; [|exact I]]; [eapply (blk_turned _ 2 h h' p)|eapply (blk_turned _ 2 h h' l)]; try exact H; try eassumption; auto; intros i c Hi _; rewrite by_standing by exact Hi.
      * eapply eq_trans; [exact (right26 T _ _ i c Hi)|]. rewrite m3mul_assoc, Ya. reflexivity.
      * eapply eq_trans; [exact (right23 T _ i c Hi)|]. rewrite m3mul_assoc, Ya. reflexivity.
Qed.
Lemma f_inverse_range j p l o s : ro p = Place -> ro l = Sight -> framed_factor (build (LInverseRange j p l o s)) (build (LInverseRange j p l o s)).
Proof.
  intros Rp Rl. cbn [build]. unfold inverse_range_bearing. cbv zeta. generalize (nunit / s)%num (v3normalized o). intros w o'. stand 3%nat.
  - unfold invbear_ref in *. rd (pose_placed h h' p H Rp) Y. rd (sight_seen h h' l H Rl) Yl. destruct Y as (Y & _ & _ & Ya), Yl as (Yl & _). rewrite Y, Yl, (alg_local Q _ _ _ _ t Ya) in X'. got X X'. rewrite (still_sum 3 i (fun e => nth e _ 0) Hi). reflexivity.
  - unfold invbear_jac in *. rd (pose_placed h h' p H Rp) Y. rd (sight_seen h h' l H Rl) Yl. cbv zeta in X, X'. destruct Y as (Y & _ & _ & Ya), Yl as (Yl & Yr & Yd). rewrite Y, Yl, (alg_local Q _ _ _ _ t Ya) in X'. passed X. cbn [withj] in X'.
    destruct y0 as [[q rho] dir], y'0 as [[q' rho'] dir']. cbn [fst snd] in *. subst rho' dir'. 
    apply set2 in X. apply set2 in X'. destruct X as (B0 & B1 & X0 & X1 & ->), X' as (C0 & C1 & X0' & X1' & ->). destruct (nltb _ _); [discriminate X1|].
    assert (Ed : m3v (snd y') (v3div (v3neg (m3v Q dir)) (rho * rho)%num) = m3v (snd y) (v3div (v3neg dir) (rho * rho)%num)).
    { rewrite <- Ya, m3v_mul. f_equal. generalize (rho * rho)%num. intros e. clear. destruct Q, dir. gx. f_equal; unfold Rdiv; rring. }
    rewrite Ed in X1'. split; [|split; [|exact I]]; [eapply (blk_turned _ 3 h h' p)|eapply (blk_still 3 h h' l)]; try exact H; try eassumption; auto; intros i c Hi _; rewrite by_standing by exact Hi; rewrite right36 by exact Hi; rewrite m3mul_assoc, Ya; reflexivity.
Qed.
Theorem measurements_in_space f f' : same_in_space Q t ro f f' -> framed_factor f f'.
Proof.
  intros (lf & lf' & -> & -> & [(-> & H)|H]); [apply f_still; exact H|]. destruct lf, lf'; try contradiction H; cbn in H.
  - destruct H as (E & L & L' & H). injection E as <- <- <-. apply f_generic_prior; assumption.
  - destruct H as (E & D & -> & H). injection E as <- <- <- <- <- <-. apply f_generic_between; assumption.
  - destruct H as (E & D & -> & -> & H). injection E as <- <- <- <- <- <- <- <-. apply f_linear_velocity; assumption.
  - destruct H as (E & P & D). injection E as <- <- <-. apply f_position_prior; assumption.
  - destruct H as (E & P & D & F & F'). injection E as <- <- <-. apply f_orientation_prior; assumption.
  - destruct H as (E & A & B & M). injection E as <- <- <- <- <- <-. apply f_position_between; assumption.
  - destruct H as (E & A & B & C). injection E as <- <- <- <- <-. apply f_orientation_between; assumption.
  - destruct H as (E & P & L). injection E as <- <- <- <- <-. apply f_bearing; assumption.
  - destruct H as (E & P & L). injection E as <- <- <- <- <-. apply f_inverse_range; assumption.
  - destruct H as (E & P & L). injection E as <- <- <- <- <- <-. apply f_projection; assumption.
Qed.
End Factors.
