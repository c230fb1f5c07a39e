(** The LDL^T factorisation over the reals: what the columns represent, that solving with them is exact, and what the pivots say. *)
From Coq Require Import List Arith ZArith QArith Bool Reals Lra Lia Permutation.
From Verif Require Import Base ListLemmas Optimizer Ldlt Real RSum.
Import ListNotations.
Local Open Scope R_scope.
Set Bullet Behavior "Strict Subproofs".

Ltac rl := match goal with |- ?a = ?b => change (@eq R a b) end; lra.
Notation cols := (list (R * list R)).
Definition zip (f : R -> R -> R) (a b : list R) : list R := map (fun p => f (fst p) (snd p)) (combine a b).
Fixpoint dot (a b : list R) : R := match a, b with x :: a', y :: b' => x * y + dot a' b' | _, _ => 0 end.
(** the product of the represented matrix with a vector *)
Fixpoint amul (cs : cols) (x : list R) : list R :=
  match cs, x with
  | (d, c) :: cs', x0 :: xs => let t := d * (x0 + dot c xs) in t :: zip (fun e z => e * t + z) c (amul cs' xs)
  | _, _ => []
  end.
Fixpoint quad (cs : cols) (x : list R) : R :=
  match cs, x with
  | (d, c) :: cs', x0 :: xs => d * ((x0 + dot c xs) * (x0 + dot c xs)) + quad cs' xs
  | _, _ => 0
  end.
Fixpoint wfc (cs : cols) : Prop := match cs with [] => True | (_, c) :: cs' => length c = length cs' /\ wfc cs' end.
Definition nz (cs : cols) : Prop := Forall (fun p => fst p <> 0) cs.

Lemma zip_len (f : R -> R -> R) a b : length a = length b -> length (zip f a b) = length a.
Proof. unfold zip. intros H. rewrite map_length, combine_length. lia. Qed.
Lemma zip_cons (f : R -> R -> R) x a y b : zip f (x :: a) (y :: b) = f x y :: zip f a b.
Proof. reflexivity. Qed.
Lemma amul_len cs : forall x, wfc cs -> length x = length cs -> length (amul cs x) = length cs.
Proof.
  induction cs as [|[d c] cs IH]; intros [|x0 xs] W L; try discriminate; auto.
  cbn [amul length]. destruct W as [W1 W2]. f_equal. rewrite zip_len; [exact W1|]. etransitivity; [exact W1|]. symmetry. apply IH; auto.
Qed.
Lemma dot_comm a : forall b, dot a b = dot b a.
Proof. induction a; destruct b; cbn; auto. rewrite IHa. lra. Qed.
Lemma dot_app a : forall b x y, length a = length b -> dot (a ++ [x]) (b ++ [y]) = dot a b + x * y.
Proof. induction a as [|u a IH]; intros [|v b] x y H; try discriminate; cbn; [lra|]. injection H as H. rewrite IH by auto. lra. Qed.
Lemma dot_elim k c : forall ys xs, length ys = length c -> length xs = length c ->
  dot (zip (fun v e => v - e * k) ys c) xs = dot ys xs - k * dot c xs.
Proof.
  induction c as [|u c IH]; intros [|y ys] [|x xs] H1 H2; try discriminate; [cbn; lra|].
  injection H1 as H1. injection H2 as H2. rewrite zip_cons. cbn [dot]. rewrite IH by auto. lra.
Qed.
Lemma dot_axpy t c : forall xs a, length a = length c -> length xs = length c ->
  dot xs (zip (fun e z => e * t + z) c a) = t * dot c xs + dot xs a.
Proof.
  induction c as [|u c IH]; intros [|x xs] [|y ys] H1 H2; try discriminate; cbn [dot]; [cbn; lra|].
  rewrite zip_cons. cbn [dot]. injection H1 as H1. injection H2 as H2. rewrite IH by auto. lra.
Qed.
Lemma dot_zeros c n : dot c (repeat 0 n) = 0.
Proof. revert n. induction c; intros [|n]; cbn; auto. rewrite IHc. lra. Qed.

(** ** Solving *)
Lemma undo_step x c : forall bs, length bs = length c -> zip (fun e z => e * x + z) c (zip (fun v e => v - x * e) bs c) = bs.
Proof.
  induction c as [|u c IH]; intros [|b bs] H; try discriminate; auto. injection H as H. rewrite !zip_cons. rewrite IH by auto. f_equal. lra.
Qed.
Lemma sub_fold c : forall xs t, fold_left (fun t p => t - fst p * snd p) (combine c xs) t = t - dot c xs.
Proof. induction c as [|u c IH]; intros [|x xs] t; cbn [combine fold_left dot]; try lra. rewrite IH. cbn. lra. Qed.
Lemma runit : (nunit : RN) = 1. Proof. unfold nunit, nlit; simpl; unfold Q2R; simpl. lra. Qed.
(** the three solves of the model, on real lists *)
Definition lower (cs : cols) (b : list R) : list R := ldlt_lower (N:=RN) cs b.
Definition diag (cs : cols) (b : list R) : list R := ldlt_diag (N:=RN) cs b.
Definition upper (cs : cols) (b : list R) : list R := ldlt_upper (N:=RN) cs b.
Lemma lower_cons d c cs x bs : lower ((d, c) :: cs) (x :: bs) = x :: lower cs (zip (fun v e => v - x * e) bs c).
Proof. reflexivity. Qed.
Lemma diag_cons d c cs x bs : diag ((d, c) :: cs) (x :: bs) = 1 / d * x :: diag cs bs.
Proof. transitivity ((nunit : RN) / d * x :: diag cs bs); [reflexivity|]. rewrite runit. reflexivity. Qed.
Lemma upper_cons d c cs x bs : upper ((d, c) :: cs) (x :: bs) = x - dot c (upper cs bs) :: upper cs bs.
Proof. rewrite <- sub_fold. reflexivity. Qed.
Definition solve_cols (cs : cols) (b : list R) : list R := upper cs (diag cs (lower cs b)).
Lemma lower_len cs : forall b, wfc cs -> length b = length cs -> length (lower cs b) = length cs.
Proof.
  induction cs as [|[d c] cs IH]; intros [|x b] W L; try discriminate; auto. destruct W as [W1 W2]. injection L as L.
  rewrite lower_cons. cbn [length]. f_equal. apply IH; auto. rewrite zip_len; congruence.
Qed.
Lemma diag_len cs : forall b, length b = length cs -> length (diag cs b) = length cs.
Proof. induction cs as [|[d c] cs IH]; intros [|x b] L; try discriminate; auto. rewrite diag_cons. cbn [length]. f_equal. apply IH. injection L; auto. Qed.
Lemma upper_len cs : forall b, length b = length cs -> length (upper cs b) = length cs.
Proof. induction cs as [|[d c] cs IH]; intros [|x b] L; try discriminate; auto. rewrite upper_cons. cbn [length]. f_equal. apply IH. injection L; auto. Qed.
Lemma solve_len cs b : wfc cs -> length b = length cs -> length (solve_cols cs b) = length cs.
Proof. intros W L. apply upper_len, diag_len, lower_len; auto. Qed.
Lemma solve_right cs : forall b, wfc cs -> nz cs -> length b = length cs -> amul cs (solve_cols cs b) = b.
Proof.
  induction cs as [|[d c] cs IH]; intros [|x b] W Z L; try discriminate; auto. destruct W as [W1 W2]. injection L as L. inversion Z as [|? ? Z1 Z2]; subst.
  cbn in Z1. unfold solve_cols. rewrite lower_cons, diag_cons, upper_cons. set (b' := zip _ b c). fold (solve_cols cs b').
  assert (Lb : length b' = length cs) by (unfold b'; rewrite zip_len; congruence).
  cbn [amul]. 
  assert (T : d * (1 / d * x - dot c (solve_cols cs b') + dot c (solve_cols cs b')) = x) by (field; exact Z1).
  rewrite T, IH by auto. f_equal. apply undo_step. congruence.
Qed.

(** ** Factorising *)
Definition row (cs : cols) (y : list R) (d : R) : cols * R := ldlt_row (N:=RN) cs y d.
Lemma row_cons D c cs yi ys d : row ((D, c) :: cs) (yi :: ys) d =
  let '(cs', d') := row cs (zip (fun v e => v - e * yi) ys c) (d - yi / D * yi) in ((D, c ++ [yi / D]) :: cs', d').
Proof. reflexivity. Qed.
Definition axpy (z : R) (a y : list R) : list R := zip (fun u v => u + z * v) a y.
Lemma row_shape cs : forall y d, wfc cs -> length y = length cs ->
  let '(cs', d') := row cs y d in length cs' = length cs /\ map fst cs' = map fst cs /\ wfc (cs' ++ [(d', [])]).
Proof.
  induction cs as [|[D c] cs IH]; intros [|yi ys] d W L; try discriminate; [cbn; auto|]. destruct W as [W1 W2]. injection L as L.
  rewrite row_cons. specialize (IH (zip (fun v e => v - e * yi) ys c) (d - yi / D * yi) W2).
  destruct (row cs _ _) as [cs' d'] eqn:E. destruct IH as (A & B & C); [rewrite zip_len; congruence|].
  cbn [length map fst app wfc]. split; [congruence|]. split; [congruence|]. split; [|exact C]. rewrite !app_length, W1, A. reflexivity.
Qed.
Lemma border_tail (t yi z l w : R) c : forall A ys, length A = length c -> length ys = length c ->
  zip (fun e u => e * (t + yi * z) + u) (c ++ [l]) (axpy z A (zip (fun v e => v - e * yi) ys c) ++ [w]) =
  axpy z (zip (fun e u => e * t + u) c A) ys ++ [l * (t + yi * z) + w].
Proof.
  unfold axpy. induction c as [|u c IH]; intros [|a A] [|y ys] H1 H2; try discriminate; [reflexivity|].
  injection H1 as H1. injection H2 as H2. cbn [app]. rewrite !zip_cons. cbn [app]. rewrite zip_cons, IH by auto. f_equal. lra.
Qed.
Lemma row_border cs : forall y d x z, wfc cs -> nz cs -> length y = length cs -> length x = length cs ->
  let '(cs', d') := row cs y d in
  amul (cs' ++ [(d', [])]) (x ++ [z]) = axpy z (amul cs x) y ++ [dot y x + d * z].
Proof.
  induction cs as [|[D c] cs IH]; intros [|yi ys] d [|x0 xs] z W Z L1 L2; try discriminate; [cbn; f_equal; lra|].
  destruct W as [W1 W2]. injection L1 as L1. injection L2 as L2. inversion Z as [|? ? Z1 Z2]; subst. cbn in Z1.
  rewrite row_cons.
  assert (Ly : length (zip (fun v e => v - e * yi) ys c) = length cs) by (rewrite zip_len; congruence).
  specialize (IH (zip (fun v e => v - e * yi) ys c) (d - yi / D * yi) xs z W2 Z2 Ly L2).
  destruct (row cs _ _) as [cs' d'] eqn:E. cbn [app amul]. rewrite IH.
  assert (T : D * (x0 + dot (c ++ [yi / D]) (xs ++ [z])) = D * (x0 + dot c xs) + yi * z).
  { rewrite dot_app by congruence. field. exact Z1. }
  rewrite T. unfold axpy at 2. rewrite zip_cons. cbn [app]. f_equal; [lra|].
  rewrite border_tail; [|rewrite amul_len by auto; congruence|congruence]. fold axpy. f_equal. f_equal.
  rewrite dot_elim by congruence. cbn [dot]. field. exact Z1.
Qed.

(** the symmetric matrix given by its upper triangle, its product with a vector *)
Definition sym (A : nat -> nat -> R) (i j : nat) : R := A (Nat.min i j) (Nat.max i j).
Definition represents (A : nat -> nat -> R) (n : nat) (cs : cols) : Prop :=
  length cs = n /\ wfc cs /\ forall x, length x = n -> forall i, (i < n)%nat -> nth i (amul cs x) 0 = rsum n (fun j => sym A i j * nth j x 0).
Lemma snoc_cases {A} (l : list A) n : length l = S n -> exists m x, l = m ++ [x] /\ length m = n.
Proof.
  intros H. destruct (rev l) as [|x m] eqn:E; [apply (f_equal (@length A)) in E; rewrite rev_length in E; cbn in E; lia|].
  exists (rev m), x. assert (l = rev m ++ [x]) by (rewrite <- (rev_involutive l), E; reflexivity). split; auto.
  subst l. rewrite app_length in H. cbn in H. lia.
Qed.
Lemma axpy_len z a y : length a = length y -> length (axpy z a y) = length a.
Proof. apply zip_len. Qed.
Lemma axpy_nth z : forall a y i, length a = length y -> nth i (axpy z a y) 0 = nth i a 0 + z * nth i y 0.
Proof.
  unfold axpy. induction a as [|u a IH]; intros [|v y] i H; try discriminate; [destruct i; cbn; lra|]. injection H as H. rewrite zip_cons.
  destruct i; cbn [nth]; auto.
Qed.
Lemma nth_snoc (l : list R) x n : length l = n -> nth n (l ++ [x]) 0 = x.
Proof. intros <-. apply nth_middle. Qed.
Lemma dot_rsum : forall a b, length a = length b -> dot a b = rsum (length a) (fun i => nth i a 0 * nth i b 0).
Proof.
  intros a. induction a as [|u a IH] using rev_ind; intros b H.
  - destruct b; [reflexivity|discriminate].
  - rewrite app_length in H. cbn in H. destruct (snoc_cases b (length a)) as (b' & v & -> & Hb); [lia|].
    assert (Hl : length (a ++ [u]) = S (length a)) by (rewrite app_length; cbn; lia). rewrite Hl, dot_app, IH by auto. cbn [rsum].
    rewrite !nth_snoc by auto. f_equal. apply rsum_ext. intros i Hi. rewrite !app_nth1 by lia. reflexivity.
Qed.
Lemma nth_map_seq (f : nat -> R) n i : (i < n)%nat -> nth i (map f (seq 0 n)) 0 = f i.
Proof. intros H. rewrite nth_indep with (d' := f 0%nat) by (rewrite map_length, seq_length; auto). rewrite map_nth, seq_nth by auto. reflexivity. Qed.
Lemma border_repr A n cs y : represents A n cs -> nz cs -> y = map (fun i => A i n) (seq 0 n) ->
  let '(cs', d') := row cs y (A n n) in represents A (S n) (cs' ++ [(d', [])]) /\ map fst cs' = map fst cs.
Proof.
  intros (L & W & R) Z Hy. assert (Ly : length y = length cs) by (subst y; rewrite map_length, seq_length; auto).
  pose proof (row_shape cs y (A n n) W Ly) as S1. pose proof (fun x z => row_border cs y (A n n) x z W Z Ly) as S2.
  destruct (row cs y (A n n)) as [cs' d']. destruct S1 as (S1 & S3 & S4). split; auto. split; [|split; auto].
  - rewrite app_length. cbn. lia.
  - intros x Lx i Hi. destruct (snoc_cases x n Lx) as (x' & z & -> & Lx'). rewrite S2 by lia.
    assert (La : length (amul cs x') = length y) by (rewrite amul_len; auto; lia).
    assert (Ln : length (axpy z (amul cs x') y) = n) by (rewrite axpy_len, La; auto; lia).
    cbn [rsum]. destruct (Nat.eq_dec i n) as [->|Hn].
    + rewrite !nth_snoc, dot_rsum by congruence. rewrite Ly, L.
      f_equal; [|unfold sym; rewrite Nat.min_id, Nat.max_id; reflexivity]. apply rsum_ext. intros j Hj. rewrite app_nth1 by lia. f_equal.
      unfold sym. rewrite Nat.min_r, Nat.max_l by lia. subst y. rewrite (nth_map_seq (fun i => A i n) n j) by lia. reflexivity.
    + rewrite app_nth1 by lia. rewrite axpy_nth by auto. rewrite R by lia. rewrite nth_snoc by auto. f_equal.
      * apply rsum_ext. intros j Hj. rewrite app_nth1 by lia. reflexivity.
      * unfold sym. rewrite Nat.min_l, Nat.max_r by lia. subst y. rewrite (nth_map_seq (fun i => A i n) n i) by lia. rewrite Rmult_comm. reflexivity.
Qed.

(** ** The whole factorisation *)
Definition factor (A : nat -> nat -> R) (n : nat) : bool * cols := ldlt_factor (N:=RN) A n.
Lemma factor_S A n : factor A (S n) =
  match factor A n with
  | (false, cs) => (false, cs)
  | (true, cs) => let '(cs', d) := row cs (map (fun i => A i n) (seq 0 n)) (A n n) in (negb (is_zero (N:=RN) d), cs' ++ [(d, [])])
  end.
Proof. reflexivity. Qed.
Lemma is_zero_spec (x : R) : is_zero (N:=RN) x = true <-> x = 0.
Proof.
  unfold is_zero. rewrite lit_zero. cbn [nleb RN]. rewrite andb_true_iff, !Rleb_true. lra.
Qed.
Lemma nz_fst cs cs' : map fst cs' = map fst cs -> nz cs -> nz cs'.
Proof.
  unfold nz. rewrite !Forall_forall. intros E H p Hp. assert (I : In (fst p) (map fst cs)) by (rewrite <- E; apply in_map; auto).
  apply in_map_iff in I. destruct I as (q & Hq & Hi). rewrite <- Hq. apply H. exact Hi.
Qed.
Lemma factor_repr A n : forall cs, factor A n = (true, cs) -> represents A n cs /\ nz cs.
Proof.
  induction n as [|n IH]; intros cs E.
  - injection E as <-. split; [|constructor]. split; auto. split; [exact I|]. intros x _ i Hi. lia.
  - rewrite factor_S in E. destruct (factor A n) as [[] c0]; [|discriminate]. destruct (IH c0 eq_refl) as (R & Z).
    pose proof (border_repr A n c0 _ R Z eq_refl) as B. destruct (row c0 _ (A n n)) as [cs' d]. injection E as E <-. destruct B as (B1 & B2).
    split; auto. apply Forall_app. split; [exact (nz_fst _ _ B2 Z)|]. constructor; [|constructor]. cbn. intros ->. rewrite (proj2 (is_zero_spec 0)) in E by reflexivity. discriminate.
Qed.

(** ** The quadratic form *)
Lemma quad_spec cs : forall x, wfc cs -> length x = length cs -> dot x (amul cs x) = quad cs x.
Proof.
  induction cs as [|[d c] cs IH]; intros [|x0 xs] W L; try discriminate; auto. destruct W as [W1 W2]. injection L as L.
  cbn [amul dot quad]. rewrite dot_axpy, IH by (auto; try congruence; rewrite amul_len; auto; congruence). ring.
Qed.
Lemma quad_zeros cs : forall n, quad cs (repeat 0 n) = 0.
Proof. induction cs as [|[d c] cs IH]; intros [|n]; cbn; auto. rewrite IH, dot_zeros. ring. Qed.
(** each pivot is a value of the form at a vector with a coordinate 1 *)
Lemma pivot_value cs : forall k, wfc cs -> (k < length cs)%nat -> exists x, length x = length cs /\ nth k x 0 = 1 /\
  (forall j, (k < j)%nat -> nth j x 0 = 0) /\ quad cs x = fst (nth k cs (0, [])).
Proof.
  induction cs as [|[d c] cs IH]; intros k W Hk; [cbn in Hk; lia|]. destruct W as [W1 W2]. destruct k as [|k].
  - exists (1 :: repeat 0 (length cs)). cbn [length nth quad fst]. rewrite repeat_length, dot_zeros, quad_zeros. repeat split; try ring.
    intros [|j] Hj; [lia|]. apply nth_repeat.
  - destruct (IH k W2) as (x & A & B & C & D); [cbn in Hk; lia|]. exists ((- dot c x) :: x). cbn [length nth quad]. rewrite D. repeat split; auto; try ring.
    intros [|j] Hj; [lia|]. apply C. lia.
Qed.
Lemma quad_nonneg cs : Forall (fun p => 0 <= fst p) cs -> forall x, 0 <= quad cs x.
Proof.
  induction 1 as [|[d c] cs H1 H2 IH]; intros [|x0 xs]; cbn [quad]; try lra. specialize (IH xs). cbn in H1.
  assert (0 <= (x0 + dot c xs) * (x0 + dot c xs)) by (apply Rle_0_sqr). assert (0 <= d * ((x0 + dot c xs) * (x0 + dot c xs))) by (apply Rmult_le_pos; auto). lra.
Qed.
Lemma quad_pos cs : Forall (fun p => 0 < fst p) cs -> wfc cs -> forall x, length x = length cs -> quad cs x <= 0 -> x = repeat 0 (length cs).
Proof.
  induction 1 as [|[d c] cs H1 H2 IH]; intros W [|x0 xs] L Q; try discriminate; auto. destruct W as [W1 W2]. injection L as L. cbn [quad] in Q. cbn in H1.
  assert (P1 : 0 <= quad cs xs) by (apply quad_nonneg; revert H2; apply Forall_impl; intros; lra).
  assert (P2 : 0 <= (x0 + dot c xs) * (x0 + dot c xs)) by (apply Rle_0_sqr).
  assert (P3 : 0 <= d * ((x0 + dot c xs) * (x0 + dot c xs))) by (apply Rmult_le_pos; lra).
  assert (X : xs = repeat 0 (length cs)) by (apply IH; auto; lra).
  assert (Y : (x0 + dot c xs) * (x0 + dot c xs) = 0).
  { apply Rmult_eq_reg_l with d; [|lra]. rewrite Rmult_0_r. lra. }
  apply Rsqr_0_uniq in Y. cbn [length repeat]. rewrite X in Y |- *. rewrite dot_zeros in Y. f_equal. lra.
Qed.
(** a pivot is at most the value at the unit vector *)
Definition unit_vec (n k : nat) : list R := map (fun i => if (i =? k)%nat then 1 else 0) (seq 0 n).
Lemma unit_S n k : unit_vec (S n) (S k) = 0 :: unit_vec n k.
Proof. unfold unit_vec. cbn [seq map Nat.eqb]. f_equal. rewrite <- seq_shift, map_map. reflexivity. Qed.
Lemma unit_0 n : unit_vec (S n) 0 = 1 :: repeat 0 n.
Proof.
  unfold unit_vec. cbn [seq map Nat.eqb]. f_equal. rewrite <- seq_shift, map_map. cbn [Nat.eqb]. generalize 0%nat.
  induction n; intros m; cbn; auto. f_equal. apply IHn.
Qed.
Lemma pivot_le cs : forall k, Forall (fun p => 0 <= fst p) cs -> (k < length cs)%nat -> fst (nth k cs (0, [])) <= quad cs (unit_vec (length cs) k).
Proof.
  induction cs as [|[d c] cs IH]; intros k H Hk; [cbn in Hk; lia|]. inversion H as [|? ? H1 H2]; subst. cbn [length]. destruct k as [|k].
  - rewrite unit_0. cbn [nth fst quad]. rewrite dot_zeros, quad_zeros. lra.
  - rewrite unit_S. cbn [nth quad]. cbn in H1. specialize (IH k H2 ltac:(cbn in Hk; lia)).
    assert (0 <= (0 + dot c (unit_vec (length cs) k)) * (0 + dot c (unit_vec (length cs) k))) by (apply Rle_0_sqr).
    assert (0 <= d * ((0 + dot c (unit_vec (length cs) k)) * (0 + dot c (unit_vec (length cs) k)))) by (apply Rmult_le_pos; auto). lra.
Qed.

(** the form of the represented matrix *)
Definition form (A : nat -> nat -> R) (n : nat) (x : list R) : R := rsum n (fun i => rsum n (fun j => nth i x 0 * sym A i j * nth j x 0)).
Lemma form_quad A n cs x : represents A n cs -> length x = n -> quad cs x = form A n x.
Proof.
  intros (L & W & R) Lx. rewrite <- quad_spec by (auto; congruence). rewrite dot_rsum by (rewrite amul_len; auto; congruence). rewrite Lx.
  apply rsum_ext. intros i Hi. rewrite R by auto. rewrite <- rsum_scal. apply rsum_ext. intros j Hj. ring.
Qed.
Definition definite (A : nat -> nat -> R) (n : nat) : Prop := forall x, length x = n -> (exists i, (i < n)%nat /\ nth i x 0 <> 0) -> 0 < form A n x.
Definition semidefinite (A : nat -> nat -> R) (n : nat) : Prop := forall x, length x = n -> 0 <= form A n x.
Lemma form_pad A n x : length x = n -> form A (S n) (x ++ [0]) = form A n x.
Proof.
  intros L. unfold form. cbn [rsum].
  assert (Z : nth n (x ++ [0]) 0 = 0) by (apply nth_snoc; auto).
  rewrite Z. rewrite (rsum_zero n (fun j => 0 * _ * _)) by (intros; ring).
  transitivity (rsum n (fun i => rsum n (fun j => nth i (x ++ [0]) 0 * sym A i j * nth j (x ++ [0]) 0) + nth i (x ++ [0]) 0 * sym A i n * 0)); [lra|].
  apply rsum_ext. intros i Hi. rewrite Rmult_0_r, Rplus_0_r, app_nth1 by lia. apply rsum_ext. intros j Hj. rewrite app_nth1 by lia. reflexivity.
Qed.
Lemma definite_down A n : definite A (S n) -> definite A n.
Proof.
  intros H x L (i & Hi & Hx). rewrite <- form_pad by auto. apply H; [rewrite app_length; cbn; lia|]. exists i. split; [lia|]. rewrite app_nth1 by lia. exact Hx.
Qed.
(** a definite matrix is factorised with positive pivots *)
Lemma definite_ok A n : definite A n -> exists cs, factor A n = (true, cs) /\ Forall (fun p => 0 < fst p) cs.
Proof.
  induction n as [|n IH]; intros D; [exists []; split; auto; constructor|].
  destruct (IH (definite_down _ _ D)) as (cs & E & P). destruct (factor_repr _ _ _ E) as (R & Z).
  rewrite factor_S, E. pose proof (border_repr A n cs _ R Z eq_refl) as B. destruct (row cs _ (A n n)) as [cs' d]. destruct B as (B1 & B2).
  assert (Lc : length cs' = n) by (destruct B1 as (B1 & _); rewrite app_length in B1; cbn in B1; lia).
  assert (Hd : 0 < d).
  { destruct (pivot_value (cs' ++ [(d, [])]) n) as (x & X1 & X2 & _ & X4); [apply B1|rewrite app_length; cbn; lia|].
    rewrite app_nth2, Lc, Nat.sub_diag in X4 by lia. cbn in X4. rewrite <- X4. 
    assert (Lx : length x = S n) by (rewrite X1; apply B1). rewrite (form_quad A (S n)) by auto. apply D; auto. exists n. split; [lia|]. rewrite X2. lra. }
  exists (cs' ++ [(d, [])]). split.
  - f_equal. destruct (is_zero d) eqn:Ez; auto. apply is_zero_spec in Ez. lra.
  - apply Forall_app. split; [|repeat constructor; exact Hd]. rewrite Forall_forall in *. intros q Hq.
    assert (I : In (fst q) (map fst cs)) by (rewrite <- B2; apply in_map; auto). apply in_map_iff in I. destruct I as (q0 & <- & Hi). apply P. exact Hi.
Qed.
(** a semidefinite matrix is factorised only if it is definite *)
Lemma nth_in (cs : cols) p : In p cs -> exists k, (k < length cs)%nat /\ nth k cs (0, []) = p.
Proof. intros H. destruct (In_nth cs p (0, []) H) as (k & A & B). eauto. Qed.
Lemma semi_pivots A n cs : semidefinite A n -> factor A n = (true, cs) -> Forall (fun p => 0 < fst p) cs.
Proof.
  intros H E. destruct (factor_repr _ _ _ E) as (R & Z). rewrite Forall_forall. intros p Hp. destruct (nth_in _ _ Hp) as (k & K1 & K2).
  destruct (pivot_value cs k) as (x & X1 & X2 & _ & X4); [apply R|auto|]. rewrite K2 in X4. rewrite (form_quad A n) in X4; auto; [|rewrite X1; apply R].
  assert (0 <= form A n x) by (apply H; rewrite X1; apply R). assert (fst p <> 0) by (unfold nz in Z; rewrite Forall_forall in Z; apply Z; auto). lra.
Qed.
Lemma semi_definite A n cs : semidefinite A n -> factor A n = (true, cs) -> definite A n.
Proof.
  intros H E x L (i & Hi & Hx). destruct (factor_repr _ _ _ E) as (R & Z). pose proof (semi_pivots _ _ _ H E) as P.
  destruct (Rle_lt_dec (form A n x) 0) as [Hf|]; auto. exfalso. rewrite <- (form_quad A n cs) in Hf by auto.
  apply quad_pos in Hf; auto; [|apply R|rewrite L; symmetry; apply R]. rewrite Hf in Hx. apply Hx. apply nth_repeat.
Qed.
(** a rejected matrix has a vector with a coordinate 1 at which the form vanishes *)
Lemma rejected_zero A n : forall cs, factor A n = (false, cs) -> exists x k, length x = n /\ (k < n)%nat /\ nth k x 0 = 1 /\ form A n x = 0.
Proof.
  induction n as [|n IH]; intros cs E; [discriminate|]. rewrite factor_S in E. destruct (factor A n) as [[] c0] eqn:E0.
  - destruct (factor_repr _ _ _ E0) as (R & Z). pose proof (border_repr A n c0 _ R Z eq_refl) as B. destruct (row c0 _ (A n n)) as [cs' d]. destruct B as (B1 & _).
    injection E as E _. destruct (is_zero d) eqn:Ez; [|discriminate]. apply is_zero_spec in Ez. subst d.
    assert (Lc : length cs' = n) by (destruct B1 as (B1 & _); rewrite app_length in B1; cbn in B1; lia).
    destruct (pivot_value (cs' ++ [(0, [])]) n) as (x & X1 & X2 & _ & X4); [apply B1|rewrite app_length; cbn; lia|].
    rewrite app_nth2, Lc, Nat.sub_diag in X4 by lia. cbn in X4.
    assert (Lx : length x = S n) by (rewrite X1; apply B1). rewrite (form_quad A (S n)) in X4 by auto. exists x, n. repeat split; auto.
  - destruct (IH c0 eq_refl) as (x & k & L & Hk & X1 & X2). exists (x ++ [0]), k. rewrite form_pad by auto.
    split; [rewrite app_length; cbn; lia|]. split; [lia|]. rewrite app_nth1 by lia. auto.
Qed.
