(** Finite sums of reals. *)
From Coq Require Import List Arith ZArith QArith Bool Lia Reals Lra.
From Verif Require Import Base ListLemmas Real.
Import ListNotations.
Local Open Scope R_scope.

Fixpoint rsum (n : nat) (f : nat -> R) : R := match n with O => 0 | S n' => rsum n' f + f n' end.
Lemma vsum_snoc (l : list R) x : vsum (N:=RN) (l ++ [x]) = vsum (N:=RN) l + x.
Proof. unfold vsum. rewrite fold_left_app. reflexivity. Qed.
Lemma vsum_nil : vsum (N:=RN) [] = 0.
Proof. unfold vsum. simpl. apply lit_zero. Qed.
Lemma vsum_seq f n : vsum (N:=RN) (map f (seq 0 n)) = rsum n f.
Proof. induction n; [apply vsum_nil|]. rewrite seq_S, map_app. simpl map. etransitivity; [apply vsum_snoc|]. simpl. f_equal. exact IHn. Qed.
Lemma vsum_nth (l : list R) : vsum (N:=RN) l = rsum (length l) (fun i => nth i l 0).
Proof.
  induction l as [|x l IH] using rev_ind; [apply vsum_nil|]. rewrite vsum_snoc, IH, app_length, Nat.add_1_r. simpl. f_equal.
  - clear. assert (H : forall n, (n <= length l)%nat -> rsum n (fun i => nth i l 0) = rsum n (fun i => nth i (l ++ [x]) 0)).
    { induction n; simpl; intros; auto. rewrite IHn by lia. rewrite app_nth1 by lia. reflexivity. }
    apply H. lia.
  - rewrite app_nth2 by lia. rewrite Nat.sub_diag. reflexivity.
Qed.
Lemma sqnorm_rsum (l : list R) : sqnorm (N:=RN) l = rsum (length l) (fun i => nth i l 0 * nth i l 0).
Proof.
  unfold sqnorm. rewrite vsum_nth, map_length. 
  assert (H : forall n, (n <= length l)%nat -> rsum n (fun i => nth i (map (fun x : R => x * x) l) 0) = rsum n (fun i => nth i l 0 * nth i l 0)).
  { induction n; simpl; intros; auto. rewrite IHn by lia. f_equal. rewrite (nth_indep _ 0 (0 * 0)) by (rewrite map_length; lia). apply map_nth with (f := fun x => x * x). }
  apply H. lia.
Qed.
Lemma rsum_ext n f g : (forall i, (i < n)%nat -> f i = g i) -> rsum n f = rsum n g.
Proof. induction n; simpl; intros H; auto. rewrite IHn by (intros; apply H; lia). rewrite H by lia. reflexivity. Qed.
Lemma rsum_zero n f : (forall i, (i < n)%nat -> f i = 0) -> rsum n f = 0.
Proof. induction n; simpl; intros H; auto. rewrite IHn by (intros; apply H; lia). rewrite H by lia. lra. Qed.
Lemma rsum_plus n f g : rsum n (fun i => f i + g i) = rsum n f + rsum n g.
Proof. induction n; simpl; [lra|]. rewrite IHn. lra. Qed.
Lemma rsum_minus n f g : rsum n (fun i => f i - g i) = rsum n f - rsum n g.
Proof. induction n; simpl; [lra|]. rewrite IHn. lra. Qed.
Lemma rsum_scal n c f : rsum n (fun i => c * f i) = c * rsum n f.
Proof. induction n; simpl; [lra|]. rewrite IHn. lra. Qed.
Lemma rsum_scal_r n c f : rsum n (fun i => f i * c) = rsum n f * c.
Proof. induction n; simpl; [lra|]. rewrite IHn. lra. Qed.
Lemma rsum_swap n m f : rsum n (fun i => rsum m (f i)) = rsum m (fun j => rsum n (fun i => f i j)).
Proof.
  induction n; simpl; [symmetry; apply rsum_zero; auto|]. rewrite IHn, <- rsum_plus. reflexivity.
Qed.
Lemma rsum_nonneg n f : (forall i, (i < n)%nat -> 0 <= f i) -> 0 <= rsum n f.
Proof. induction n; simpl; intros H; [lra|]. assert (0 <= rsum n f) by (apply IHn; intros; apply H; lia). assert (0 <= f n) by (apply H; lia). lra. Qed.
Lemma rsum_single n k f : (k < n)%nat -> (forall i, (i < n)%nat -> i <> k -> f i = 0) -> rsum n f = f k.
Proof.
  induction n; intros Hk H; [lia|]. simpl. destruct (Nat.eq_dec k n) as [->|Hne].
  - rewrite rsum_zero; [lra|]. intros i Hi; apply H; lia.
  - rewrite IHn; [rewrite (H n) by lia; lra|lia|]. intros i Hi Hn; apply H; lia.
Qed.
Lemma rsum_app n m f : rsum (n + m) f = rsum n f + rsum m (fun i => f (n + i)%nat).
Proof. induction m; simpl; [rewrite Nat.add_0_r; lra|]. rewrite Nat.add_succ_r. simpl. rewrite IHm. lra. Qed.
(** a sum over consecutive blocks *)
Lemma rsum_blocks (ws : list nat) f : rsum (list_sum ws) f =
  rsum (length ws) (fun m => rsum (nth m ws 0%nat) (fun c => f (list_sum (firstn m ws) + c)%nat)).
Proof.
  induction ws as [|w ws IH] using rev_ind; [reflexivity|].
  rewrite list_sum_app', rsum_app, app_length, Nat.add_1_r. simpl. rewrite IH. f_equal.
  - apply rsum_ext. intros m Hm. rewrite app_nth1 by lia. rewrite firstn_app. replace (m - length ws)%nat with 0%nat by lia. simpl. rewrite app_nil_r. reflexivity.
  - rewrite app_nth2 by lia. rewrite Nat.sub_diag. rewrite firstn_app, Nat.sub_diag, firstn_all. simpl. rewrite app_nil_r, Nat.add_0_r. reflexivity.
Qed.
