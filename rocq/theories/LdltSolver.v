(** The LDL^T solver with an arbitrary ordering, over the reals: exact on symmetric matrices; which matrices it accepts; its pivots. *)
From Coq Require Import List Arith ZArith QArith Bool Reals Lra Lia Permutation.
From Verif Require Import Base ListLemmas SpecOpt SpecSolver Optimizer Ldlt Real RSum LdltFacts.
Import ListNotations.
Local Open Scope R_scope.
Set Bullet Behavior "Strict Subproofs".

(** ** Sums over permutations *)
Definition lsum (l : list R) : R := fold_right Rplus 0 l.
Lemma lsum_perm l l' : Permutation l l' -> lsum l = lsum l'.
Proof. unfold lsum. induction 1; cbn; try lra. Qed.
Lemma lsum_app a b : lsum (a ++ b) = lsum a + lsum b.
Proof. unfold lsum. induction a as [|x a IH]; cbn; [lra|]. rewrite IH. lra. Qed.
Lemma rsum_lsum n f : rsum n f = lsum (map f (seq 0 n)).
Proof. induction n; cbn [rsum]; auto. rewrite seq_S, map_app, lsum_app, IHn. cbn. lra. Qed.
Lemma list_nth_seq (p : list nat) n : length p = n -> map (fun i => nth i p 0%nat) (seq 0 n) = p.
Proof.
  intros <-. induction p as [|a p IH]; auto. cbn [length seq map nth]. f_equal. rewrite <- seq_shift, map_map. exact IH.
Qed.
Section Perm.
Context (n : nat) (p : list nat) (Hp : Permutation p (seq 0 n)).
Lemma perm_len : length p = n. Proof. rewrite (Permutation_length Hp). apply seq_length. Qed.
Lemma perm_lt i : (i < n)%nat -> (nth i p 0 < n)%nat.
Proof. intros H. assert (I : In (nth i p 0%nat) (seq 0 n)) by (eapply Permutation_in; [exact Hp|]; apply nth_In; rewrite perm_len; auto). apply in_seq in I. lia. Qed.
Lemma perm_nodup : NoDup p. Proof. apply (Permutation_NoDup (Permutation_sym Hp)), seq_NoDup. Qed.
Lemma perm_inj i j : (i < n)%nat -> (j < n)%nat -> nth i p 0%nat = nth j p 0%nat -> i = j.
Proof. intros Hi Hj. apply NoDup_nth; [exact perm_nodup|rewrite perm_len; auto..]. Qed.
Lemma perm_sum f : rsum n (fun i => f (nth i p 0%nat)) = rsum n f.
Proof.
  rewrite !rsum_lsum. rewrite <- (map_map (fun i => nth i p 0%nat) f). rewrite (list_nth_seq p n perm_len). apply lsum_perm. apply Permutation_map. exact Hp.
Qed.
Definition inv (m a : nat) : nat := match find (fun k => nth k p 0 =? a)%nat (seq 0 m) with Some k => k | None => m end.
Lemma inv_spec a : (a < n)%nat -> (inv n a < n)%nat /\ nth (inv n a) p 0%nat = a.
Proof.
  intros Ha. unfold inv. destruct (find _ _) as [k|] eqn:E.
  - apply find_some in E. destruct E as [E1 E2]. apply in_seq in E1. apply Nat.eqb_eq in E2. split; [lia|auto].
  - exfalso. assert (I : In a p) by (eapply Permutation_in; [exact (Permutation_sym Hp)|]; apply in_seq; lia).
    destruct (In_nth _ _ 0%nat I) as (k & K1 & K2). pose proof (find_none _ _ E k) as X. cbn in X. rewrite K2, Nat.eqb_refl in X.
    assert (In k (seq 0 n)) by (apply in_seq; rewrite perm_len in K1; lia). specialize (X H). discriminate.
Qed.
Lemma inv_nth i : (i < n)%nat -> inv n (nth i p 0%nat) = i.
Proof. intros Hi. destruct (inv_spec (nth i p 0%nat) (perm_lt i Hi)) as (A & B). apply perm_inj; auto. Qed.
End Perm.

(** ** The solver *)
Section Solver.
Context (ord : mat RN -> list nat).
Hypothesis Hord : forall H, Permutation (ord H) (seq 0 (mrows H)).
Notation LS := (ldlt_solver (N:=RN) ord).

Section Matrix.
Context (H : mat RN).
Hypothesis Hs : symmetric_mat H.
Let n := mrows H.
Let p := ord H.
Let A := ldlt_entry (N:=RN) H p.
Lemma entry_sym i j : (i < n)%nat -> (j < n)%nat -> sym A i j = mat_at H (nth i p 0%nat) (nth j p 0%nat).
Proof.
  intros Hi Hj. destruct Hs as (_ & S). pose proof (perm_lt n p (Hord H)) as Lt. unfold sym, A, ldlt_entry.
  destruct (Nat.le_ge_cases i j); [rewrite (Nat.min_l i j), (Nat.max_r i j) by auto|rewrite (Nat.min_r i j), (Nat.max_l i j) by auto];
  destruct (Nat.le_ge_cases (nth i p 0%nat) (nth j p 0%nat)) as [C|C];
  rewrite ?(Nat.max_r _ _ C), ?(Nat.min_l _ _ C), ?(Nat.max_l _ _ C), ?(Nat.min_r _ _ C); auto; apply S; auto; apply Lt; auto.
Qed.
(** a vector in the order of the factorisation *)
Definition permuted (x : list R) : list R := map (fun i => nth i x 0) p.
Lemma permuted_len x : length (permuted x) = n. Proof. unfold permuted. rewrite map_length. apply perm_len, Hord. Qed.
Lemma permuted_nth x i : (i < n)%nat -> nth i (permuted x) 0 = nth (nth i p 0%nat) x 0.
Proof.
  intros Hi. unfold permuted. rewrite nth_indep with (d' := (fun i => nth i x 0) 0%nat); [|fold (permuted x); rewrite permuted_len; auto].
  exact (map_nth (fun i => nth i x 0) p 0%nat i).
Qed.
Lemma form_permuted x : form A n (permuted x) = quad_form H x.
Proof.
  unfold form, quad_form. fold n. rewrite <- (perm_sum n p (Hord H) (fun a => rsum n (fun b => nth a x 0 * mat_at H a b * nth b x 0))).
  apply rsum_ext. intros i Hi. rewrite <- (perm_sum n p (Hord H) (fun b => nth (nth i p 0%nat) x 0 * mat_at H (nth i p 0%nat) b * nth b x 0)).
  apply rsum_ext. intros j Hj. rewrite !permuted_nth, entry_sym by auto. reflexivity.
Qed.
Definition unpermuted (y : list R) : list R := map (fun a => nth (inv p n a) y 0) (seq 0 n).
Lemma unpermuted_len y : length (unpermuted y) = n. Proof. unfold unpermuted. rewrite map_length, seq_length. reflexivity. Qed.
Lemma unpermuted_nth y a : (a < n)%nat -> nth a (unpermuted y) 0 = nth (inv p n a) y 0.
Proof. intros Ha. unfold unpermuted. rewrite (nth_map_seq (fun a => nth (inv p n a) y 0) n a Ha). reflexivity. Qed.
Lemma permuted_un y : length y = n -> permuted (unpermuted y) = y.
Proof.
  intros L. apply (nth_ext _ _ 0 0); [rewrite permuted_len; auto|]. intros i Hi. rewrite permuted_len in Hi. rewrite permuted_nth by auto.
  rewrite unpermuted_nth by (apply (perm_lt n p (Hord H)); auto). rewrite (inv_nth n p (Hord H)) by auto. reflexivity.
Qed.

Lemma compute_eq s : sv_compute LS s H = let '(ok, cs) := factor A n in Ldlt (N:=RN) ok p cs.
Proof. reflexivity. Qed.
Lemma apply_eq s b cs : factor A n = (true, cs) -> ldlt_apply (sv_compute LS s H) b = unpermuted (solve_cols cs (permuted b)).
Proof.
  intros E. rewrite compute_eq, E. destruct (factor_repr _ _ _ E) as ((L & W & _) & _).
  assert (Lp : map (fun i => nth i b (nzero (N:=RN))) p = permuted b) by (unfold permuted; rewrite lit_zero; reflexivity).
  unfold ldlt_apply. cbn [lt_cols lt_perm]. rewrite Lp.
  change (ldlt_upper cs (ldlt_diag cs (ldlt_lower cs (permuted b)))) with (solve_cols cs (permuted b)).
  assert (Ly : length (solve_cols cs (permuted b)) = n) by (rewrite solve_len; auto; rewrite permuted_len; auto).
  change (@length (car RN) (solve_cols cs (permuted b)) = n) in Ly. rewrite Ly. unfold unpermuted, inv. rewrite lit_zero. reflexivity.
Qed.
Lemma solution s b : lt_ok (sv_compute LS s H) = true -> solves H b (ldlt_apply (sv_compute LS s H) b).
Proof.
  intros Ho. destruct (factor A n) as [ok cs] eqn:E. assert (ok = true) by (rewrite compute_eq, E in Ho; exact Ho). subst ok.
  rewrite (apply_eq s b cs E). destruct (factor_repr _ _ _ E) as ((L & W & R) & Z). set (y := solve_cols cs (permuted b)).
  assert (Ly : length y = n) by (unfold y; rewrite solve_len; auto; rewrite permuted_len; auto).
  destruct Hs as (Sq & _). split; [rewrite Sq; apply unpermuted_len|]. intros a Ha. fold n in Ha.
  destruct (inv_spec n p (Hord H) a Ha) as (Hi & Ei). set (i := inv p n a) in *.
  assert (Q : nth i (amul cs y) 0 = nth a b 0).
  { unfold y. rewrite solve_right; auto; [|rewrite permuted_len; auto]. rewrite permuted_nth by auto. rewrite Ei. reflexivity. }
  rewrite R in Q by auto. rewrite Sq. fold n. rewrite vsum_seq.
  rewrite <- (perm_sum n p (Hord H)). etransitivity; [|etransitivity; [exact Q|exact (f_equal (nth a b) (eq_sym lit_zero))]].
  apply rsum_ext. intros j Hj. rewrite entry_sym, Ei by auto. change (nmul (n:=RN)) with Rmult. f_equal.
  etransitivity; [exact (f_equal (nth (nth j p 0%nat) (unpermuted y)) lit_zero)|].
  rewrite unpermuted_nth by (apply (perm_lt n p (Hord H)); auto). rewrite (inv_nth n p (Hord H)) by auto. reflexivity.
Qed.

(** ** Acceptance and pivots *)
Lemma psd_semi : (forall x, length x = n -> 0 <= quad_form H x) -> semidefinite A n.
Proof. intros P y L. rewrite <- (permuted_un y L), form_permuted. apply P, unpermuted_len. Qed.
Lemma accepted_definite s : (forall x, length x = n -> 0 <= quad_form H x) -> sv_ok LS (sv_compute LS s H) = true ->
  forall x, length x = n -> (exists i, (i < n)%nat /\ nth i x 0 <> 0) -> 0 < quad_form H x.
Proof.
  intros P Ho x L (a & Ha & Hx). cbn [sv_ok ldlt_solver] in Ho. destruct (factor A n) as [ok cs] eqn:E. assert (ok = true) by (rewrite compute_eq, E in Ho; exact Ho). subst ok.
  rewrite <- form_permuted. apply (semi_definite _ _ _ (psd_semi P) E); [apply permuted_len|].
  destruct (inv_spec n p (Hord H) a Ha) as (Hi & Ei). exists (inv p n a). split; auto. rewrite permuted_nth, Ei by auto. exact Hx.
Qed.
Lemma rejected_vector s : sv_ok LS (sv_compute LS s H) = false ->
  exists x a, length x = n /\ (a < n)%nat /\ nth a x 0 = 1 /\ quad_form H x = 0.
Proof.
  intros Ho. cbn [sv_ok ldlt_solver] in Ho. destruct (factor A n) as [ok cs] eqn:E. assert (ok = false) by (rewrite compute_eq, E in Ho; exact Ho). subst ok.
  destruct (rejected_zero _ _ _ E) as (y & k & L & Hk & X1 & X2). exists (unpermuted y), (nth k p 0%nat). split; [apply unpermuted_len|].
  split; [apply (perm_lt n p (Hord H)); auto|]. rewrite unpermuted_nth by (apply (perm_lt n p (Hord H)); auto). rewrite (inv_nth n p (Hord H)) by auto.
  split; auto. rewrite <- form_permuted, permuted_un by auto. exact X2.
Qed.
Lemma pivots_len s : sv_ok LS (sv_compute LS s H) = true -> length (sv_D LS (sv_compute LS s H)) = n.
Proof.
  intros Ho. cbn [sv_ok sv_D ldlt_solver] in *. destruct (factor A n) as [ok cs] eqn:E. rewrite compute_eq, E in *. cbn in Ho. subst ok.
  destruct (factor_repr _ _ _ E) as ((L & _) & _). cbn. rewrite map_length. exact L.
Qed.
(** each pivot is positive, the value of the form at a vector with a coordinate 1, and at most a diagonal entry *)
Lemma pivot_facts s d : (forall x, length x = n -> 0 <= quad_form H x) -> sv_ok LS (sv_compute LS s H) = true ->
  In d (sv_D LS (sv_compute LS s H)) ->
  0 < d /\ (exists x a, length x = n /\ (a < n)%nat /\ nth a x 0 = 1 /\ quad_form H x = d) /\ exists a, (a < n)%nat /\ d <= mat_at H a a.
Proof.
  intros P Ho Hd. cbn [sv_ok sv_D ldlt_solver] in *. destruct (factor A n) as [ok cs] eqn:E. rewrite compute_eq, E in *. cbn in Ho. subst ok.
  cbn [lt_cols] in Hd. apply in_map_iff in Hd. destruct Hd as ([d0 c] & <- & Hd). cbn [fst].
  pose proof (semi_pivots _ _ _ (psd_semi P) E) as Pos. destruct (factor_repr _ _ _ E) as (R & Z). pose proof R as (L & W & _).
  destruct (nth_in _ _ Hd) as (k & K1 & K2). rewrite L in K1.
  split; [rewrite Forall_forall in Pos; exact (Pos _ Hd)|]. split.
  - destruct (pivot_value cs k W) as (y & Y1 & Y2 & _ & Y3); [rewrite L; auto|]. rewrite L in Y1. rewrite K2 in Y3. cbn in Y3.
    exists (unpermuted y), (nth k p 0%nat). split; [apply unpermuted_len|]. split; [apply (perm_lt n p (Hord H)); auto|].
    split; [rewrite unpermuted_nth by (apply (perm_lt n p (Hord H)); auto); rewrite (inv_nth n p (Hord H)) by auto; exact Y2|].
    rewrite <- form_permuted, (permuted_un y Y1), <- Y3. symmetry. apply form_quad; auto.
  - exists (nth k p 0%nat). split; [apply (perm_lt n p (Hord H)); auto|].
    assert (Q : fst (nth k cs (0, [])) <= quad cs (unit_vec n k)).
    { rewrite <- L. apply pivot_le; [|lia]. revert Pos. apply Forall_impl. intros; lra. }
    rewrite K2 in Q. cbn in Q. eapply Rle_trans; [exact Q|]. right.
    assert (Lu : length (unit_vec n k) = n) by (unfold unit_vec; rewrite map_length, seq_length; auto).
    rewrite (form_quad A n) by auto. unfold form.
    assert (U : forall i, (i < n)%nat -> nth i (unit_vec n k) 0 = if (i =? k)%nat then 1 else 0).
    { intros i Hi. unfold unit_vec. apply (nth_map_seq (fun i => if (i =? k)%nat then 1 else 0) n i Hi). }
    rewrite (rsum_single n k); [|auto|].
    + rewrite (rsum_single n k); [|auto|].
      * rewrite entry_sym, U, Nat.eqb_refl by auto. change (1 * mat_at H (nth k p 0%nat) (nth k p 0%nat) * 1 = mat_at H (nth k p 0%nat) (nth k p 0%nat)). ring.
      * intros j Hj Hn. rewrite (U j Hj). destruct (Nat.eqb_spec j k); [contradiction|]. ring.
    + intros i Hi Hn. apply rsum_zero. intros j Hj. rewrite (U i Hi). destruct (Nat.eqb_spec i k); [contradiction|]. ring.
Qed.
End Matrix.

Theorem ldlt_factorising : factorising_solver LS.
Proof.
  exists (fun s H => symmetric_mat H /\ exists s0, s = sv_compute LS s0 H). split; [|split; [|split; [|split]]].
  - intros s H Hs. split; [exact Hs|exists s; reflexivity].
  - intros s H b s' x (Hs & s0 & ->) E. cbn [sv_solve ldlt_solver] in E. injection E as <- <-. split; [split; [exact Hs|exists s0; reflexivity]|].
    split; [reflexivity|]. intros Ho. exact (solution H Hs s0 b Ho).
  - intros s H B s' X (Hs & s0 & ->) HB E. cbn [sv_solve_mat ldlt_solver] in E. injection E as <- <-. split; [split; [exact Hs|exists s0; reflexivity]|].
    split; [reflexivity|]. intros Ho. pose proof Hs as (Sq & _).
    assert (Lp : length (lt_perm (sv_compute LS s0 H)) = mrows H).
    { rewrite (compute_eq H s0). destruct (factor _ _). cbn. apply perm_len, Hord. }
    split; [cbn [mrows ldlt_apply_mat]; rewrite Sq; exact Lp|]. split; [reflexivity|]. intros i j Hi Hj.
    cbn [ldlt_apply_mat mat_at mcols mrows].
    destruct (solution H Hs s0 (map (fun k => mat_at B k j) (seq 0 (mrows B))) Ho) as (S1 & S2).
    specialize (S2 i Hi). etransitivity; [exact S2|]. rewrite lit_zero. apply (nth_map_seq (fun k => mat_at B k j)). rewrite HB. exact Hi.
  - intros s H (Hs & s0 & ->) P. destruct (sv_ok LS (sv_compute LS s0 H)) eqn:Ho.
    + exact (accepted_definite H Hs s0 P Ho).
    + exact (rejected_vector H Hs s0 Ho).
  - intros s H (Hs & s0 & ->) P Ho. split; [exact (pivots_len H s0 Ho)|]. intros d Hd. exact (pivot_facts H Hs s0 d P Ho Hd).
Qed.
End Solver.
