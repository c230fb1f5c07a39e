(** From the inverse of J^T J to covariances attached to variables. *)
From Coq Require Import List Arith ZArith QArith Bool Lia Permutation Reals Lra.
From Verif Require Import Base Sparse Graph SpecGraph SpecOpt ListLemmas GraphLayout GraphFin GraphBasic GraphVec GraphDense Optimizer Real RSum SpecSolver Gram Pivots OptCov OptExact OptCovFull SpecSteps SpecBlocks OptOrder OptPart SpecCov SpecMarginal SpecChange Change.
Import ListNotations.
Local Open Scope nat_scope.
Set Bullet Behavior "Strict Subproofs".

Section Marginal.
Context {V : Type} (VC : vclass RN V).
Notation factor := (factor (N:=RN) (V:=V)).

Lemma image_parts h vs (fs : list factor) J x d : jacobian_at VC h vs fs J -> parts (width VC h) vs x d ->
  forall k f q, nth_error fs k = Some f -> q < f_rsize f ->
    rsum (mcols J) (fun j => mat_at J (list_sum (firstn k (map f_rsize fs)) + q) j * nth j x 0)%R = first_order VC h vs d f q.
Proof.
  intros HJ (Lx & Dx) k f q Hk Hq. destruct (jacobian_parts VC _ _ _ _ HJ) as (R1 & R2 & R3). rewrite R2. unfold first_order.
  apply (parts_sum (width VC h) vs (fun b c => deriv h f b q c * d b c)%R). intros m' b c' Hm' Hc'. apply f_equal2; [exact (R3 k f m' b q c' Hk Hm' Hq Hc')|exact (Dx m' b c' Hm' Hc')].
Qed.
Lemma gram_parts h vs (fs : list factor) J H x d : jacobian_at VC h vs fs J -> is_gram J H -> parts (width VC h) vs x d ->
  forall m a c, nth_error vs m = Some a -> c < width VC h a ->
    rsum (mcols J) (fun j => mat_at H (list_sum (firstn m (map (width VC h) vs)) + c) j * nth j x 0)%R =
    lsum fs (fun f => rsum (f_rsize f) (fun i => deriv h f a i c * first_order VC h vs d f i))%R.
Proof.
  intros HJ (G1 & G2 & G3) Hx m a c Hm Hc. destruct (jacobian_parts VC _ _ _ _ HJ) as (R1 & R2 & R3). set (i := list_sum (firstn m (map (width VC h) vs)) + c) in *.
  assert (Hi : i < mcols J) by (rewrite R2; unfold i; pose proof (part_below (width VC h) vs m a Hm); lia).
  rewrite (rsum_ext (mcols J) _ (fun j => rsum (mrows J) (fun k => mat_at J k i * (mat_at J k j * nth j x 0))%R)).
  2: { intros j Hj. rewrite (G3 i j Hi Hj), vsum_seq, <- rsum_scal_r. apply rsum_ext. intros k _. apply Rmult_assoc. }
  rewrite rsum_swap, R1. apply (parts_sum f_rsize fs (fun f i => deriv h f a i c * first_order VC h vs d f i)%R).
  intros k f q Hk Hq. rewrite rsum_scal, <- (image_parts h vs fs J x d HJ Hx k f q Hk Hq). apply f_equal2; [exact (R3 k f m a q c Hk Hm Hq Hc)|reflexivity].
Qed.
Lemma unnoticed_matrix h vs (fs : list factor) J : NoDup vs -> jacobian_at VC h vs fs J -> (exists d, unnoticed VC h vs fs d) <-> exists x, unobservable J x.
Proof.
  intros Nd HJ. pose proof (jacobian_parts VC _ _ _ _ HJ) as (R1 & R2 & R3). split.
  - intros (d & (a & c & Ha & Hc & Hd) & Z). destruct (parts_to (width VC h) vs d) as (x & D). exists x. apply In_nth_error in Ha. destruct Ha as (m & Hm).
    split; [rewrite R2; exact (proj1 D)|]. split.
    + exists (list_sum (firstn m (map (width VC h) vs)) + c). split; [rewrite R2; pose proof (part_below (width VC h) vs m a Hm); lia|]. rewrite (proj2 D m a c Hm Hc). exact Hd.
    + intros k Hk. rewrite R1 in Hk. destruct (part_of _ _ _ Hk) as (m' & f & q & Hf & Hq & ->). etransitivity; [exact (image_parts h vs fs J x d HJ D m' f q Hf Hq)|]. apply Z; [eapply nth_error_In; eauto|exact Hq].
  - intros (x & L & (i & Hi & Hx) & Z). destruct (parts_of (width VC h) vs Nd x) as (d & D); [rewrite L; exact R2|]. exists d. split.
    + rewrite R2 in Hi. destruct (part_of _ _ _ Hi) as (m & a & c & Hm & Hc & ->). exists a, c. split; [eapply nth_error_In; eauto|]. split; [exact Hc|]. rewrite <- (proj2 D m a c Hm Hc). exact Hx.
    + intros f i' Hf Hi'. apply In_nth_error in Hf. destruct Hf as (k & Hk). rewrite <- (image_parts h vs fs J x d HJ D k f i' Hk Hi'). apply Z. rewrite R1. pose proof (part_below f_rsize fs k f Hk). lia.
Qed.
Lemma index_eq (w : nat -> nat) vs m a c m' a' c' : NoDup vs -> nth_error vs m = Some a -> c < w a -> nth_error vs m' = Some a' -> c' < w a' ->
  (list_sum (firstn m (map w vs)) + c =? list_sum (firstn m' (map w vs)) + c') = (a =? a') && (c =? c').
Proof.
  intros Nd Hm Hc Hm' Hc'. destruct (Nat.eqb_spec a a') as [->|Na]; cbn [andb].
  - assert (m = m') as ->. { apply (proj1 (NoDup_nth_error vs) Nd); [apply nth_error_Some; congruence|congruence]. }
    destruct (Nat.eqb_spec c c') as [->|]; [apply Nat.eqb_refl|]. apply Nat.eqb_neq. lia.
  - apply Nat.eqb_neq. intros E.
    assert (St : forall k1 k2 a1, k1 < k2 -> nth_error vs k1 = Some a1 -> list_sum (firstn k1 (map w vs)) + w a1 <= list_sum (firstn k2 (map w vs))).
    { clear. intros k1 k2 a1 L E. revert k2 vs L E. induction k1 as [|k1 IH]; intros [|k2] [|b vs] L E; try lia; try discriminate; cbn in E.
      - injection E as ->. cbn. lia.
      - change (w b + list_sum (firstn k1 (map w vs)) + w a1 <= w b + list_sum (firstn k2 (map w vs))). specialize (IH k2 vs ltac:(lia) E). lia. }
    destruct (Nat.lt_trichotomy m m') as [L|[L|L]].
    + specialize (St m m' a L Hm). lia.
    + subst m'. congruence.
    + specialize (St m' m a' L Hm'). lia.
Qed.
Lemma reports_answers h h' vs (fs : list factor) J est : NoDup vs -> jacobian_at VC h vs fs J ->
  (forall a, In a vs -> width VC h' a = width VC h a) -> (forall a, In a vs -> exists v, nth_error h' a = Some v) -> reports VC h' vs J est -> answers VC h vs fs est.
Proof.
  intros Nd HJ Hw Hl [(X & N)|(X & H & W & HG & HW & K)].
  - left. split; [apply (unnoticed_matrix h vs fs J Nd HJ); exact X|]. intros a Ha. destruct (Hl a Ha) as (v & Hv). exact (N a v Hv).
  - right. split; [intros d Hd; destruct (proj1 (unnoticed_matrix h vs fs J Nd HJ) (ex_intro _ d Hd)) as (x & Hx); exact (X x Hx)|].
    intros b Hb Wb. destruct (Hl b Hb) as (v & Hv). apply In_nth_error in Hb. destruct Hb as (m & Hm).
    assert (Ev : vconst VC v = false /\ vsize VC v = width VC h b).
    { rewrite <- (Hw b (nth_error_In _ _ Hm)) in *. unfold width in *. rewrite Hv in *. destruct (vconst VC v); [lia|auto]. }
    destruct Ev as (Cv & Sv). set (n := width VC h b) in *.
    pose proof (jacobian_parts VC _ _ _ _ HJ) as (R1 & R2 & R3).
    assert (Cs : col_start VC h' vs m = list_sum (firstn m (map (width VC h) vs))).
    { unfold col_start. do 2 f_equal. apply map_ext_in. exact Hw. }
    set (o := list_sum (firstn m (map (width VC h) vs))) in *.
    assert (Bd : o + n <= mcols J) by (rewrite R2; exact (part_below (width VC h) vs m b Hm)).
    assert (Mg : forall P, mrows P = n -> mcols P = n -> (forall i j, i < n -> j < n -> mat_at P i j = mat_at W (o + i) (o + j)) -> marginal VC h vs fs b P).
    { intros P P1 P2 P3. split; [exact P1|]. split; [exact P2|]. intros e He. fold n in He. pose proof HG as (G1 & G2 & G3). pose proof HW as (W1 & W2 & W3). rewrite G1 in W1. rewrite G2 in W2.
      assert (HS : symmetric_mat H).
      { split; [congruence|]. intros i j Hi Hj. rewrite G1 in Hi, Hj. rewrite !G3 by auto. rewrite !vsum_seq. apply rsum_ext. intros k _. apply Rmult_comm. }
      split.
      - set (x := map (fun i => mat_at W i (o + e)) (seq 0 (mcols J))). assert (Lx : length x = mcols J) by (unfold x; rewrite map_length, seq_length; reflexivity).
        assert (Nx : forall j, j < mcols J -> nth j x 0%R = mat_at W j (o + e)).
        { intros j Hj. unfold x. rewrite (nth_indep _ 0%R (mat_at W 0 (o + e))) by (rewrite map_length, seq_length; exact Hj). rewrite (map_nth (fun i => mat_at W i (o + e))), seq_nth by exact Hj. reflexivity. }
        destruct (parts_of (width VC h) vs Nd x) as (d & D); [exact (eq_trans Lx R2)|]. exists d. intros a c Ha Hc. apply In_nth_error in Ha. destruct Ha as (m' & Hm').
        rewrite <- (gram_parts h vs fs J H x d HJ HG D m' a c Hm' Hc), <- (index_eq (width VC h) vs m' a c m b e Nd Hm' Hc Hm He). fold o.
        rewrite (rsum_ext (mcols J) _ (fun j => mat_at H (list_sum (firstn m' (map (width VC h) vs)) + c) j * mat_at W j (o + e))%R) by (intros j Hj; apply f_equal2; [reflexivity|exact (Nx j Hj)]).
        rewrite <- G1. apply (right_inverse H W HS HW); rewrite ?G1; [|exact (Nat.lt_le_trans _ (o + n) _ (proj1 (Nat.add_lt_mono_l _ _ _) He) Bd)].
        rewrite R2. exact (Nat.lt_le_trans _ _ _ (proj1 (Nat.add_lt_mono_l _ _ _) Hc) (part_below (width VC h) vs m' a Hm')).
      - intros d Cd i Hi. fold n in Hi. rewrite P3 by auto. destruct (parts_to (width VC h) vs d) as (x & D). rewrite <- (proj2 D m b i Hm Hi). fold o.
        assert (Gx : forall j, j < mcols J -> rsum (mcols J) (fun l => mat_at H j l * nth l x 0)%R = if j =? o + e then 1%R else 0%R).
        { intros j Hj. rewrite R2 in Hj. destruct (part_of _ _ _ Hj) as (m' & a & c & Hm' & Hc & ->). transitivity (if (a =? b) && (c =? e) then 1 else 0)%R; [|exact (f_equal (fun t : bool => if t then 1%R else 0%R) (eq_sym (index_eq (width VC h) vs m' a c m b e Nd Hm' Hc Hm He)))].
          rewrite <- (Cd a c (nth_error_In _ _ Hm') Hc). exact (gram_parts h vs fs J H x d HJ HG D m' a c Hm' Hc). }
        assert (Wl : forall l, l < mcols J -> rsum (mcols J) (fun k => mat_at W (o + i) k * mat_at H k l)%R = if o + i =? l then 1%R else 0%R).
        { intros l Hl'. specialize (W3 (o + i) l). rewrite vsum_seq, W1 in W3. rewrite W2, G2 in W3. etransitivity; [exact (W3 ltac:(lia) Hl')|]. destruct (o + i =? l); [apply rlit1|apply lit_zero]. }
        transitivity (rsum (mcols J) (fun k => (if o + e =? k then 1 else 0) * mat_at W (o + i) k)%R); [symmetry; apply (delta_sum _ (o + e) (fun k => mat_at W (o + i) k)); lia|].
        transitivity (rsum (mcols J) (fun k => rsum (mcols J) (fun l => mat_at W (o + i) k * mat_at H k l * nth l x 0)%R)).
        { apply rsum_ext. intros k Hk. rewrite Nat.eqb_sym, <- (Gx k Hk), Rmult_comm, <- rsum_scal. apply rsum_ext. intros l _. symmetry. apply Rmult_assoc. }
        rewrite rsum_swap. transitivity (rsum (mcols J) (fun l => (if o + i =? l then 1 else 0) * nth l x 0)%R); [|apply (delta_sum _ (o + i) (fun l => nth l x 0%R)); lia].
        apply rsum_ext. intros l Hl'. rewrite rsum_scal_r, Wl by exact Hl'. reflexivity. }
    destruct (K m b v Hm Hv Cv ltac:(lia)) as [(P & E & (P1 & P2 & P3) & _ & _ & P4)|(E & i & Hi & P4)].
    + rewrite Sv in *. rewrite Cs in P3. exists P. split; [apply Mg; auto|]. left. split; [exact E|exact P4].
    + rewrite Sv, Cs in *. exists (Mat (N:=RN) n n (fun i j => mat_at W (o + i) (o + j))). split; [apply Mg; auto|]. right. split; [exact E|]. exists i. split; [exact Hi|exact P4].
Qed.

(** ** other order *)
Lemma column_perm h vs vs' (fs fs' : list factor) b e d : Permutation vs vs' -> Permutation fs fs' -> covariance_column VC h vs fs b e d -> covariance_column VC h vs' fs' b e d.
Proof.
  intros Pv Pf C a c Ha Hc. rewrite <- (C a c (Permutation_in a (Permutation_sym Pv) Ha) Hc). rewrite (lsum_perm _ _ _ Pf). apply lsum_ext. intros f Hf. apply rsum_ext. intros i Hi.
  rewrite (first_order_perm VC _ _ _ _ _ _ Pv). reflexivity.
Qed.
Lemma unnoticed_perm h vs vs' (fs fs' : list factor) d : Permutation vs vs' -> Permutation fs fs' -> unnoticed VC h vs fs d -> unnoticed VC h vs' fs' d.
Proof.
  intros Pv Pf ((a & c & Ha & X) & Z). split; [exists a, c; split; [apply (Permutation_in a Pv Ha)|exact X]|]. intros f i Hf Hi.
  rewrite <- (first_order_perm VC h vs vs' d f i Pv). apply Z; [apply (Permutation_in f (Permutation_sym Pf) Hf)|exact Hi].
Qed.
Lemma marginal_unique h vs (fs : list factor) b P Q : marginal VC h vs fs b P -> marginal VC h vs fs b Q -> forall i j, i < width VC h b -> j < width VC h b -> mat_at P i j = mat_at Q i j.
Proof. intros (_ & _ & A) (_ & _ & B) i j Hi Hj. destruct (A j Hj) as ((d & Hd) & A'). rewrite (A' d Hd i Hi), (proj2 (B j Hj) d Hd i Hi). reflexivity. Qed.
Lemma marginal_perm h vs vs' (fs fs' : list factor) b P : Permutation vs vs' -> Permutation fs fs' -> marginal VC h vs fs b P -> marginal VC h vs' fs' b P.
Proof.
  intros Pv Pf (A & B & C). split; [exact A|]. split; [exact B|]. intros e He. destruct (C e He) as ((d & Hd) & K). split; [exists d; eapply column_perm; eauto|].
  intros d' Hd'. apply K. eapply column_perm; [apply Permutation_sym; exact Pv|apply Permutation_sym; exact Pf|exact Hd'].
Qed.
Lemma answers_perm h vs vs' (fs fs' : list factor) est est' : Permutation vs vs' -> Permutation fs fs' -> answers VC h vs fs est -> answers VC h vs' fs' est' ->
  forall b, In b vs -> 0 < width VC h b -> same_answer (est b) (est' b).
Proof.
  intros Pv Pf A A' b Hb Wb. pose proof (Permutation_in b Pv Hb) as Hb'. pose proof (Permutation_sym Pv) as Pv'. pose proof (Permutation_sym Pf) as Pf'.
  destruct A as [((d & Hd) & N)|(X & K)], A' as [((d' & Hd') & N')|(X' & K')].
  - left. auto.
  - exfalso. apply (X' d). eapply unnoticed_perm; eauto.
  - exfalso. apply (X d'). eapply unnoticed_perm; eauto.
  - destruct (K b Hb Wb) as (P & M & [(E & L)|(E & i & Hi & L)]), (K' b Hb' Wb) as (Q & M' & [(E' & L')|(E' & i' & Hi' & L')]).
    all: pose proof (marginal_unique _ _ _ _ _ _ (marginal_perm h vs vs' fs fs' b P Pv Pf M) M') as U.
    + right. exists P, Q. split; [exact E|]. split; [exact E'|]. destruct M as (M1 & M2 & _), M' as (M1' & M2' & _). split; [congruence|]. split; [congruence|]. rewrite M1, M2. exact U.
    + exfalso. rewrite <- U in L' by auto. specialize (L i' Hi'). change (car RN) with R in *. lra.
    + exfalso. rewrite U in L by auto. specialize (L' i Hi). change (car RN) with R in *. lra.
    + left. auto.
Qed.
End Marginal.
