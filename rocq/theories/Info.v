(** Steps and covariances depend on the measurements through J^T J and J^T r only. *)
From Coq Require Import List Arith ZArith Bool Lia Permutation Reals Lra.
From Verif Require Import Base Sparse Graph SpecGraph SpecOpt ListLemmas GraphLayout Optimizer Real RSum SpecSolver Gram SpecSteps OptSteps SpecBlocks OptOrder OptOrderRun OptPart Change SpecMarginal Marginal MarginalMore SpecInfo.
Import ListNotations.
Local Open Scope nat_scope.
Set Bullet Behavior "Strict Subproofs".

Lemma lsum_plus {A} (l : list A) f g : lsum l (fun a => f a + g a)%R = (lsum l f + lsum l g)%R.
Proof. unfold lsum. induction l; cbn; lra. Qed.
Lemma lsum_lsum {A B} (l : list A) (m : list B) (f : A -> B -> R) : lsum l (fun a => lsum m (f a)) = lsum m (fun b => lsum l (fun a => f a b)).
Proof. induction l as [|a l IH]; cbn; [symmetry; apply lsum_zero; auto|]. fold (lsum l (fun a => lsum m (f a))). rewrite IH. symmetry. exact (lsum_plus m (f a) (fun b => lsum l (fun a => f a b))). Qed.

Section Info.
Context {V : Type} (VC : vclass RN V).
Notation factor := (factor (N:=RN) (V:=V)).

Lemma lsum_free (h : @heap V) vs (g : addr -> nat -> R) : lsum vs (fun b => rsum (width VC h b) (g b)) = lsum (free VC h vs) (fun b => rsum (width VC h b) (g b)).
Proof.
  induction vs as [|a vs IH]; [reflexivity|]. cbn [free filter]. unfold lsum at 1. cbn [fold_right]. fold (lsum vs (fun b => rsum (width VC h b) (g b))). rewrite IH. fold (free VC h vs).
  destruct (nth_error h a) as [v|] eqn:E; [destruct (vconst VC v) eqn:C|]; cbn [negb]; try reflexivity; unfold width at 1; rewrite E, ?C; apply Rplus_0_l.
Qed.
Lemma lsum_free_perm (h : @heap V) vs vs' (g : addr -> nat -> R) : Permutation (free VC h vs) (free VC h vs') -> lsum vs (fun b => rsum (width VC h b) (g b)) = lsum vs' (fun b => rsum (width VC h b) (g b)).
Proof. intros P. rewrite (lsum_free h vs), (lsum_free h vs'). apply lsum_perm. exact P. Qed.
Lemma in_free (h : @heap V) vs vs' a c : Permutation (free VC h vs) (free VC h vs') -> In a vs' -> c < width VC h a -> In a vs.
Proof.
  intros P Ha Hc. assert (X : In a (free VC h vs')).
  { apply filter_In. split; [exact Ha|]. unfold width in Hc. destruct (nth_error h a) as [v|]; [|lia]. destruct (vconst VC v); [lia|reflexivity]. }
  apply (Permutation_in a (Permutation_sym P)) in X. apply filter_In in X. apply X.
Qed.
Lemma normal_info h vs (fs : list factor) d a c :
  lsum fs (fun f => rsum (f_rsize f) (fun i => deriv h f a i c * first_order VC h vs d f i))%R = lsum vs (fun b => rsum (width VC h b) (fun e => information h fs a c b e * d b e))%R.
Proof.
  unfold information, first_order.
  rewrite (lsum_ext vs _ (fun b => lsum fs (fun f => rsum (width VC h b) (fun e => rsum (f_rsize f) (fun i => deriv h f a i c * (deriv h f b i e * d b e))))%R)).
  2: { intros b _. rewrite lsum_rsum. apply rsum_ext. intros e _. rewrite Rmult_comm, <- lsum_scal. apply lsum_ext. intros f _. rewrite <- rsum_scal. apply rsum_ext. intros i _. ring. }
  rewrite lsum_lsum. apply lsum_ext. intros f _.
  rewrite (lsum_ext vs _ (fun b => rsum (f_rsize f) (fun i => rsum (width VC h b) (fun e => deriv h f a i c * (deriv h f b i e * d b e))))%R) by (intros b _; apply rsum_swap).
  rewrite lsum_rsum. apply rsum_ext. intros i _. rewrite <- lsum_scal. apply lsum_ext. intros b _. rewrite <- rsum_scal. reflexivity.
Qed.

Section Same.
Context (h : @heap V) (vs vs' : list addr) (fs fs' : list factor).
Hypothesis HP : Permutation (free VC h vs) (free VC h vs').
Hypothesis HI : same_information VC h vs fs fs'.

Lemma normal_same d a c : In a vs -> c < width VC h a ->
  lsum fs' (fun f => rsum (f_rsize f) (fun i => deriv h f a i c * first_order VC h vs' d f i))%R = lsum fs (fun f => rsum (f_rsize f) (fun i => deriv h f a i c * first_order VC h vs d f i))%R.
Proof.
  intros Ha Hc. rewrite !normal_info. rewrite <- (lsum_free_perm h vs vs' _ HP). apply lsum_ext. intros b Hb. apply rsum_ext. intros e He. rewrite (proj2 (HI a c Ha Hc) b e Hb He). reflexivity.
Qed.
Lemma block_info l d : block_solution VC l h vs fs d -> block_solution VC l h vs' fs' d.
Proof.
  intros B a c Ha Hc. pose proof (in_free _ _ _ _ _ HP Ha Hc) as Ha'. rewrite <- (B a c Ha' Hc). f_equal.
  assert (S : forall vs0 (fs0 : list factor), lsum fs0 (fun f => rsum (f_rsize f) (fun i => deriv h f a i c * (first_order VC h vs0 d f i + resid h f i)))%R = (lsum fs0 (fun f => rsum (f_rsize f) (fun i => deriv h f a i c * first_order VC h vs0 d f i)) + pull h fs0 a c)%R).
  { intros vs0 fs0. unfold pull. rewrite <- lsum_plus. apply lsum_ext. intros f _. rewrite <- rsum_plus. apply rsum_ext. intros i _. ring. }
  rewrite !S, (normal_same d a c Ha' Hc), (proj1 (HI a c Ha' Hc)). reflexivity.
Qed.
Lemma column_info b e d : covariance_column VC h vs fs b e d -> covariance_column VC h vs' fs' b e d.
Proof. intros B a c Ha Hc. pose proof (in_free _ _ _ _ _ HP Ha Hc) as Ha'. rewrite <- (B a c Ha' Hc). apply normal_same; auto. Qed.
Lemma quadratic vs0 (fs0 : list factor) d : lsum fs0 (fun f => rsum (f_rsize f) (fun i => first_order VC h vs0 d f i * first_order VC h vs0 d f i))%R =
  lsum vs0 (fun a => rsum (width VC h a) (fun c => lsum fs0 (fun f => rsum (f_rsize f) (fun i => deriv h f a i c * first_order VC h vs0 d f i)) * d a c))%R.
Proof.
  rewrite (lsum_ext vs0 _ (fun a => lsum fs0 (fun f => rsum (f_rsize f) (fun i => rsum (width VC h a) (fun c => first_order VC h vs0 d f i * (deriv h f a i c * d a c)))))%R).
  2: { intros a _. rewrite (lsum_ext fs0 (fun f => rsum (f_rsize f) _) (fun f => rsum (width VC h a) (fun c => rsum (f_rsize f) (fun i => first_order VC h vs0 d f i * (deriv h f a i c * d a c))))%R) by (intros f _; apply rsum_swap).
       rewrite lsum_rsum. apply rsum_ext. intros c _. rewrite Rmult_comm, <- lsum_scal. apply lsum_ext. intros f _. rewrite <- rsum_scal. apply rsum_ext. intros i _. ring. }
  rewrite lsum_lsum. apply lsum_ext. intros f _. rewrite lsum_rsum. apply rsum_ext. intros i _. unfold first_order at 1. rewrite Rmult_comm, <- lsum_scal. apply lsum_ext. intros a _. rewrite <- rsum_scal. reflexivity.
Qed.
Lemma lsum_nonneg_zero {A} (l : list A) g : (forall a, In a l -> 0 <= g a)%R -> lsum l g = 0%R -> forall a, In a l -> g a = 0%R.
Proof.
  induction l as [|b l IH]; intros N Z a Ha; [destruct Ha|]. unfold lsum in Z. cbn in Z. fold (lsum l g) in Z.
  assert (P : (0 <= lsum l g)%R). { clear -N. induction l as [|a l IH]; [apply Rle_refl|]. unfold lsum. cbn. fold (lsum l g). pose proof (N a ltac:(cbn; auto)). enough (0 <= lsum l g)%R by lra. apply IH. intros x [X|X]; apply N; cbn; auto. }
  pose proof (N b (or_introl eq_refl)). destruct Ha as [<-|Ha]; [lra|]. apply IH; [intros; apply N; right; auto|lra|exact Ha].
Qed.
Lemma unnoticed_info d : unnoticed VC h vs fs d -> unnoticed VC h vs' fs' d.
Proof.
  intros ((a & c & Ha & Hc & Hd) & Z). split.
  { exists a, c. split; [exact (in_free _ _ _ _ _ (Permutation_sym HP) Ha Hc)|]. auto. }
  assert (Q : lsum fs' (fun f => rsum (f_rsize f) (fun i => first_order VC h vs' d f i * first_order VC h vs' d f i))%R = 0%R).
  { rewrite quadratic, <- (lsum_free_perm h vs vs' _ HP). apply lsum_zero. intros b Hb. apply rsum_zero. intros e He. rewrite (normal_same d b e Hb He).
    rewrite lsum_zero; [apply Rmult_0_l|]. intros f Hf. apply rsum_zero. intros i Hi. rewrite (Z f i Hf Hi). apply Rmult_0_r. }
  intros f i Hf Hi. pose proof (lsum_nonneg_zero _ _ (fun f _ => rsum_nonneg _ _ (fun i _ => Rle_0_sqr (first_order VC h vs' d f i))) Q f Hf) as Y.
  pose proof (MarginalMore.rsum_sq_zero _ _ Y i Hi) as W. apply Rmult_integral in W. tauto.
Qed.
End Same.
Lemma information_back h vs vs' (fs fs' : list factor) : Permutation (free VC h vs) (free VC h vs') -> same_information VC h vs fs fs' -> same_information VC h vs' fs' fs.
Proof.
  intros P I a c Ha Hc. pose proof (in_free _ _ _ _ _ P Ha Hc) as Ha'. destruct (I a c Ha' Hc) as (A & B). split; [symmetry; exact A|].
  intros b e Hb He. symmetry. apply B; [exact (in_free _ _ _ _ _ P Hb He)|exact He].
Qed.
Lemma marginal_info h vs vs' (fs fs' : list factor) b P : Permutation (free VC h vs) (free VC h vs') -> same_information VC h vs fs fs' -> marginal VC h vs fs b P -> marginal VC h vs' fs' b P.
Proof.
  intros Pv I (A & B & C). split; [exact A|]. split; [exact B|]. intros e He. destruct (C e He) as ((d & Hd) & K). split; [exists d; eapply column_info; eauto|].
  intros d' Hd'. apply K. eapply column_info; [apply Permutation_sym; exact Pv|eapply information_back; eauto|exact Hd'].
Qed.
Lemma answers_info h vs vs' (fs fs' : list factor) est est' : Permutation (free VC h vs) (free VC h vs') -> same_information VC h vs fs fs' -> answers VC h vs fs est -> answers VC h vs' fs' est' ->
  forall b, In b vs -> 0 < width VC h b -> same_answer (est b) (est' b).
Proof.
  intros Pv I A A' b Hb Wb. pose proof (in_free _ _ _ _ _ (Permutation_sym Pv) Hb Wb) as Hb'. pose proof (Permutation_sym Pv) as Pv'. pose proof (information_back _ _ _ _ _ Pv I) as I'.
  destruct A as [((d & Hd) & N)|(X & K)], A' as [((d' & Hd') & N')|(X' & K')].
  - left. auto.
  - exfalso. apply (X' d). eapply unnoticed_info; eauto.
  - exfalso. apply (X d'). eapply unnoticed_info; eauto.
  - destruct (K b Hb Wb) as (P & M & [(E & L)|(E & i & Hi & L)]), (K' b Hb' Wb) as (Q & M' & [(E' & L')|(E' & i' & Hi' & L')]).
    all: pose proof (marginal_unique _ _ _ _ _ _ _ (marginal_info h vs vs' fs fs' b P Pv I M) M') as U.
    + right. exists P, Q. split; [exact E|]. split; [exact E'|]. destruct M as (M1 & M2 & _), M' as (M1' & M2' & _). split; [congruence|]. split; [congruence|]. rewrite M1, M2. exact U.
    + exfalso. rewrite <- U in L' by auto. specialize (L i' Hi'). change (car RN) with R in *. lra.
    + exfalso. rewrite U in L by auto. specialize (L' i Hi). change (car RN) with R in *. lra.
    + left. auto.
Qed.

(** ** steps *)
Lemma firm_info rate h vs vs' (fs fs' : list factor) h1 h2 : NoDup vs -> Permutation (free VC h vs) (free VC h vs') ->
  (evaluated h fs -> evaluated h fs' -> same_information VC h vs fs fs') -> firm VC rate vs fs h h1 -> firm VC rate vs' fs' h h2 -> h1 = h2.
Proof.
  intros Nd Pv I (s & s1 & r & J & x & r2 & A1 & A2 & A3 & A4 & (A5 & A6 & A7) & _) (t & s2 & r' & J' & x' & r2' & B1 & B2 & B3 & B4 & (B5 & B6 & B7) & _).
  specialize (I (evaluated_at VC _ _ _ _ _ A1 A2) (evaluated_at VC _ _ _ _ _ B1 B2)).
  destruct (jacobian_parts VC _ _ _ _ A2) as (_ & C2 & _).
  destruct (parts_of (width VC h) vs Nd x) as (d & D); [rewrite (proj1 A4); exact C2|].
  apply (proj1 (equations VC 0 h vs fs J r x d A2 A1 D)) in A4. apply (block_info h vs vs' fs fs' Pv I) in A4.
  destruct (parts_to (width VC h) vs' d) as (y & D'). apply (proj2 (equations VC 0 h vs' fs' J' r' y _ B2 B1 D')) in A4.
  rewrite (damped_unique 0 J' r' y x' (Rle_refl 0) B3 A4 B4) in D'.
  pose proof (scaled_parts _ _ _ _ rate D) as P. pose proof (scaled_parts _ _ _ _ rate D') as P'.
  apply heap_eq. intros a. destruct (nth_error h a) as [v|] eqn:Ev.
  - destruct (vconst VC v) eqn:Ec; [rewrite (A7 a v), (B7 a v); auto|].
    assert (F : forall l, In a (free VC h l) <-> In a l) by (intros l; unfold free; rewrite filter_In, Ev, Ec; cbn; tauto).
    assert (G : In a vs <-> In a vs') by (rewrite <- (F vs), <- (F vs'); split; apply Permutation_in; [exact Pv|apply Permutation_sym; exact Pv]).
    destruct (in_dec Nat.eq_dec a vs) as [Ha|Ha].
    + pose proof (proj1 G Ha) as Ha'. apply In_nth_error in Ha. apply In_nth_error in Ha'. destruct Ha as (k & Hk). destruct Ha' as (k' & Hk').
      destruct (A6 k a v Hk Ev Ec) as (v1 & U1 & ->). destruct (B6 k' a v Hk' Ev Ec) as (v2 & U2 & ->).
      assert (W : vsize VC v = width VC h a) by (unfold width; rewrite Ev, Ec; reflexivity).
      rewrite W in U1, U2. unfold col_start in U1, U2.
      pose proof (eq_trans (eq_sym (f_equal (vinc VC v) (parts_slice _ _ _ _ k a P Hk))) U1) as W1.
      pose proof (eq_trans (eq_sym (f_equal (vinc VC v) (parts_slice _ _ _ _ k' a P' Hk'))) U2) as W2. pose proof (eq_trans (eq_sym W1) W2) as W3. injection W3 as ->. reflexivity.
    + rewrite (A7 a v), (B7 a v); auto. left. intros X. apply Ha, G, X.
  - apply nth_error_None in Ev. rewrite (proj2 (nth_error_None h1 a)), (proj2 (nth_error_None h2 a)) by lia. reflexivity.
Qed.
(** a step only increments single variables *)
Lemma pointwise_revalued (h h' : @heap V) : length h' = length h ->
  (forall a v, nth_error h a = Some v -> nth_error h' a = Some v \/ exists d v', vinc VC v d = Ok v' /\ nth_error h' a = Some v') -> revalued VC h h'.
Proof.
  intros L H. assert (X : forall k, k <= length h -> revalued VC h (firstn k h' ++ skipn k h)).
  { induction k; intros Hk; [constructor|]. specialize (IHk ltac:(lia)).
    assert (Q : forall m b, m <= length h -> nth_error (firstn m h' ++ skipn m h) b = if b <? m then nth_error h' b else nth_error h b).
    { intros m b Hm. destruct (Nat.ltb_spec b m).
      - rewrite nth_error_app1 by (rewrite firstn_length; lia). apply nth_error_firstn_lt. exact H0.
      - rewrite nth_error_app2 by (rewrite firstn_length; lia). rewrite firstn_length, Nat.min_l by lia. rewrite nth_error_skipn_plus. f_equal. lia. }
    destruct (nth_error h k) as [v|] eqn:Ev; [|apply nth_error_None in Ev; lia].
    assert (Len : length (firstn (S k) h' ++ skipn (S k) h) = length (firstn k h' ++ skipn k h)) by (rewrite !app_length, !firstn_length, !skipn_length; lia).
    destruct (H k v Ev) as [E|(d & v' & E1 & E2)].
    - replace (firstn (S k) h' ++ skipn (S k) h) with (firstn k h' ++ skipn k h); [exact IHk|]. apply heap_eq. intros b. rewrite !Q by lia.
      destruct (Nat.ltb_spec b k), (Nat.ltb_spec b (S k)); auto; try lia. assert (b = k) as -> by lia. congruence.
    - eapply (rv_moved VC h _ _ k v v' d IHk); [rewrite Q by lia; rewrite Nat.ltb_irrefl; exact Ev|exact E1| |exact Len|].
      + rewrite Q by lia. destruct (Nat.ltb_spec k (S k)); [exact E2|lia].
      + intros b Hb. rewrite !Q by lia. destruct (Nat.ltb_spec b k), (Nat.ltb_spec b (S k)); auto; lia. }
  specialize (X (length h) (le_n _)). rewrite <- L in X at 1. rewrite firstn_all, skipn_all, app_nil_r in X. exact X.
Qed.
Lemma firm_revalued rate vs (fs : list factor) h h' : firm VC rate vs fs h h' -> revalued VC h h'.
Proof.
  intros (s & s1 & r & J & x & r2 & _ & _ & _ & _ & (U1 & U2 & U3) & _). apply pointwise_revalued; [exact U1|]. intros a v Ev.
  destruct (vconst VC v) eqn:Ec; [left; apply (U3 a v Ev); auto|]. destruct (in_dec Nat.eq_dec a vs) as [Ha|Ha]; [|left; apply (U3 a v Ev); auto].
  apply In_nth_error in Ha. destruct Ha as (k & Hk). destruct (U2 k a v Hk Ev Ec) as (v' & X & Y). right. eauto.
Qed.
Lemma moves_revalued rate vs (fs : list factor) k h h' : moves (firm VC rate vs fs) k h h' -> revalued VC h h'.
Proof. induction 1; [constructor|]. eapply revalued_trans; [exact IHmoves|]. eapply firm_revalued; eauto. Qed.
Lemma free_revalued (Hok : vclass_ok VC) h h' vs : revalued VC h h' -> Forall (fun a => a < length h) vs -> free VC h' vs = free VC h vs.
Proof.
  intros R L. unfold free. apply filter_ext_in. intros a Ha. rewrite Forall_forall in L. specialize (L a Ha). destruct (nth_error h a) as [v|] eqn:Ev; [|apply nth_error_None in Ev; lia].
  destruct (revalued_hpres VC Hok h h' R a v Ev) as (v' & -> & S). destruct S as (_ & _ & S). rewrite (S eq_refl). reflexivity.
Qed.
Lemma moves_info (Hok : vclass_ok VC) rate vs vs' (fs fs' : list factor) h0 k : NoDup vs -> Forall (fun a => a < length h0) vs -> Forall (fun a => a < length h0) vs' -> Permutation (free VC h0 vs) (free VC h0 vs') ->
  (forall h, revalued VC h0 h -> evaluated h fs -> evaluated h fs' -> same_information VC h vs fs fs') ->
  forall h1 h2, moves (firm VC rate vs fs) k h0 h1 -> moves (firm VC rate vs' fs') k h0 h2 -> h1 = h2.
Proof.
  intros Nd L L' P I. induction k; intros h1 h2 M M'; inversion M; inversion M'; subst; [reflexivity|].
  match goal with A : moves _ k h0 ?a, B : moves _ k h0 ?b |- _ => pose proof (IHk _ _ A B) as X; pose proof (moves_revalued _ _ _ _ _ _ A) as Rv end. subst.
  eapply firm_info; [exact Nd| |apply I; exact Rv|eassumption|eassumption]. rewrite !(free_revalued Hok h0 _ _ Rv) by assumption. exact P.
Qed.
End Info.
