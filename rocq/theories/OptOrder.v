(** The order in which variables and factors were added does not matter for Gauss-Newton in exact arithmetic. *)
From Coq Require Import List Arith ZArith QArith Bool Lia Permutation Reals Lra.
From Verif Require Import Base Sparse Graph SpecGraph SpecOpt ListLemmas GraphLayout GraphFin GraphBasic GraphVec GraphDense GraphSparse Optimizer OptLemmas OptWork OptLM OptRun OptMore Real RSum SpecSolver Gram Pivots OptCov OptExact OptLinear SpecSteps OptSteps OptVerdict SpecBlocks.
Import ListNotations.
Local Open Scope nat_scope.

Lemma nth_firstn_lt {A} (x : list A) d : forall n c, c < n -> nth c (firstn n x) d = nth c x d.
Proof. induction x as [|y x IH]; intros [|n] [|c] H; try lia; cbn; auto. apply IH. lia. Qed.
Lemma nth_skipn' {A} (x : list A) d : forall n c, nth c (skipn n x) d = nth (n + c) x d.
Proof. induction x as [|y x IH]; intros [|n] [|c]; cbn; auto. all: rewrite IH; f_equal; lia. Qed.

(** ** sums over lists *)
Lemma lsum_ext {A} (l : list A) f g : (forall a, In a l -> f a = g a) -> lsum l f = lsum l g.
Proof. induction l as [|a l IH]; intros H; [reflexivity|]. cbn. rewrite (H a) by (left; auto). f_equal. apply IH. intros; apply H; right; auto. Qed.
Lemma lsum_perm {A} (l l' : list A) f : Permutation l l' -> lsum l f = lsum l' f.
Proof. induction 1; unfold lsum in *; cbn; lra. Qed.
(** a sum over all indices, part by part *)
Lemma parts_sum {A} (w : A -> nat) (l : list A) (F : A -> nat -> R) : forall f,
  (forall k a c, nth_error l k = Some a -> c < w a -> f (list_sum (firstn k (map w l)) + c) = F a c) ->
  rsum (list_sum (map w l)) f = lsum l (fun a => rsum (w a) (F a)).
Proof.
  induction l as [|a l IH]; intros f H; [reflexivity|]. cbn. rewrite rsum_app. f_equal.
  - apply rsum_ext. intros c Hc. exact (H 0 a c eq_refl Hc).
  - apply IH. intros k b c Hk Hc. rewrite <- (H (S k) b c Hk Hc). f_equal.
    change (list_sum (firstn (S k) (map w (a :: l)))) with (w a + list_sum (firstn k (map w l))). lia.
Qed.
Lemma part_below {A} (w : A -> nat) (l : list A) k a : nth_error l k = Some a -> list_sum (firstn k (map w l)) + w a <= list_sum (map w l).
Proof. intros H. apply (psum_le_total (map w l) k (w a)). rewrite nth_error_map, H. reflexivity. Qed.
Lemma part_of {A} (w : A -> nat) (l : list A) i : i < list_sum (map w l) ->
  exists k a c, nth_error l k = Some a /\ c < w a /\ i = list_sum (firstn k (map w l)) + c.
Proof.
  intros H. apply psum_cover in H. destruct H as (k & d & A1 & A2). rewrite nth_error_map in A1. destruct (nth_error l k) as [a|] eqn:E; [|discriminate].
  injection A1 as <-. exists k, a, (i - psum (map w l) k). unfold psum in *. split; auto. split; lia.
Qed.

(** the entries of [x] by variable *)
Definition parts {A} (w : A -> nat) (l : list A) (x : list R) (d : A -> nat -> R) : Prop :=
  length x = list_sum (map w l) /\ forall k a c, nth_error l k = Some a -> c < w a -> nth (list_sum (firstn k (map w l)) + c) x 0%R = d a c.
Lemma parts_of (w : nat -> nat) (l : list nat) : NoDup l -> forall x, length x = list_sum (map w l) -> exists d, parts w l x d.
Proof.
  induction 1 as [|a l Hn Hd IH]; intros x L.
  - exists (fun _ _ => 0%R). split; auto. intros [|k] a c H; discriminate.
  - change (list_sum (map w (a :: l))) with (w a + list_sum (map w l)) in L. destruct (IH (skipn (w a) x)) as (d & L' & D); [rewrite skipn_length; lia|].
    exists (fun b c => if b =? a then nth c x 0%R else d b c). split; [exact L|]. intros [|k] b c Hk Hc; cbn in Hk.
    + injection Hk as <-. cbn. rewrite Nat.eqb_refl. reflexivity.
    + destruct (Nat.eqb_spec b a) as [->|Hne]; [exfalso; apply Hn; eapply nth_error_In; eauto|].
      rewrite <- (D k b c Hk Hc). change (list_sum (firstn (S k) (map w (a :: l)))) with (w a + list_sum (firstn k (map w l))). rewrite <- Nat.add_assoc.
      rewrite <- (firstn_skipn (w a) x) at 1. rewrite app_nth2; rewrite firstn_length_le by lia; [f_equal; lia|lia].
Qed.
Lemma parts_to {A} (w : A -> nat) (l : list A) (d : A -> nat -> R) : exists x, parts w l x d.
Proof.
  induction l as [|a l (x & L & D)]; [exists []; split; auto; intros [|k] a c H; discriminate|].
  exists (map (d a) (seq 0 (w a)) ++ x). split; [rewrite app_length, map_length, seq_length, L; reflexivity|].
  intros [|k] b c Hk Hc; cbn in Hk.
  - injection Hk as <-. cbn. rewrite app_nth1 by (rewrite map_length, seq_length; auto).
    rewrite (nth_indep _ 0%R (d a 0)) by (rewrite map_length, seq_length; auto). rewrite map_nth, seq_nth by auto. reflexivity.
  - rewrite <- (D k b c Hk Hc). change (list_sum (firstn (S k) (map w (a :: l)))) with (w a + list_sum (firstn k (map w l))). rewrite app_nth2; rewrite map_length, seq_length; [f_equal; lia|lia].
Qed.
Lemma parts_eq {A} (w : A -> nat) (l : list A) x y d : parts w l x d -> parts w l y d -> x = y.
Proof.
  intros (L1 & D1) (L2 & D2). apply (nth_ext _ _ 0%R 0%R); [congruence|]. intros i Hi. rewrite L1 in Hi.
  destruct (part_of w l i Hi) as (k & a & c & Hk & Hc & ->). rewrite (D1 k a c), (D2 k a c); auto.
Qed.
Lemma parts_sq {A} (w : A -> nat) (l : list A) x d : parts w l x d -> sqnorm (N:=RN) x = lsum l (fun a => rsum (w a) (fun c => d a c * d a c)%R).
Proof.
  intros (L & D). rewrite sqnorm_rsum, L. apply (parts_sum w l (fun a c => d a c * d a c)%R). intros k a c Hk Hc. rewrite (D k a c Hk Hc). reflexivity.
Qed.

(** ** solutions are unique *)
Lemma damped_unique l (J : mat RN) r x y : (0 <= l)%R -> (forall z, ~ unobservable J z) -> damped_solution l J r x -> damped_solution l J r y -> x = y.
Proof.
  intros Hl Hu (Lx & X) (Ly & Y). set (n := mcols J) in *. set (m := mrows J) in *.
  set (z := map (fun i => nth i x 0 - nth i y 0)%R (seq 0 n)).
  assert (Nz : forall i, i < n -> nth i z 0%R = (nth i x 0 - nth i y 0)%R).
  { intros i Hi. unfold z. rewrite (nth_indep _ 0%R ((fun i => nth i x 0 - nth i y 0)%R 0)) by (rewrite map_length, seq_length; auto).
    rewrite (map_nth (fun i => nth i x 0 - nth i y 0)%R), seq_nth by auto. reflexivity. }
  assert (Z : forall i, i < n -> (rsum n (fun j => rsum m (fun k => mat_at J k i * mat_at J k j) * nth j z 0) + l * nth i z 0 = 0)%R).
  { intros i Hi. specialize (X i Hi). specialize (Y i Hi).
    rewrite (rsum_ext n (fun j => rsum m (fun k => mat_at J k i * mat_at J k j) * nth j z 0)%R
      (fun j => rsum m (fun k => mat_at J k i * mat_at J k j) * nth j x 0 - rsum m (fun k => mat_at J k i * mat_at J k j) * nth j y 0)%R)
      by (intros j Hj; rewrite (Nz j Hj); lra).
    rewrite rsum_minus, (Nz i Hi). lra. }
  assert (Q : (image_sq J z + l * rsum n (fun i => nth i z 0 * nth i z 0) = 0)%R).
  { transitivity (rsum n (fun i => nth i z 0 * (rsum n (fun j => rsum m (fun k => mat_at J k i * mat_at J k j) * nth j z 0) + l * nth i z 0))%R);
      [|apply rsum_zero; intros i Hi; rewrite (Z i Hi); lra].
    rewrite <- rsum_scal. unfold image_sq. fold n m.
    rewrite (rsum_ext n (fun i => nth i z 0 * (rsum n (fun j => rsum m (fun k => mat_at J k i * mat_at J k j) * nth j z 0) + l * nth i z 0))%R
      (fun i => rsum m (fun k => mat_at J k i * nth i z 0 * rsum n (fun j => mat_at J k j * nth j z 0)) + l * (nth i z 0 * nth i z 0))%R).
    - rewrite rsum_plus. f_equal. rewrite rsum_swap. apply rsum_ext. intros k Hk. rewrite <- rsum_scal_r. reflexivity.
    - intros i Hi. match goal with |- (?a * (?b + ?c) = ?d + ?e)%R => cut (a * b = d)%R; [intros K; rewrite <- K; lra|] end.
      rewrite (rsum_ext n _ (fun j => rsum m (fun k => mat_at J k i * (mat_at J k j * nth j z 0))%R)) by (intros j Hj; rewrite <- rsum_scal_r; apply rsum_ext; intros; lra).
      rewrite rsum_swap, <- rsum_scal. apply rsum_ext. intros k Hk. rewrite rsum_scal. lra. }
  assert (P1 : (0 <= image_sq J z)%R) by (apply rsum_nonneg; intros k Hk; apply Rle_0_sqr).
  assert (P2 : (0 <= l * rsum n (fun i => nth i z 0 * nth i z 0))%R) by (apply Rmult_le_pos; auto; apply rsum_nonneg; intros k Hk; apply Rle_0_sqr).
  assert (K : image_sq J z = 0%R) by lra.
  apply (nth_ext _ _ 0%R 0%R); [exact (eq_trans Lx (eq_sym Ly))|]. intros i Hi. assert (Hi' : i < n) by exact (eq_ind _ (fun t => i < t) Hi _ Lx).
  destruct (Req_dec (nth i x 0%R) (nth i y 0%R)) as [E|E]; auto. exfalso. apply (Hu z). split; [unfold z; rewrite map_length, seq_length; auto|].
  split; [exists i; split; auto; rewrite (Nz i Hi'); lra|]. apply image_zero. exact K.
Qed.

Section Order.
Context {V : Type} (VC : vclass RN V).
Notation factor := (factor (N:=RN) (V:=V)).

(** ** vectors by factor and variable *)
Lemma stacked_parts h (fs : list factor) r : stacked h fs r -> parts f_rsize fs r (resid h).
Proof.
  intros (rs & F & ->). induction F as [|f x fs rs (E & L) F (L' & D)]; [split; auto; intros [|k] a c H; discriminate|].
  split; [cbn [concat]; etransitivity; [apply app_length|]; exact (f_equal2 Nat.add L L')|]. intros [|k] g c Hk Hc; cbn in Hk.
  - injection Hk as <-. cbn. unfold resid. rewrite E. change (car RN) with R in *. rewrite app_nth1 by lia. reflexivity.
  - rewrite <- (D k g c Hk Hc). change (list_sum (firstn (S k) (map f_rsize (f :: fs)))) with (f_rsize f + list_sum (firstn k (map f_rsize fs))).
    cbn [concat]. change (car RN) with R in *. rewrite app_nth2 by lia. f_equal. lia.
Qed.
Lemma jacobian_parts h vs (fs : list factor) J : jacobian_at VC h vs fs J -> mrows J = list_sum (map f_rsize fs) /\ mcols J = list_sum (map (width VC h) vs) /\
  forall k f m a i c, nth_error fs k = Some f -> nth_error vs m = Some a -> i < f_rsize f -> c < width VC h a ->
    mat_at J (list_sum (firstn k (map f_rsize fs)) + i) (list_sum (firstn m (map (width VC h) vs)) + c) = deriv h f a i c.
Proof.
  intros (jss & F & R1 & R2 & R3). split; [exact R1|]. split; [exact R2|]. intros k f m a i c Hk Hm Hi Hc.
  apply Forall2_nth in F. destruct F as (L & F). destruct (nth_error jss k) as [js|] eqn:Ej; [|exfalso; apply nth_error_None in Ej; assert (k < length fs) by (apply nth_error_Some; congruence); lia].
  specialize (R3 k f js m a i c Hk Ej Hm Hi Hc). unfold row_start, col_start in R3. etransitivity; [exact R3|].
  unfold deriv. rewrite (F k f js Hk Ej). cbn [fst]. destruct (listed_at a (f_vars f)) as [q|]; [|exact lit_zero]. destruct (nth_error js q); [reflexivity|exact lit_zero].
Qed.

Lemma equations l h vs (fs : list factor) J r x d : jacobian_at VC h vs fs J -> stacked h fs r -> parts (width VC h) vs x d ->
  damped_solution l J r x <-> block_solution VC l h vs fs d.
Proof.
  intros HJ Hr Hx. destruct (jacobian_parts _ _ _ _ HJ) as (R1 & R2 & R3). destruct (stacked_parts _ _ _ Hr) as (Lr & Dr). destruct Hx as (Lx & Dx).
  assert (Key : forall m a c, nth_error vs m = Some a -> c < width VC h a -> forall i, i = list_sum (firstn m (map (width VC h) vs)) + c ->
    (rsum (mcols J) (fun j => rsum (mrows J) (fun k => mat_at J k i * mat_at J k j) * nth j x 0) + l * nth i x 0 +
       rsum (mrows J) (fun k => mat_at J k i * nth k r 0))%R =
    (lsum fs (fun f => rsum (f_rsize f) (fun i => deriv h f a i c * (first_order VC h vs d f i + resid h f i))) + l * d a c)%R).
  { intros m a c Hm Hc i ->. set (i := list_sum (firstn m (map (width VC h) vs)) + c) in *.
    rewrite (Dx m a c Hm Hc : nth i x 0%R = d a c).
    transitivity (rsum (mrows J) (fun k => mat_at J k i * (rsum (mcols J) (fun j => mat_at J k j * nth j x 0) + nth k r 0)) + l * d a c)%R.
    - rewrite (rsum_ext (mcols J) _ (fun j => rsum (mrows J) (fun k => mat_at J k i * (mat_at J k j * nth j x 0))%R))
        by (intros j Hj; rewrite <- rsum_scal_r; apply rsum_ext; intros k Hk; match goal with |- ?a = ?b => change (@eq R a b) end; ring).
      rewrite rsum_swap. rewrite (rsum_ext (mrows J) (fun k => mat_at J k i * (rsum (mcols J) (fun j => mat_at J k j * nth j x 0) + nth k r 0))%R
        (fun k => rsum (mcols J) (fun j => mat_at J k i * (mat_at J k j * nth j x 0)) + mat_at J k i * nth k r 0)%R)
        by (intros k Hk; rewrite rsum_scal; match goal with |- ?a = ?b => change (@eq R a b) end; ring).
      rewrite rsum_plus. match goal with |- ?a = ?b => change (@eq R a b) end. ring.
    - f_equal. rewrite R1. apply (parts_sum f_rsize fs (fun f i => deriv h f a i c * (first_order VC h vs d f i + resid h f i))%R).
      intros k f q Hk Hq. pose proof (R3 k f m a q c Hk Hm Hq Hc) as Ea. pose proof (Dr k f q Hk Hq) as Er.
      apply f_equal2; [exact Ea|]. apply f_equal2; [|exact Er]. rewrite R2. unfold first_order.
      apply (parts_sum (width VC h) vs (fun b c => deriv h f b q c * d b c)%R). intros m' b c' Hm' Hc'. apply f_equal2; [exact (R3 k f m' b q c' Hk Hm' Hq Hc')|exact (Dx m' b c' Hm' Hc')]. }
  split.
  - intros (_ & X) a c Ha Hc. apply In_nth_error in Ha. destruct Ha as (m & Hm). rewrite <- (Key m a c Hm Hc _ eq_refl).
    assert (Hi : list_sum (firstn m (map (width VC h) vs)) + c < mcols J) by (rewrite R2; pose proof (part_below (width VC h) vs m a Hm); lia).
    etransitivity; [exact (f_equal (fun t : R => (t + _)%R) (X _ Hi))|]. apply Rplus_opp_l.
  - intros B. split; [congruence|]. intros i Hi. rewrite R2 in Hi. destruct (part_of _ _ _ Hi) as (m & a & c & Hm & Hc & Ei).
    pose proof (Key m a c Hm Hc i Ei) as K. rewrite (B a c (nth_error_In _ _ Hm) Hc) in K.
    apply Rplus_opp_r_uniq. rewrite Rplus_comm. exact K.
Qed.

Lemma first_order_perm h vs vs' d (f : factor) i : Permutation vs vs' -> first_order VC h vs d f i = first_order VC h vs' d f i.
Proof. apply lsum_perm. Qed.
Lemma block_perm l h vs vs' (fs fs' : list factor) d : Permutation vs vs' -> Permutation fs fs' -> block_solution VC l h vs fs d -> block_solution VC l h vs' fs' d.
Proof.
  intros Pv Pf B a c Ha Hc. rewrite <- (B a c (Permutation_in a (Permutation_sym Pv) Ha) Hc). f_equal. rewrite (lsum_perm _ _ _ Pf).
  apply lsum_ext. intros f Hf. apply rsum_ext. intros i Hi. rewrite (first_order_perm _ _ _ _ _ _ Pv). reflexivity.
Qed.

(** the solutions in the two orders have the same parts *)
Lemma same_solution l h vs vs' (fs fs' : list factor) J J' r r' x x' : Permutation vs vs' -> Permutation fs fs' -> NoDup vs ->
  jacobian_at VC h vs fs J -> jacobian_at VC h vs' fs' J' -> stacked h fs r -> stacked h fs' r' -> (0 <= l)%R -> (forall z, ~ unobservable J z) ->
  damped_solution l J r x -> damped_solution l J' r' x' -> exists d, parts (width VC h) vs x d /\ parts (width VC h) vs' x' d.
Proof.
  intros Pv Pf Nd HJ HJ' Hr Hr' Hl Hu Hx Hx'. assert (Nd' : NoDup vs') by (eapply Permutation_NoDup; eauto).
  destruct (jacobian_parts _ _ _ _ HJ') as (_ & R2' & _).
  destruct (parts_of (width VC h) vs' Nd' x') as (d & D'); [rewrite (proj1 Hx'); exact R2'|]. exists d. split; auto.
  apply (proj1 (equations l h vs' fs' J' r' x' d HJ' Hr' D')) in Hx'. apply (block_perm _ _ _ _ _ _ _ (Permutation_sym Pv) (Permutation_sym Pf)) in Hx'.
  destruct (parts_to (width VC h) vs d) as (y & Dy). apply (proj2 (equations l h vs fs J r y d HJ Hr Dy)) in Hx'.
  rewrite (damped_unique l J r x y Hl Hu Hx Hx'). exact Dy.
Qed.
Lemma scaled_parts {A} (w : A -> nat) (l : list A) x d (t : R) : parts w l x d -> parts w l (map (fun y => y * t)%R x) (fun a c => d a c * t)%R.
Proof.
  intros (L & D). split; [rewrite map_length; exact L|]. intros k a c Hk Hc. rewrite <- (D k a c Hk Hc). 
  rewrite (nth_indep _ 0%R ((fun y => y * t)%R 0%R)) by (rewrite map_length, L; pose proof (part_below w l k a Hk); lia). apply (map_nth (fun y => y * t)%R).
Qed.
Lemma parts_slice {A} (w : A -> nat) (l : list A) x d k a : parts w l x d -> nth_error l k = Some a ->
  slice (N:=RN) (list_sum (firstn k (map w l))) (w a) x = map (d a) (seq 0 (w a)).
Proof.
  intros (L & D) Hk. pose proof (part_below w l k a Hk) as B. unfold slice. apply (nth_ext _ _ 0%R 0%R).
  - rewrite firstn_length, skipn_length, map_length, seq_length. cbn in *. lia.
  - intros c Hc. rewrite firstn_length, skipn_length in Hc. assert (Hc' : c < w a) by (cbn in *; lia).
    rewrite (nth_indep (map (d a) (seq 0 (w a))) 0%R (d a 0)) by (rewrite map_length, seq_length; auto). rewrite map_nth, seq_nth by auto.
    cbn [Nat.add]. rewrite <- (D k a c Hk Hc'). 
    rewrite nth_firstn_lt by exact Hc'. rewrite nth_skipn'. reflexivity.
Qed.
End Order.
