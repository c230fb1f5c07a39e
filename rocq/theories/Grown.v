(** Further measurements and variables do not enlarge covariances. *)
From Coq Require Import List Arith ZArith Bool Lia Permutation Reals Lra.
From Verif Require Import Base Sparse Graph SpecGraph SpecOpt ListLemmas Real RSum SpecSolver SpecBlocks OptOrder OptPart Change SpecMarginal Marginal MarginalMore SpecInfo Info SpecGrown.
From Verif Require GaugeSum.
Import ListNotations.
Local Open Scope nat_scope.
Set Bullet Behavior "Strict Subproofs".

Section Sums.
Context {V : Type} (VC : vclass RN V).
Notation factor := (factor (N:=RN) (V:=V)).
Definition normal (h : @heap V) vs (fs : list factor) (d : addr -> nat -> R) a c : R := lsum fs (fun f => rsum (f_rsize f) (fun i => deriv h f a i c * first_order VC h vs d f i))%R.
Definition joint (h : @heap V) vs (fs : list factor) (x w : addr -> nat -> R) : R := lsum fs (fun f => rsum (f_rsize f) (fun i => first_order VC h vs x f i * first_order VC h vs w f i))%R.

Lemma first_order_line (h : @heap V) vs x k d (f : factor) i : first_order VC h vs (fun a c => x a c + k * d a c)%R f i = (first_order VC h vs x f i + k * first_order VC h vs d f i)%R.
Proof.
  unfold first_order. rewrite <- lsum_scal, <- lsum_plus. apply lsum_ext. intros b _. rewrite <- rsum_scal, <- rsum_plus. apply rsum_ext. intros c _. ring.
Qed.
Lemma normal_line (h : @heap V) vs (fs : list factor) x k d a c : normal h vs fs (fun a c => x a c + k * d a c)%R a c = (normal h vs fs x a c + k * normal h vs fs d a c)%R.
Proof.
  unfold normal. rewrite <- lsum_scal, <- lsum_plus. apply lsum_ext. intros f _. rewrite <- rsum_scal, <- rsum_plus. apply rsum_ext. intros i _. rewrite first_order_line. ring.
Qed.
Lemma joint_normal (h : @heap V) vs (fs : list factor) x w : joint h vs fs x w = lsum vs (fun a => rsum (width VC h a) (fun c => normal h vs fs x a c * w a c))%R.
Proof.
  unfold normal, joint.
  rewrite (lsum_ext vs _ (fun a => lsum fs (fun f => rsum (f_rsize f) (fun i => rsum (width VC h a) (fun c => first_order VC h vs x f i * (deriv h f a i c * w a c)))))%R).
  2: { intros a _. rewrite (lsum_ext fs (fun f => rsum (f_rsize f) _) (fun f => rsum (width VC h a) (fun c => rsum (f_rsize f) (fun i => first_order VC h vs x f i * (deriv h f a i c * w a c))))%R) by (intros f _; apply rsum_swap).
       rewrite lsum_rsum. apply rsum_ext. intros c _. rewrite Rmult_comm, <- lsum_scal. apply lsum_ext. intros f _. rewrite <- rsum_scal. apply rsum_ext. intros i _. ring. }
  rewrite lsum_lsum. apply lsum_ext. intros f _. rewrite lsum_rsum. apply rsum_ext. intros i _. unfold first_order at 2. rewrite <- lsum_scal. apply lsum_ext. intros a _. rewrite <- rsum_scal. reflexivity.
Qed.
Lemma lsum_nonneg {A} (l : list A) g : (forall a, In a l -> 0 <= g a)%R -> (0 <= lsum l g)%R.
Proof. induction l as [|a l IH]; intros N; [apply Rle_refl|]. unfold lsum. cbn. fold (lsum l g). pose proof (N a ltac:(cbn; auto)). enough (0 <= lsum l g)%R by lra. apply IH. intros x X. apply N. cbn. auto. Qed.
Lemma joint_square (h : @heap V) vs (fs : list factor) x w : (0 <= joint h vs fs x x - 2 * joint h vs fs x w + joint h vs fs w w)%R.
Proof.
  replace (joint h vs fs x x - 2 * joint h vs fs x w + joint h vs fs w w)%R with (lsum fs (fun f => rsum (f_rsize f) (fun i => (first_order VC h vs x f i - first_order VC h vs w f i) * (first_order VC h vs x f i - first_order VC h vs w f i))))%R.
  - apply lsum_nonneg. intros f _. apply rsum_nonneg. intros i _. apply Rle_0_sqr.
  - unfold joint. replace (lsum fs (fun f => rsum (f_rsize f) (fun i => first_order VC h vs x f i * first_order VC h vs x f i)) - 2 * lsum fs (fun f => rsum (f_rsize f) (fun i => first_order VC h vs x f i * first_order VC h vs w f i)) +
      lsum fs (fun f => rsum (f_rsize f) (fun i => first_order VC h vs w f i * first_order VC h vs w f i)))%R with
      (lsum fs (fun f => rsum (f_rsize f) (fun i => first_order VC h vs x f i * first_order VC h vs x f i)) + (-2) * lsum fs (fun f => rsum (f_rsize f) (fun i => first_order VC h vs x f i * first_order VC h vs w f i)) +
      lsum fs (fun f => rsum (f_rsize f) (fun i => first_order VC h vs w f i * first_order VC h vs w f i)))%R by ring.
    rewrite <- lsum_scal, <- !lsum_plus. apply lsum_ext. intros f _. rewrite <- rsum_scal, <- !rsum_plus. apply rsum_ext. intros i _. ring.
Qed.
(** a combination of the columns of the covariance matrix that belong to [b] *)
Lemma combination (h : @heap V) vs (fs : list factor) b P (z : nat -> R) : marginal VC h vs fs b P -> forall m, m <= width VC h b ->
  exists x, (forall a c, In a vs -> c < width VC h a -> normal h vs fs x a c = if (a =? b) && (c <? m) then z c else 0%R) /\
    forall i, i < width VC h b -> x b i = rsum m (fun e => mat_at P i e * z e)%R.
Proof.
  intros (_ & _ & C). induction m as [|m IH]; intros Hm.
  - exists (fun _ _ => 0%R). split; [|reflexivity]. intros a c _ _. rewrite andb_false_r. apply lsum_zero. intros f _. apply rsum_zero. intros i _. unfold first_order. rewrite lsum_zero; [ring|]. intros. apply rsum_zero. intros. ring.
  - destruct (IH ltac:(lia)) as (x & X1 & X2). destruct (C m ltac:(lia)) as ((d & Hd) & K). exists (fun a c => x a c + z m * d a c)%R. split.
    + intros a c Ha Hc. rewrite normal_line, (X1 a c Ha Hc). specialize (Hd a c Ha Hc). unfold normal. rewrite Hd. destruct (a =? b); cbn [andb]; [|ring].
      destruct (Nat.eqb_spec c m) as [Ec|n]; [rewrite Ec, Nat.ltb_irrefl, (proj2 (Nat.ltb_lt m (S m)) (Nat.lt_succ_diag_r m)); ring|].
      destruct (Nat.ltb_spec c m), (Nat.ltb_spec c (S m)); try lia; ring.
    + intros i Hi. cbn [rsum]. rewrite (X2 i Hi), <- (K d Hd i Hi). ring.
Qed.
Lemma block_sum (h : @heap V) vs b (z : nat -> R) (w : addr -> nat -> R) : NoDup vs -> In b vs ->
  lsum vs (fun a => rsum (width VC h a) (fun c => (if (a =? b) && (c <? width VC h b) then z c else 0) * w a c))%R = rsum (width VC h b) (fun c => z c * w b c)%R.
Proof.
  intros Nd Hb. rewrite <- (GaugeSum.lsum_one vs b (rsum (width VC h b) (fun c => z c * w b c)%R) Nd Hb). apply lsum_ext. intros a _. destruct (Nat.eqb_spec a b) as [->|n]; cbn [andb].
  - apply rsum_ext. intros c Hc. rewrite (proj2 (Nat.ltb_lt _ _) Hc). reflexivity.
  - apply rsum_zero. intros. ring.
Qed.
End Sums.

Section Grown.
Context {V : Type} (VC : vclass RN V).
Notation factor := (factor (N:=RN) (V:=V)).
Context (h h' : @heap V) (vs vs' : list addr) (fs fs' : list factor).
Hypothesis Nd : NoDup vs.
Hypothesis Nd' : NoDup vs'.
Hypothesis Hg : grown vs vs' fs fs'.
Hypothesis Wd : forall a, In a vs -> width VC h' a = width VC h a.
Hypothesis Dv : forall f a i c, In f fs -> deriv h' f a i c = deriv h f a i c.
Hypothesis Out : forall f a i c, In f fs -> ~ In a vs -> c < width VC h' a -> deriv h f a i c = 0%R.

Lemma first_order_grown d f i : In f fs -> first_order VC h' vs' d f i = first_order VC h vs d f i.
Proof.
  intros Hf. destruct Hg as (Hi & _). destruct (incl_perm vs vs' Nd Hi) as (t & Pv). unfold first_order. rewrite (lsum_perm _ _ _ Pv), lsum_app. rewrite (lsum_zero t).
  - rewrite Rplus_0_r. apply lsum_ext. intros b Hb. rewrite (Wd b Hb). apply rsum_ext. intros c _. rewrite (Dv f b i c Hf). reflexivity.
  - intros b Hb. apply rsum_zero. intros c Hc. rewrite (Dv f b i c Hf), (Out f b i c Hf); [ring| |exact Hc]. intros Hb'. pose proof (Permutation_NoDup Pv Nd') as N.
    clear - N Hb Hb'. induction vs as [|x l IH]; [destruct Hb'|]. cbn in N. inversion N; subst. destruct Hb' as [->|W2]; [apply H1; apply in_app_iff; auto|auto].
Qed.
Lemma energy_grown d : (joint VC h vs fs d d <= joint VC h' vs' fs' d d)%R.
Proof.
  pose proof Hg as (_ & more & Pf). unfold joint. rewrite (lsum_perm _ _ _ Pf), lsum_app.
  rewrite (lsum_ext fs (fun f => rsum (f_rsize f) (fun i => first_order VC h' vs' d f i * first_order VC h' vs' d f i))%R (fun f => rsum (f_rsize f) (fun i => first_order VC h vs d f i * first_order VC h vs d f i))%R)
    by (intros f Hf; apply rsum_ext; intros i _; rewrite (first_order_grown d f i Hf); reflexivity).
  enough (0 <= lsum more (fun f => rsum (f_rsize f) (fun i => first_order VC h' vs' d f i * first_order VC h' vs' d f i)))%R by lra.
  apply lsum_nonneg. intros f _. apply rsum_nonneg. intros i _. apply Rle_0_sqr.
Qed.
Lemma marginal_smaller b P Q (z : nat -> R) : In b vs -> marginal VC h vs fs b P -> marginal VC h' vs' fs' b Q ->
  (rsum (width VC h b) (fun i => z i * rsum (width VC h b) (fun e => mat_at Q i e * z e)) <= rsum (width VC h b) (fun i => z i * rsum (width VC h b) (fun e => mat_at P i e * z e)))%R.
Proof.
  intros Hb MP MQ. destruct (combination VC h vs fs b P z MP _ (le_n _)) as (x & X1 & X2). destruct (combination VC h' vs' fs' b Q z MQ _ (le_n _)) as (w & W1 & W2).
  pose proof (proj1 Hg b Hb) as Hb'.
  assert (A : forall y, joint VC h vs fs x y = rsum (width VC h b) (fun c => z c * y b c)%R).
  { intros y. rewrite joint_normal, <- (block_sum VC h vs b z y Nd Hb). apply lsum_ext. intros a Ha. apply rsum_ext. intros c Hc. rewrite (X1 a c Ha Hc). reflexivity. }
  assert (B : joint VC h' vs' fs' w w = rsum (width VC h b) (fun c => z c * w b c)%R).
  { rewrite joint_normal. rewrite <- (Wd b Hb), <- (block_sum VC h' vs' b z w Nd' Hb'). apply lsum_ext. intros a Ha. apply rsum_ext. intros c Hc. rewrite (W1 a c Ha Hc). reflexivity. }
  pose proof (joint_square VC h vs fs x w) as S. pose proof (energy_grown w) as E. rewrite !A in S. rewrite B in E.
  rewrite (Wd b Hb) in W2. rewrite <- (rsum_ext _ (fun c => z c * w b c)%R _ (fun c Hc => f_equal (Rmult (z c)) (W2 c Hc))). rewrite <- (rsum_ext _ (fun c => z c * x b c)%R _ (fun c Hc => f_equal (Rmult (z c)) (X2 c Hc))). lra.
Qed.
Lemma quad_rows (P : mat RN) n (z : list R) : mrows P = n -> quad_form P z = rsum n (fun i => nth i z 0 * rsum n (fun e => mat_at P i e * nth e z 0))%R.
Proof. intros <-. unfold quad_form. apply rsum_ext. intros i _. rewrite <- rsum_scal. apply rsum_ext. intros j _. apply Rmult_assoc. Qed.
Lemma answers_grown est est' : answers VC h vs fs est -> answers VC h' vs' fs' est' ->
  newcomer_adrift VC h' vs vs' fs' /\ (forall a, In a vs' -> est' a = Ok None) \/ forall b, In b vs -> 0 < width VC h b -> no_larger (est b) (est' b).
Proof.
  intros A A'. destruct A as [((d & Hd) & N)|(X & K)]; [right; intros b Hb _ P E; rewrite (N b Hb) in E; discriminate|].
  destruct A' as [((d' & Hd') & N')|(X' & K')].
  - left. split; [|exact N']. pose proof Hd' as ((a & c & Ha & Hc & Hx) & Z). destruct (in_dec Nat.eq_dec a vs) as [I|I]; [|exists d', a, c; auto]. exfalso.
    apply (X d'). split; [exists a, c; rewrite <- (Wd a I); auto|]. intros f i Hf Hi. rewrite <- (first_order_grown d' f i Hf). apply Z; [|exact Hi].
    destruct Hg as (_ & more & Pf). apply (Permutation_in f (Permutation_sym Pf)). apply in_app_iff. left. exact Hf.
  - right. intros b Hb Wb P E. destruct (K b Hb Wb) as (P0 & M & [(E0 & L)|(E0 & _)]); [|congruence]. assert (P0 = P) by congruence. subst P0.
    destruct (K' b (proj1 Hg b Hb)) as (Q & MQ & AQ); [rewrite (Wd b Hb); exact Wb|]. rewrite (Wd b Hb) in AQ.
    destruct AQ as [(EQ & _)|(_ & i & Hi & LQ)].
    + exists Q. split; [exact EQ|]. pose proof M as (M1 & M2 & _). pose proof MQ as (Q1 & Q2 & _). rewrite (Wd b Hb) in Q1, Q2. split; [congruence|]. split; [congruence|].
      intros z. rewrite (quad_rows Q _ z Q1), (quad_rows P _ z M1). exact (marginal_smaller b P Q (fun i => nth i z 0%R) Hb M MQ).
    + exfalso. specialize (L i Hi). pose proof (marginal_smaller b P Q (fun j => if j =? i then 1%R else 0%R) Hb M MQ) as S.
      assert (T : forall T : mat RN, rsum (width VC h b) (fun j => (if j =? i then 1 else 0) * rsum (width VC h b) (fun e => mat_at T j e * (if e =? i then 1 else 0)))%R = mat_at T i i).
      { intros T. rewrite (rsum_delta _ i _ Hi). rewrite (rsum_ext _ _ (fun e => (if e =? i then 1 else 0) * mat_at T i e)%R) by (intros; apply Rmult_comm). apply (rsum_delta _ i _ Hi). }
      rewrite !T in S. change (car RN) with R in *. lra.
Qed.
End Grown.
