(** Gauss-Newton and changes of coordinates: two problems whose residuals and derivatives are related by fixed linear maps take related steps. *)
From Coq Require Import List Arith ZArith QArith Bool Lia Permutation Reals Lra.
From Verif Require Import Base Sparse Graph SpecGraph SpecOpt ListLemmas GraphLayout GraphFin GraphBasic GraphVec GraphDense GraphSparse Optimizer OptLemmas OptWork OptLM OptRun OptMore Real RSum SpecSolver Gram Pivots OptCov OptExact OptLinear SpecSteps OptSteps OptVerdict SpecBlocks OptOrder OptOrderRun OptPart SpecChange.
Import ListNotations.
Local Open Scope nat_scope.
Set Bullet Behavior "Strict Subproofs".

Lemma lsum_scal {A} (l : list A) c f : lsum l (fun a => c * f a)%R = (c * lsum l f)%R.
Proof. unfold lsum. induction l as [|a l IH]; cbn; [lra|]. rewrite IH. lra. Qed.
Lemma lsum_rsum {A} (l : list A) n f : lsum l (fun a => rsum n (f a)) = rsum n (fun i => lsum l (fun a => f a i)).
Proof.
  induction l as [|a l IH]; [unfold lsum; cbn; symmetry; apply rsum_zero; reflexivity|]. change (rsum n (f a) + lsum l (fun a => rsum n (f a)) = rsum n (fun i => f a i + lsum l (fun a => f a i)))%R.
  rewrite IH, rsum_plus. reflexivity.
Qed.
Lemma rsum_delta n k (g : nat -> R) : k < n -> rsum n (fun i => (if i =? k then 1 else 0) * g i)%R = g k.
Proof. intros H. rewrite (rsum_single n k); [rewrite Nat.eqb_refl; ring|exact H|]. intros i _ Hi. destruct (Nat.eqb_spec i k); [contradiction|ring]. Qed.
Lemma lsum_Forall2 {A B} (P : A -> B -> Prop) (l : list A) (l' : list B) f g : Forall2 P l l' -> (forall a b, In a l -> In b l' -> P a b -> f a = g b) -> lsum l f = lsum l' g.
Proof.
  intros F. induction F as [|a b l l' H F IH]; intros E; [reflexivity|]. unfold lsum in *. cbn. f_equal; [apply E; cbn; auto|]. apply IH. intros; apply E; cbn; auto.
Qed.

Section Change.
Context {V : Type} (VC : vclass RN V).
Notation factor := (factor (N:=RN) (V:=V)).
Context (T Ti : addr -> nat -> nat -> R) (mu : R).

(** residual and Jacobian are defined *)
Definition evaluated (h : @heap V) (fs : list factor) : Prop := forall f, In f fs -> exists x js, f_res_ref f h = Ok x /\ f_jac f h [] = (js, Ok tt).
Lemma stacked_res h (fs : list factor) r : stacked h fs r -> forall f, In f fs -> exists x, f_res_ref f h = Ok x.
Proof. intros (rs & F & _). induction F as [|g x fs rs (E & _) F IH]; intros f []; [subst; eauto|auto]. Qed.
Lemma jacobian_jac h vs (fs : list factor) J : jacobian_at VC h vs fs J -> forall f, In f fs -> exists js, f_jac f h [] = (js, Ok tt).
Proof. intros (jss & F & _). induction F as [|g x fs rs E F IH]; intros f []; [subst; eauto|auto]. Qed.
Lemma evaluated_at h vs (fs : list factor) r J : stacked h fs r -> jacobian_at VC h vs fs J -> evaluated h fs.
Proof. intros A B f Hf. destruct (stacked_res _ _ _ A f Hf) as (x & X). destruct (jacobian_jac _ _ _ _ B f Hf) as (js & Y). eauto. Qed.

Definition turned_by (h : @heap V) (d : addr -> nat -> R) (a : addr) (c' : nat) : R := rsum (width VC h a) (fun c => T a c' c * d a c)%R.

Lemma first_order_changed h h' vs d (f f' : factor) (U : nat -> nat -> R) i : i < f_rsize f ->
  (forall a, In a vs -> width VC h' a = width VC h a) ->
  (forall a c, In a vs -> c < width VC h a ->
    rsum (width VC h a) (fun c' => deriv h' f' a i c' * T a c' c)%R = rsum (f_rsize f) (fun j => U i j * deriv h f a j c)%R) ->
  first_order VC h' vs (turned_by h d) f' i = rsum (f_rsize f) (fun j => U i j * first_order VC h vs d f j)%R.
Proof.
  intros Hi W D. unfold first_order. 
  rewrite (rsum_ext (f_rsize f) _ (fun j => lsum vs (fun a => U i j * rsum (width VC h a) (fun c => deriv h f a j c * d a c)))%R) by (intros j _; rewrite lsum_scal; reflexivity).
  rewrite <- lsum_rsum. apply lsum_ext. intros a Ha. rewrite (W a Ha). unfold turned_by.
  rewrite (rsum_ext (width VC h a) _ (fun c' => rsum (width VC h a) (fun c => deriv h' f' a i c' * T a c' c * d a c))%R)
    by (intros c' _; rewrite <- rsum_scal; apply rsum_ext; intros; match goal with |- ?a = ?b => change (@eq R a b) end; ring).
  rewrite rsum_swap. rewrite (rsum_ext (width VC h a) _ (fun c => rsum (f_rsize f) (fun j => U i j * deriv h f a j c * d a c)))%R
    by (intros c Hc; rewrite !rsum_scal_r; f_equal; apply D; auto).
  rewrite rsum_swap. apply rsum_ext. intros j _. rewrite <- rsum_scal. apply rsum_ext. intros; match goal with |- ?a = ?b => change (@eq R a b) end; ring.
Qed.
Lemma isometry n (U : nat -> nat -> R) (x y : nat -> R) : (forall j k, j < n -> k < n -> rsum n (fun i => U i j * U i k)%R = if j =? k then mu else 0%R) ->
  rsum n (fun i => rsum n (fun j => U i j * x j) * rsum n (fun k => U i k * y k))%R = (mu * rsum n (fun j => x j * y j))%R.
Proof.
  intros H.
  rewrite (rsum_ext n _ (fun i => rsum n (fun j => rsum n (fun k => x j * y k * (U i j * U i k))))%R).
  2: { intros i _. rewrite <- rsum_scal_r. apply rsum_ext. intros j _. rewrite <- rsum_scal. apply rsum_ext. intros; match goal with |- ?a = ?b => change (@eq R a b) end; ring. }
  rewrite rsum_swap. rewrite <- rsum_scal. apply rsum_ext. intros j Hj. rewrite rsum_swap.
  rewrite (rsum_ext n _ (fun k => (if k =? j then 1 else 0) * (mu * (x j * y k)))%R).
  - apply rsum_delta. exact Hj.
  - intros k Hk. rewrite rsum_scal, H by auto. rewrite (Nat.eqb_sym j k). destruct (k =? j); match goal with |- ?a = ?b => change (@eq R a b) end; ring.
Qed.
Lemma block_changed h h' vs (fs fs' : list factor) d :
  (forall a, In a vs -> width VC h' a = width VC h a) ->
  (forall a c c', In a vs -> c < width VC h a -> c' < width VC h a -> rsum (width VC h a) (fun e => T a c e * Ti a e c')%R = if c =? c' then 1%R else 0%R) ->
  Forall2 (changed VC T mu h h' vs) fs fs' -> evaluated h fs -> evaluated h' fs' ->
  block_solution VC 0 h vs fs d -> block_solution VC 0 h' vs fs' (turned_by h d).
Proof.
  intros W HT F Ev Ev' B a c' Ha Hc'. rewrite (W a Ha) in Hc'. rewrite Rmult_0_l, Rplus_0_r.
  set (E' := fun f' : factor => fun i => (first_order VC h' vs (turned_by h d) f' i + resid h' f' i)%R).
  set (E := fun f : factor => fun i => (first_order VC h vs d f i + resid h f i)%R).
  set (G := fun c' => lsum fs' (fun f' => rsum (f_rsize f') (fun i => deriv h' f' a i c' * E' f' i)%R)).
  change (G c' = 0)%R.
  assert (Z : forall c, c < width VC h a -> rsum (width VC h a) (fun c' => G c' * T a c' c)%R = 0%R).
  { intros c Hc. unfold G.
    rewrite (rsum_ext (width VC h a) _ (fun c' => lsum fs' (fun f' => rsum (f_rsize f') (fun i => deriv h' f' a i c' * T a c' c * E' f' i))))%R.
    2: { intros c2 _. rewrite Rmult_comm, <- lsum_scal. apply lsum_ext. intros f' _. rewrite <- rsum_scal. apply rsum_ext. intros; match goal with |- ?a = ?b => change (@eq R a b) end; ring. }
    rewrite <- lsum_rsum. specialize (B a c Ha Hc). rewrite Rmult_0_l, Rplus_0_r in B.
    transitivity (mu * lsum fs (fun f => rsum (f_rsize f) (fun i => deriv h f a i c * E f i)))%R; [|unfold E; rewrite B; ring].
    rewrite <- lsum_scal. symmetry. apply (lsum_Forall2 _ _ _ _ _ F). intros f f' Hf Hf' (Es & Ec & U & U1 & U2 & U3). rewrite rsum_swap.
    destruct (Ev f Hf) as (y & js & Y & Jf). destruct (Ev' f' Hf') as (y' & js' & Y' & Jf'). rewrite Es.
    rewrite <- (isometry (f_rsize f) U _ _ U1). apply rsum_ext. intros i Hi. 
    rewrite rsum_scal_r. rewrite <- (U3 js js' a i c Jf Jf' Ha Hi Hc). f_equal. unfold E', E.
    rewrite (first_order_changed h h' vs d f f' U i Hi W) by (intros; eapply U3; eauto). unfold resid. rewrite Y, Y'. rewrite (U2 y y' i Y Y' Hi), <- rsum_plus. apply rsum_ext. intros; match goal with |- ?a = ?b => change (@eq R a b) end; ring. }
  rewrite <- (rsum_delta (width VC h a) c' G Hc').
  rewrite (rsum_ext (width VC h a) _ (fun i => rsum (width VC h a) (fun e => G i * T a i e * Ti a e c')))%R.
  - rewrite rsum_swap. apply rsum_zero. intros e He. rewrite rsum_scal_r, (Z e He). ring.
  - intros i Hi. rewrite <- (HT a i c' Ha Hi Hc'), <- rsum_scal_r. apply rsum_ext. intros; match goal with |- ?a = ?b => change (@eq R a b) end; ring.
Qed.
Lemma cost_changed h h' vs (fs fs' : list factor) r r' : Forall2 (changed VC T mu h h' vs) fs fs' -> stacked h fs r -> stacked h' fs' r' ->
  sqnorm (N:=RN) r' = (mu * sqnorm (N:=RN) r)%R.
Proof.
  intros F Hr Hr'. rewrite (parts_sq _ _ _ _ (stacked_parts h fs r Hr)), (parts_sq _ _ _ _ (stacked_parts h' fs' r' Hr')), <- lsum_scal. symmetry. apply (lsum_Forall2 _ _ _ _ _ F).
  intros f f' Hf Hf' (Es & _ & U & U1 & U2 & _). destruct (stacked_res _ _ _ Hr f Hf) as (y & Y). destruct (stacked_res _ _ _ Hr' f' Hf') as (y' & Y'). unfold resid. rewrite Y, Y'. rewrite Es, <- (isometry (f_rsize f) U _ _ U1). apply rsum_ext. intros i Hi. rewrite (U2 y y' i Y Y' Hi). reflexivity.
Qed.
End Change.
