(** Marginal covariances of an unconnected part, and in other coordinates. *)
From Coq Require Import List Arith ZArith QArith Bool Lia Permutation Reals Lra.
From Verif Require Import Base Sparse Graph SpecGraph SpecOpt ListLemmas GraphLayout GraphFin GraphBasic GraphVec GraphDense Optimizer Real RSum SpecSolver Gram Pivots OptCov OptExact OptCovFull SpecSteps SpecBlocks OptOrder SpecPart OptPart SpecCov SpecMarginal Marginal SpecChange Change.
Import ListNotations.
Local Open Scope nat_scope.
Set Bullet Behavior "Strict Subproofs".

Lemma Forall2_in_l {A B} (P : A -> B -> Prop) l m : Forall2 P l m -> forall a, In a l -> exists b, In b m /\ P a b.
Proof. induction 1 as [|x y l m H F IH]; intros a []; [subst; exists y; split; [left; reflexivity|exact H]|]. destruct (IH a H0) as (b & Hb & E). exists b. split; [right; exact Hb|exact E]. Qed.
Lemma Forall2_in_r {A B} (P : A -> B -> Prop) l m : Forall2 P l m -> forall b, In b m -> exists a, In a l /\ P a b.
Proof. induction 1 as [|x y l m H F IH]; intros b []; [subst; exists x; split; [left; reflexivity|exact H]|]. destruct (IH b H0) as (a & Ha & E). exists a. split; [right; exact Ha|exact E]. Qed.
Lemma rsum_sq_zero n (f : nat -> R) : rsum n (fun i => f i * f i)%R = 0%R -> forall i, i < n -> (f i * f i = 0)%R.
Proof.
  induction n as [|n IH]; intros E i Hi; [lia|]. cbn in E. assert (A : (0 <= rsum n (fun i => f i * f i))%R) by (apply rsum_nonneg; intros; apply Rle_0_sqr).
  pose proof (Rle_0_sqr (f n)) as B. unfold Rsqr in B. destruct (Nat.eq_dec i n) as [->|]; [lra|]. apply IH; [lra|lia].
Qed.

Section Part.
Context {V : Type} (VC : vclass RN V).
Notation factor := (factor (N:=RN) (V:=V)).
Context (h0 : @heap V) (vs vs' : list addr) (fs fs' : list factor).
Hypothesis Nd : NoDup vs.
Hypothesis Nd' : NoDup vs'.
Hypothesis Hpart : part_of_graph VC h0 vs vs' fs fs'.
Hypothesis Hwf' : Forall (factor_wf VC h0 vs') fs'.
Hypothesis Hread : Forall reads_only fs'.
Context (h h' : @heap V).
Hypothesis L : like VC h0 h.
Hypothesis L' : like VC h0 h'.
Hypothesis HI : inside VC h0 vs vs' h h'.

Lemma same_width a : width VC h' a = width VC h a.
Proof. rewrite (like_width VC _ _ a L), (like_width VC _ _ a L'). reflexivity. Qed.
Lemma rest_zero rest f a c i : (forall f a v, In f rest -> In (Some a) (f_vars f) -> In a vs' -> nth_error h0 a = Some v -> vconst VC v = true) ->
  In f rest -> In a vs' -> c < width VC h a -> deriv h f a i c = 0%R.
Proof.
  intros Hr Hf Ha Hc. unfold deriv. destruct (listed_at a (f_vars f)) as [q|] eqn:El; [|reflexivity].
  exfalso. apply listed_in in El. rewrite (like_width VC _ _ a L) in Hc. unfold width in Hc. destruct (nth_error h0 a) as [v|] eqn:Ev; [|lia]. rewrite (Hr f a v Hf El Ha Ev) in Hc. lia.
Qed.
Lemma outside_zero f b c i : In f fs' -> ~ In b vs' -> c < width VC h b -> deriv h f b i c = 0%R.
Proof.
  intros Hf Hb Hc. unfold deriv. destruct (listed_at b (f_vars f)) as [q|] eqn:El; [|reflexivity]. exfalso.
  apply listed_in in El. rewrite Forall_forall in Hwf'. destruct (Hwf' f Hf) as (_ & W & _). destruct (W (Some b) El) as (b' & v & Eb & Ev & W1 & _). injection Eb as <-.
  rewrite (like_width VC _ _ b L) in Hc. unfold width in Hc. rewrite Ev in Hc. destruct (vconst VC v); [lia|]. apply Hb. apply W1. reflexivity.
Qed.
Lemma deriv_inside f a i c : In f fs' -> deriv h f a i c = deriv h' f a i c.
Proof. intros Hf. destruct (inside_reads VC h0 vs vs' fs' Hwf' Hread h h' f L L' HI Hf) as (_ & E). unfold deriv. rewrite E. reflexivity. Qed.
Lemma first_order_part d f i : In f fs' -> first_order VC h vs d f i = first_order VC h' vs' d f i.
Proof.
  intros Hf. unfold first_order. destruct (incl_perm vs' vs Nd' (proj1 Hpart)) as (t & Pv). rewrite (lsum_perm _ _ _ Pv), lsum_app.
  rewrite (lsum_zero t).
  - rewrite Rplus_0_r. apply lsum_ext. intros b Hb. rewrite same_width. apply rsum_ext. intros c _. rewrite (deriv_inside f b i c Hf). reflexivity.
  - intros b Hb. apply rsum_zero. intros c Hc. rewrite (outside_zero f b c i Hf); [apply Rmult_0_l| |exact Hc]. intros Hb'. apply (Permutation_NoDup Pv) in Nd.
    clear - Nd Hb Hb'. induction vs' as [|x l IH]; [destruct Hb'|]. cbn in Nd. inversion Nd; subst. destruct Hb' as [->|W2]; [apply H1; apply in_app_iff; auto|auto].
Qed.
Lemma column_part b e d : covariance_column VC h vs fs b e d -> covariance_column VC h' vs' fs' b e d.
Proof.
  intros C a c Ha Hc. rewrite same_width in Hc. destruct Hpart as (Hi & rest & Pf & Hr). rewrite <- (C a c (Hi a Ha) Hc), (lsum_perm _ _ _ Pf), lsum_app.
  rewrite (lsum_zero rest); [|intros f Hf; apply rsum_zero; intros i _; rewrite (rest_zero rest f a c i Hr Hf Ha Hc); apply Rmult_0_l].
  rewrite Rplus_0_r. apply lsum_ext. intros f Hf. apply rsum_ext. intros i _. rewrite (first_order_part d f i Hf), (deriv_inside f a i c Hf). reflexivity.
Qed.
Lemma unnoticed_part d : unnoticed VC h' vs' fs' d -> exists d', unnoticed VC h vs fs d'.
Proof.
  intros ((a & c & Ha & Hc & Hd) & Z). set (d' := fun b c => if in_dec Nat.eq_dec b vs' then d b c else 0%R). exists d'. pose proof Hpart as (Hi & rest & Pf & Hr). split.
  - exists a, c. split; [exact (Hi a Ha)|]. split; [rewrite <- same_width; exact Hc|]. unfold d'. destruct (in_dec Nat.eq_dec a vs'); [exact Hd|contradiction].
  - intros f i Hf Hfi. apply (Permutation_in _ Pf) in Hf. apply in_app_iff in Hf. destruct Hf as [Hf|Hf].
    + rewrite (first_order_part d' f i Hf), <- (Z f i Hf Hfi). unfold first_order. apply lsum_ext. intros b Hb. apply rsum_ext. intros c' _. unfold d'. destruct (in_dec Nat.eq_dec b vs'); [reflexivity|contradiction].
    + unfold first_order. apply lsum_zero. intros b Hb. apply rsum_zero. intros c' Hc'. unfold d'. destruct (in_dec Nat.eq_dec b vs') as [Y|]; [|apply Rmult_0_r].
      rewrite (rest_zero rest f b c' i Hr Hf Y Hc'). apply Rmult_0_l.
Qed.
Lemma marginal_part b P P' : marginal VC h vs fs b P -> marginal VC h' vs' fs' b P' -> mrows P = mrows P' /\ mcols P = mcols P' /\ forall i j, i < mrows P -> j < mcols P -> mat_at P i j = mat_at P' i j.
Proof.
  intros (A1 & A2 & A3) (B1 & B2 & B3). rewrite same_width in B1, B2, B3. split; [congruence|]. split; [congruence|]. rewrite A1, A2. intros i j Hi Hj.
  destruct (A3 j Hj) as ((d & Hd) & A). destruct (B3 j Hj) as (_ & B). rewrite (A d Hd i Hi), (B d (column_part b j d Hd) i Hi). reflexivity.
Qed.
(** the whole graph either has no covariances at all, or the same as the part *)
Lemma answers_part est est' : answers VC h vs fs est -> answers VC h' vs' fs' est' ->
  (exists d, unnoticed VC h vs fs d) /\ (forall a, In a vs -> est a = Ok None) \/
  forall b, In b vs' -> 0 < width VC h b -> same_answer (est b) (est' b).
Proof.
  intros [A|(X & K)] [((d' & Hd') & N')|(X' & K')]; [left; exact A|left; exact A| |].
  - exfalso. destruct (unnoticed_part d' Hd') as (d & Hd). exact (X d Hd).
  - right. intros b Hb Wb. assert (Wb' : 0 < width VC h' b) by (rewrite same_width; exact Wb).
    destruct (K b (proj1 Hpart b Hb) Wb) as (P & M & A), (K' b Hb Wb') as (Q & M' & A').
    destruct (marginal_part b P Q M M') as (U1 & U2 & U). pose proof M as (M1 & M2 & _). rewrite M1, M2 in U. rewrite same_width in A'.
    destruct A as [(E & Ld)|(E & i & Hi & Ld)], A' as [(E' & Ld')|(E' & i' & Hi' & Ld')].
    + right. exists P, Q. split; [exact E|]. split; [exact E'|]. split; [exact U1|]. split; [exact U2|]. rewrite M1, M2. exact U.
    + exfalso. rewrite <- U in Ld' by auto. specialize (Ld i' Hi'). change (car RN) with R in *. lra.
    + exfalso. rewrite U in Ld by auto. specialize (Ld' i Hi). change (car RN) with R in *. lra.
    + left. auto.
Qed.
End Part.

(** ** other coordinates *)
Section Change.
Context {V : Type} (VC : vclass RN V).
Notation factor := (factor (N:=RN) (V:=V)).
Context (T Ti : addr -> nat -> nat -> R) (mu : R) (h h' : @heap V) (vs : list addr) (fs fs' : list factor).
Hypothesis Hmu : (0 < mu)%R.
Hypothesis W : forall a, In a vs -> width VC h' a = width VC h a.
Hypothesis HT : forall a c c', In a vs -> c < width VC h a -> c' < width VC h a -> rsum (width VC h a) (fun e => T a c e * Ti a e c')%R = if c =? c' then 1%R else 0%R.
Hypothesis F : Forall2 (changed VC T mu h h' vs) fs fs'.
Hypothesis Ev : forall f, In f fs -> exists js, f_jac f h [] = (js, Ok tt).
Hypothesis Ev' : forall f, In f fs' -> exists js, f_jac f h' [] = (js, Ok tt).

Notation normal h fs d := (fun a c => lsum fs (fun f => rsum (f_rsize f) (fun i => deriv h f a i c * first_order VC h vs d f i))%R).
Lemma normal_changed d a c : In a vs -> c < width VC h a ->
  rsum (width VC h a) (fun c' => normal h' fs' (turned_by VC T h d) a c' * T a c' c)%R = (mu * normal h fs d a c)%R.
Proof.
  intros Ha Hc. cbn beta.
  rewrite (rsum_ext (width VC h a) _ (fun c' => lsum fs' (fun f' => rsum (f_rsize f') (fun i => deriv h' f' a i c' * T a c' c * first_order VC h' vs (turned_by VC T h d) f' i))))%R.
  2: { intros c2 _. rewrite Rmult_comm, <- lsum_scal. apply lsum_ext. intros f' _. rewrite <- rsum_scal. apply rsum_ext. intros; match goal with |- ?a = ?b => change (@eq R a b) end; ring. }
  rewrite <- lsum_rsum, <- lsum_scal. symmetry. apply (lsum_Forall2 _ _ _ _ _ F). intros f f' Hf Hf' (Es & Ec & U & U1 & U2 & U3). rewrite rsum_swap.
  destruct (Ev f Hf) as (js & Jf). destruct (Ev' f' Hf') as (js' & Jf'). rewrite Es.
  rewrite <- (isometry mu (f_rsize f) U _ _ U1). apply rsum_ext. intros i Hi.
  rewrite rsum_scal_r. rewrite <- (U3 js js' a i c Jf Jf' Ha Hi Hc). f_equal.
  rewrite (first_order_changed VC T h h' vs d f f' U i Hi W) by (intros; eapply U3; eauto). reflexivity.
Qed.
Lemma normal_back d (g : addr -> nat -> R) : (forall a c, In a vs -> c < width VC h a -> rsum (width VC h a) (fun c' => g a c' * T a c' c)%R = (mu * normal h fs d a c)%R) ->
  forall a c', In a vs -> c' < width VC h a -> normal h' fs' (turned_by VC T h d) a c' = g a c'.
Proof.
  intros Hg a c' Ha Hc'.
  assert (Inv : forall y : nat -> R, y c' = rsum (width VC h a) (fun e => rsum (width VC h a) (fun c => y c * T a c e) * Ti a e c')%R).
  { intros y. rewrite <- (rsum_delta (width VC h a) c' y Hc').
    rewrite (rsum_ext (width VC h a) _ (fun i => rsum (width VC h a) (fun e => y i * T a i e * Ti a e c')))%R.
    - rewrite rsum_swap. apply rsum_ext. intros e _. rewrite rsum_scal_r. reflexivity.
    - intros i Hi. rewrite <- (HT a i c' Ha Hi Hc'), <- rsum_scal_r. apply rsum_ext. intros; match goal with |- ?a = ?b => change (@eq R a b) end; ring. }
  etransitivity; [exact (Inv (fun c => normal h' fs' (turned_by VC T h d) a c))|]. etransitivity; [|exact (eq_sym (Inv (g a)))]. apply rsum_ext. intros e He. f_equal. rewrite (Hg a e Ha He). apply normal_changed; auto.
Qed.
Lemma first_order_comb n (w : nat -> R) (D : nat -> addr -> nat -> R) f i : first_order VC h vs (fun a x => rsum n (fun c => w c * D c a x)%R) f i = rsum n (fun c => w c * first_order VC h vs (D c) f i)%R.
Proof.
  unfold first_order. rewrite (rsum_ext n _ (fun c => lsum vs (fun b => w c * rsum (width VC h b) (fun c0 => deriv h f b i c0 * D c b c0)))%R) by (intros c _; rewrite lsum_scal; reflexivity).
  rewrite <- lsum_rsum. apply lsum_ext. intros b _. 
  rewrite (rsum_ext (width VC h b) _ (fun c0 => rsum n (fun c => w c * (deriv h f b i c0 * D c b c0)))%R).
  - rewrite rsum_swap. apply rsum_ext. intros c _. rewrite rsum_scal. reflexivity.
  - intros c0 _. rewrite <- rsum_scal. apply rsum_ext. intros; match goal with |- ?a = ?b => change (@eq R a b) end; ring.
Qed.
Lemma column_changed b e (D : nat -> addr -> nat -> R) : In b vs -> e < width VC h b -> (forall c, c < width VC h b -> covariance_column VC h vs fs b c (D c)) ->
  covariance_column VC h' vs fs' b e (turned_by VC T h (fun a x => rsum (width VC h b) (fun c => T b e c / mu * D c a x)%R)).
Proof.
  intros Hb He HD a c' Ha Hc'. rewrite (W a Ha) in Hc'. refine (normal_back _ (fun a c' => if (a =? b) && (c' =? e) then 1%R else 0%R) _ a c' Ha Hc'). clear a c' Ha Hc'.
  intros a c Ha Hc. cbn beta.
  transitivity (if a =? b then T b e c else 0%R).
  - destruct (Nat.eqb_spec a b) as [->|]; cbn [andb]; [|apply rsum_zero; intros; apply Rmult_0_l].
    apply (rsum_delta _ e (fun c' => T b c' c) He).
  - rewrite (lsum_ext fs _ (fun f => rsum (width VC h b) (fun c0 => T b e c0 / mu * rsum (f_rsize f) (fun i => deriv h f a i c * first_order VC h vs (D c0) f i)))%R).
    + rewrite lsum_rsum. rewrite (rsum_ext (width VC h b) _ (fun c0 => (if c0 =? c then 1 else 0) * (if a =? b then T b e c0 / mu else 0))%R).
      * destruct (Nat.eqb_spec a b) as [->|]; [rewrite (rsum_delta _ c (fun c0 => T b e c0 / mu)%R Hc); field; lra|].
        rewrite rsum_zero; [lra|]. intros; lra.
      * intros c0 Hc0. rewrite lsum_scal, (HD c0 Hc0 a c Ha Hc), (Nat.eqb_sym c0 c). destruct (a =? b), (c =? c0); cbn [andb]; lra.
    + intros f Hf. rewrite (rsum_ext (width VC h b) _ (fun c0 => rsum (f_rsize f) (fun i => T b e c0 / mu * (deriv h f a i c * first_order VC h vs (D c0) f i)))%R) by (intros; rewrite rsum_scal; reflexivity).
      rewrite rsum_swap. apply rsum_ext. intros i _. rewrite first_order_comb, <- rsum_scal. apply rsum_ext. intros; match goal with |- ?a = ?b => change (@eq R a b) end; field. lra.
Qed.
(** covariances are mapped by the matrix and its transpose *)
Lemma marginal_changed b P P' : In b vs -> marginal VC h vs fs b P -> marginal VC h' vs fs' b P' ->
  mrows P' = mrows P /\ mcols P' = mcols P /\
  forall i j, i < mrows P -> j < mcols P -> mat_at P' i j = (/ mu * rsum (mrows P) (fun c => rsum (mcols P) (fun c' => T b i c * mat_at P c c' * T b j c')))%R.
Proof.
  intros Hb (A1 & A2 & A3) (B1 & B2 & B3). rewrite (W b Hb) in B1, B2, B3. split; [congruence|]. split; [congruence|]. rewrite A1, A2. intros i j Hi Hj.
  assert (HD : exists D : nat -> addr -> nat -> R, forall c, c < width VC h b -> covariance_column VC h vs fs b c (D c)).
  { clear - A3. assert (X : forall c, c < width VC h b -> exists d, covariance_column VC h vs fs b c d) by (intros c Hc; apply (A3 c Hc)). clear A3.
    enough (Y : forall n, n <= width VC h b -> exists D : nat -> addr -> nat -> R, forall c, c < n -> covariance_column VC h vs fs b c (D c)) by (apply Y; reflexivity).
    induction n as [|n IH]; intros Hn; [exists (fun _ _ _ => 0%R); intros; lia|]. destruct (IH ltac:(lia)) as (D & HD). destruct (X n ltac:(lia)) as (d & Hd).
    exists (fun c => if c =? n then d else D c). intros c Hc. destruct (Nat.eqb_spec c n) as [->|]; [exact Hd|]. apply HD. lia. }
  destruct HD as (D & HD). rewrite (proj2 (B3 j Hj) _ (column_changed b j D Hb Hj HD) i Hi). unfold turned_by. rewrite <- rsum_scal. apply rsum_ext. intros c Hc.
  rewrite <- !rsum_scal. apply rsum_ext. intros c' Hc'. rewrite (proj2 (A3 c' Hc') (D c') (HD c' Hc') c Hc). match goal with |- ?a = ?b => change (@eq R a b) end. field. lra.
Qed.
Hypothesis HTi : forall a (x : nat -> R), In a vs -> (forall c, c < width VC h a -> rsum (width VC h a) (fun e => T a c e * x e)%R = 0%R) -> forall c, c < width VC h a -> x c = 0%R.
Lemma unnoticed_changed : (exists d, unnoticed VC h vs fs d) <-> exists d, unnoticed VC h' vs fs' d.
Proof.
  assert (Fo : forall d f f', In f fs -> In f' fs' -> changed VC T mu h h' vs f f' ->
    exists U : nat -> nat -> R, (forall j k, j < f_rsize f -> k < f_rsize f -> rsum (f_rsize f) (fun i => U i j * U i k)%R = if j =? k then mu else 0%R) /\ f_rsize f' = f_rsize f /\
      forall i, i < f_rsize f -> first_order VC h' vs (turned_by VC T h d) f' i = rsum (f_rsize f) (fun j => U i j * first_order VC h vs d f j)%R).
  { intros d f f' Hf Hf' (Es & Ec & U & U1 & U2 & U3). destruct (Ev f Hf) as (js & Jf). destruct (Ev' f' Hf') as (js' & Jf'). exists U. split; [exact U1|]. split; [exact Es|].
    intros i Hi. apply (first_order_changed VC T h h' vs d f f' U i Hi W). intros; eapply U3; eauto. }
  split.
  - intros (d & (a & c & Ha & Hc & Hd) & Z). exists (turned_by VC T h d). split.
    + destruct (Classical_Prop.classic (exists c', c' < width VC h a /\ turned_by VC T h d a c' <> 0%R)) as [(c' & Hc' & N)|N]; [exists a, c'; rewrite (W a Ha); auto|].
      exfalso. apply Hd. apply (HTi a (d a) Ha); [|exact Hc]. intros c' Hc'. destruct (Req_dec (turned_by VC T h d a c') 0) as [E|E]; [exact E|]. exfalso. apply N. eauto.
    + intros f' i Hf' Hi. destruct (Forall2_in_r _ _ _ F _ Hf') as (f & Hf & C). destruct (Fo d f f' Hf Hf' C) as (U & _ & Es & E). rewrite Es in Hi. rewrite (E i Hi).
      apply rsum_zero. intros j Hj. rewrite (Z f j Hf Hj). apply Rmult_0_r.
  - intros (d' & (a & c & Ha & Hc & Hd) & Z). set (d := fun a e => rsum (width VC h a) (fun c => Ti a e c * d' a c)%R). exists d.
    assert (Td : forall a c, In a vs -> c < width VC h a -> turned_by VC T h d a c = d' a c).
    { intros b c0 Hb Hc0. unfold turned_by, d.
      rewrite (rsum_ext (width VC h b) _ (fun e => rsum (width VC h b) (fun c' => T b c0 e * Ti b e c' * d' b c')))%R by (intros e _; rewrite <- rsum_scal; apply rsum_ext; intros; match goal with |- ?a = ?b => change (@eq R a b) end; ring).
      rewrite rsum_swap. rewrite (rsum_ext (width VC h b) _ (fun c' => (if c' =? c0 then 1 else 0) * d' b c')%R) by (intros c' Hc'; rewrite rsum_scal_r, (HT b c0 c' Hb Hc0 Hc'), Nat.eqb_sym; reflexivity).
      apply (rsum_delta _ c0 (d' b) Hc0). }
    split.
    + rewrite (W a Ha) in Hc. destruct (Classical_Prop.classic (exists c0, c0 < width VC h a /\ d a c0 <> 0%R)) as [(c0 & Hc0 & N)|N]; [exists a, c0; auto|].
      exfalso. apply Hd. rewrite <- (Td a c Ha Hc). unfold turned_by. apply rsum_zero. intros e He. destruct (Req_dec (d a e) 0) as [E|E]; [rewrite E; apply Rmult_0_r|]. exfalso. apply N. eauto.
    + intros f i Hf Hi. destruct (Forall2_in_l _ _ _ F _ Hf) as (f' & Hf' & C). destruct (Fo d f f' Hf Hf' C) as (U & U1 & Es & E).
      assert (Q : rsum (f_rsize f) (fun j => first_order VC h vs d f j * first_order VC h vs d f j)%R = 0%R).
      { apply (Rmult_eq_reg_l mu); [|lra]. rewrite Rmult_0_r, <- (isometry mu (f_rsize f) U _ _ U1). apply rsum_zero. intros k Hk. rewrite <- (E k Hk).
        assert (X : first_order VC h' vs (turned_by VC T h d) f' k = 0%R).
        { rewrite <- (Z f' k Hf' ltac:(lia)). unfold first_order. apply lsum_ext. intros b Hb. apply rsum_ext. intros c0 Hc0. rewrite (Td b c0 Hb); [reflexivity|]. rewrite <- (W b Hb). exact Hc0. }
        rewrite X. apply Rmult_0_l. }
      apply Rsqr_0_uniq. apply (rsum_sq_zero _ _ Q i Hi).
Qed.
End Change.
