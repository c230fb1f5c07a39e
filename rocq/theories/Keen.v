(** Covariances of two graphs one of which has smaller standard deviations. *)
From Coq Require Import List Arith ZArith QArith Bool Lia Permutation Reals Lra.
From Verif Require Import Base Sparse Graph SpecGraph SpecOpt ListLemmas GraphLayout GraphFin GraphBasic GraphVec GraphDense Optimizer OptLemmas OptWork OptMore Real RSum SpecSolver SpecSteps OptSteps SpecBlocks OptOrder OptPart Change SpecCov CovRun SpecMarginal Marginal MarginalMore MarginalRun SpecInfo Info SpecGrown Grown GrownRun.
From Verif Require Import Geom Vars VarsLemmas FactorsLin FactorsGeo FactorLib SpecShape FactorSafe OptStepsLib SpecFree SpecKeen.
Import ListNotations.
Local Open Scope nat_scope.
Set Bullet Behavior "Strict Subproofs".

Section Core.
Context {V : Type} (VC : vclass RN V).
Notation factor := (factor (N:=RN) (V:=V)).
Context (h h' : @heap V) (vs vs' : list addr) (fs gs fs' : list factor).
Hypothesis Nd : NoDup vs.
Hypothesis Nd' : NoDup vs'.
Hypothesis Hv : forall a, In a vs <-> In a vs'.
Hypothesis Pf : Permutation fs' gs.
Hypothesis Wd : forall a, In a vs -> width VC h' a = width VC h a.
Context (c0 : R) (C0 : (0 < c0)%R).
Definition keener (f g : factor) : Prop := f_rsize g = f_rsize f /\ exists k : nat -> R, (forall i, c0 <= k i * k i)%R /\ forall a i c, deriv h' g a i c = (k i * deriv h f a i c)%R.
Hypothesis Kn : Forall2 keener fs gs.
Lemma keen_perm : Permutation vs' vs.
Proof. apply NoDup_Permutation; auto. intros a. symmetry. apply Hv. Qed.
Lemma first_order_keen f g : keener f g -> exists k : nat -> R, (forall i, c0 <= k i * k i)%R /\ forall d i, first_order VC h' vs' d g i = (k i * first_order VC h vs d f i)%R.
Proof.
  intros (_ & k & K1 & D). exists k. split; [exact K1|]. intros d i. unfold first_order. rewrite (lsum_perm _ _ _ keen_perm), <- lsum_scal. apply lsum_ext. intros a Ha. rewrite (Wd a Ha), <- rsum_scal. apply rsum_ext. intros c _. rewrite D. ring.
Qed.
Lemma keen_square (k x : R) : (c0 <= k * k -> c0 * (x * x) <= k * x * (k * x))%R.
Proof. intros H. replace (k * x * (k * x))%R with (k * k * (x * x))%R by ring. pose proof (Rle_0_sqr x) as S. unfold Rsqr in S. exact (Rmult_le_compat_r (x * x) c0 (k * k) S H). Qed.
Lemma energy_keen d : (c0 * joint VC h vs fs d d <= joint VC h' vs' fs' d d)%R.
Proof.
  unfold joint. rewrite (lsum_perm _ _ _ Pf). clear Pf. pose proof Kn as K. revert K. generalize fs, gs. intros l m K. induction K as [|f g l m T _ IH]; [unfold lsum; cbn; lra|].
  unfold lsum in *. cbn [fold_right]. rewrite Rmult_plus_distr_l. apply Rplus_le_compat; [|exact IH]. destruct (first_order_keen f g T) as (k & K1 & D). rewrite (proj1 T).
  enough (H : (0 <= rsum (f_rsize f) (fun i => first_order VC h' vs' d g i * first_order VC h' vs' d g i + (- c0) * (first_order VC h vs d f i * first_order VC h vs d f i)))%R).
  { rewrite rsum_plus, rsum_scal in H. lra. }
  apply rsum_nonneg. intros i _. rewrite D. pose proof (keen_square (k i) (first_order VC h vs d f i) (K1 i)). lra.
Qed.
Lemma unnoticed_keen d : unnoticed VC h' vs' fs' d -> unnoticed VC h vs fs d.
Proof.
  intros ((a & c & Ha & Hc & X) & Z). apply Hv in Ha. split; [exists a, c; rewrite <- (Wd a Ha); auto|].
  assert (Z' : forall f i, In f gs -> i < f_rsize f -> first_order VC h' vs' d f i = 0%R) by (intros f i Hf; apply Z; exact (Permutation_in f (Permutation_sym Pf) Hf)).
  clear - Kn Z' Wd Nd Nd' Hv C0. pose proof Kn as K. revert K Z'. generalize fs, gs. intros l m K. induction K as [|f g l m T _ IH]; intros Z' e i; [intros []|]. intros [<-|He] Hi.
  - destruct (first_order_keen f g T) as (k & K1 & D). specialize (Z' g i (or_introl eq_refl)). rewrite (proj1 T), D in Z'. specialize (Z' Hi). specialize (K1 i). apply Rmult_integral in Z'. destruct Z' as [Z'|Z']; [exfalso; change (car RN) with R in *; rewrite Z' in K1; lra|exact Z'].
  - apply IH; auto. intros f' i' Hf'. apply Z'. right. exact Hf'.
Qed.
Lemma joint_scal x k : joint VC h vs fs (fun a c => k * x a c)%R (fun a c => k * x a c)%R = (k * k * joint VC h vs fs x x)%R.
Proof.
  assert (F : forall f i, first_order VC h vs (fun a c => k * x a c)%R f i = (k * first_order VC h vs x f i)%R).
  { intros f i. unfold first_order. rewrite <- lsum_scal. apply lsum_ext. intros a _. rewrite <- rsum_scal. apply rsum_ext. intros c _. ring. }
  unfold joint. rewrite <- lsum_scal. apply lsum_ext. intros f _. rewrite <- rsum_scal. apply rsum_ext. intros i _. rewrite !F. ring.
Qed.
Lemma marginal_keen b P Q (z : nat -> R) : In b vs -> marginal VC h vs fs b P -> marginal VC h' vs' fs' b Q ->
  (c0 * rsum (width VC h b) (fun i => z i * rsum (width VC h b) (fun e => mat_at Q i e * z e)) <= rsum (width VC h b) (fun i => z i * rsum (width VC h b) (fun e => mat_at P i e * z e)))%R.
Proof.
  intros Hb MP MQ. destruct (combination VC h vs fs b P z MP _ (le_n _)) as (x & X1 & X2). destruct (combination VC h' vs' fs' b Q z MQ _ (le_n _)) as (w & W1 & W2).
  pose proof (proj1 (Hv b) Hb) as Hb'.
  assert (A : forall y, joint VC h vs fs x y = rsum (width VC h b) (fun c => z c * y b c)%R).
  { intros y. rewrite joint_normal, <- (block_sum VC h vs b z y Nd Hb). apply lsum_ext. intros a Ha. apply rsum_ext. intros c Hc. rewrite (X1 a c Ha Hc). reflexivity. }
  assert (B : joint VC h' vs' fs' w w = rsum (width VC h b) (fun c => z c * w b c)%R).
  { rewrite joint_normal. rewrite <- (Wd b Hb), <- (block_sum VC h' vs' b z w Nd' Hb'). apply lsum_ext. intros a Ha. apply rsum_ext. intros c Hc. rewrite (W1 a c Ha Hc). reflexivity. }
  pose proof (joint_square VC h vs fs x (fun a c => c0 * w a c)%R) as S. pose proof (energy_keen w) as E. rewrite joint_scal, !A in S. rewrite B in E.
  rewrite (rsum_ext _ (fun c => z c * (c0 * w b c))%R (fun c => c0 * (z c * w b c))%R), rsum_scal in S by (intros; ring).
  rewrite (Wd b Hb) in W2. rewrite <- (rsum_ext _ (fun c => z c * w b c)%R _ (fun c Hc => f_equal (Rmult (z c)) (W2 c Hc))). rewrite <- (rsum_ext _ (fun c => z c * x b c)%R _ (fun c Hc => f_equal (Rmult (z c)) (X2 c Hc))).
  apply (Rmult_le_compat_l c0) in E; [|lra]. lra.
Qed.
Lemma marginal_nonneg b Q (z : nat -> R) : In b vs -> marginal VC h' vs' fs' b Q -> (0 <= rsum (width VC h b) (fun i => z i * rsum (width VC h b) (fun e => mat_at Q i e * z e)))%R.
Proof.
  intros Hb MQ. destruct (combination VC h' vs' fs' b Q z MQ _ (le_n _)) as (w & W1 & W2). pose proof (proj1 (Hv b) Hb) as Hb'.
  assert (B : joint VC h' vs' fs' w w = rsum (width VC h b) (fun c => z c * w b c)%R).
  { rewrite joint_normal. rewrite <- (Wd b Hb), <- (block_sum VC h' vs' b z w Nd' Hb'). apply lsum_ext. intros a Ha. apply rsum_ext. intros c Hc. rewrite (W1 a c Ha Hc). reflexivity. }
  rewrite (Wd b Hb) in W2. rewrite <- (rsum_ext _ (fun c => z c * w b c)%R _ (fun c Hc => f_equal (Rmult (z c)) (W2 c Hc))), <- B.
  unfold joint. apply lsum_nonneg. intros f _. apply rsum_nonneg. intros i _. apply Rle_0_sqr.
Qed.
Lemma answers_keen est est' : (1 <= c0)%R -> answers VC h vs fs est -> answers VC h' vs' fs' est' -> forall b, In b vs -> 0 < width VC h b -> no_larger (est b) (est' b).
Proof.
  intros C1 A A' b Hb Wb P E. destruct A as [((d & Hd) & N)|(X & K)]; [rewrite (N b Hb) in E; discriminate|].
  destruct A' as [((d' & Hd') & N')|(X' & K')]; [exfalso; exact (X d' (unnoticed_keen d' Hd'))|].
  destruct (K b Hb Wb) as (P0 & M & [(E0 & L)|(E0 & _)]); [|congruence]. assert (P0 = P) by congruence. subst P0.
  destruct (K' b (proj1 (Hv b) Hb)) as (Q & MQ & AQ); [rewrite (Wd b Hb); exact Wb|]. rewrite (Wd b Hb) in AQ.
  destruct AQ as [(EQ & _)|(_ & i & Hi & LQ)].
  - exists Q. split; [exact EQ|]. pose proof M as (M1 & M2 & _). pose proof MQ as (Q1 & Q2 & _). rewrite (Wd b Hb) in Q1, Q2. split; [congruence|]. split; [congruence|].
    intros z. rewrite (quad_rows Q _ z Q1), (quad_rows P _ z M1). pose proof (marginal_keen b P Q (fun i => nth i z 0%R) Hb M MQ) as S. pose proof (marginal_nonneg b Q (fun i => nth i z 0%R) Hb MQ) as Z. nra.
  - exfalso. specialize (L i Hi). pose proof (marginal_keen b P Q (fun j => if j =? i then 1%R else 0%R) Hb M MQ) as S. pose proof (marginal_nonneg b Q (fun j => if j =? i then 1%R else 0%R) Hb MQ) as Z.
    assert (T : forall T : mat RN, rsum (width VC h b) (fun j => (if j =? i then 1 else 0) * rsum (width VC h b) (fun e => mat_at T j e * (if e =? i then 1 else 0)))%R = mat_at T i i).
    { intros T. rewrite (rsum_delta _ i _ Hi). rewrite (rsum_ext _ _ (fun e => (if e =? i then 1 else 0) * mat_at T i e)%R) by (intros; apply Rmult_comm). apply (rsum_delta _ i _ Hi). }
    rewrite !T in S. rewrite T in Z. change (car RN) with R in *. nra.
Qed.
(** both answers are matrices *)
Lemma answers_times est est' : answers VC h vs fs est -> answers VC h' vs' fs' est' -> forall b P Q, In b vs -> 0 < width VC h b -> est b = Ok (Some P) -> est' b = Ok (Some Q) ->
  mrows Q = mrows P /\ mcols Q = mcols P /\ forall z : list R, (c0 * quad_form Q z <= quad_form P z)%R.
Proof.
  intros A A' b P Q Hb Wb E E'. destruct A as [(_ & N)|(_ & K)]; [rewrite (N b Hb) in E; discriminate|]. destruct A' as [(_ & N')|(_ & K')]; [rewrite (N' b (proj1 (Hv b) Hb)) in E'; discriminate|].
  destruct (K b Hb Wb) as (P0 & M & [(E0 & L)|(E0 & _)]); [|congruence]. assert (P0 = P) by congruence. subst P0.
  destruct (K' b (proj1 (Hv b) Hb)) as (Q0 & MQ & AQ); [rewrite (Wd b Hb); exact Wb|]. destruct AQ as [(EQ & _)|(EQ & _)]; [|congruence]. assert (Q0 = Q) by congruence. subst Q0.
  pose proof M as (M1 & M2 & _). pose proof MQ as (Q1 & Q2 & _). rewrite (Wd b Hb) in Q1, Q2. split; [congruence|]. split; [congruence|].
  intros z. rewrite (quad_rows Q _ z Q1), (quad_rows P _ z M1). exact (marginal_keen b P Q (fun i => nth i z 0%R) Hb M MQ).
Qed.
End Core.

Lemma z0 : Q2R 0 = 0%R.
Proof. exact lit_zero. Qed.

(** ** Library classes: rows of the blocks are multiplied by k *)
Section Rows.
Context (k : nat -> R).
Definition srel (B B' : mat RN) : Prop := forall i c, (mat_at B' i c = k i * mat_at B i c)%R.
Definition orel (o o' : outcome (mat RN)) : Prop := match o, o' with Ok B, Ok B' => srel B B' | Throw e, Throw e' => e' = e | UB u, UB u' => u' = u | _, _ => False end.
Definition jrel (x y : jacs (N:=RN)) : Prop := Forall2 srel (fst x) (fst y) /\ snd y = snd x.
Lemma srel_mempty : srel (mempty (N:=RN)) mempty.
Proof. intros i c. cbn. rewrite z0. ring. Qed.
Lemma srel_lupd j B B' l l' : srel B B' -> Forall2 srel l l' -> Forall2 srel (lupd j B l) (lupd j B' l').
Proof. intros H F. revert j. induction F as [|x y l l' X F IH]; intros [|j]; cbn; constructor; auto. Qed.
Lemma jrel_setj j o o' x y : orel o o' -> jrel x y -> jrel (setj j o x) (setj j o' y).
Proof.
  intros O (F & E). destruct x as [J r], y as [J' r']. cbn in F, E. subst r'. destruct r as [[]| |]; [|split; [exact F|reflexivity]|split; [exact F|reflexivity]]. unfold setj, withj.
  destruct o as [B| |], o' as [B'| |]; cbn [orel] in O; try contradiction; [|subst; split; [exact F|reflexivity]|subst; split; [exact F|reflexivity]].
  assert (L : length J = length J') by (clear - F; induction F; cbn; congruence). rewrite L. destruct (j <? length J'); split; cbn [fst snd]; auto. apply srel_lupd; assumption.
Qed.
Lemma jrel_start n : jrel (sized n [], Ok tt) (sized n [], Ok tt).
Proof.
  split; [|reflexivity]. cbn [fst]. assert (X : forall m, Forall2 srel (repeat (mempty (N:=RN)) m) (repeat mempty m)) by (induction m; cbn; constructor; auto using srel_mempty).
  unfold sized. destruct (length [] =? n); [constructor|apply X].
Qed.
Lemma orel_blk h a B B' : srel B B' -> orel (blk h a B) (blk h a B').
Proof. intros H. unfold blk, block_for. destruct (hget h a) as [v| |]; cbn; auto. destruct (l_const v); [exact srel_mempty|exact H]. Qed.
Lemma srel_diagm n w w' : (forall i, w' = k i * w)%R -> srel (diagm (N:=RN) n w) (diagm n w').
Proof. intros H i c. cbn. destruct (i =? c); [apply H|rewrite z0; ring]. Qed.
Lemma jrel_deriv (f g : factor (N:=RN) (V:=lvar RN)) h : f_vars g = f_vars f -> jrel (f_jac f h []) (f_jac g h []) -> forall a i c, deriv h g a i c = (k i * deriv h f a i c)%R.
Proof.
  intros Ev (F & _) a i c. unfold deriv. rewrite Ev. destruct (listed_at a (f_vars f)) as [q|]; [|ring].
  revert q. induction F as [|x y l l' X _ IH]; intros [|q]; cbn; try ring; [apply X|apply IH].
Qed.
End Rows.
Lemma better_weight m s s' : (0 < m)%R -> at_most m s s' -> exists k, (/ (m * m) <= k * k)%R /\ (ndiv (n:=RN) nunit s' = k * ndiv (n:=RN) nunit s)%R.
Proof.
  intros M (A & B). assert (0 < s)%R by nra. exists (s / s')%R. split.
  - assert (L : (/ m <= s / s')%R).
    { apply (Rmult_le_reg_l m); [exact M|]. apply (Rmult_le_reg_r s'); [exact A|]. replace (m * / m * s')%R with s' by (field; lra). replace (m * (s / s') * s')%R with (m * s)%R by (field; lra). exact B. }
    rewrite Rinv_mult. apply Rmult_le_compat; try exact L; left; apply Rinv_0_lt_compat; exact M.
  - generalize (@nunit RN). intros u. change (u / s' = s / s' * (u / s))%R. change (car RN) with R in u. field. lra.
Qed.

Section Blocks.
Context (k : nat -> R).
Lemma srel_mat36 w w' : (forall i, w' = k i * w)%R -> srel k (mat36 (N:=RN) (m3diag w) m3zero) (mat36 (m3diag w') m3zero).
Proof. intros H i c. destruct i as [|[|[|i]]]; do 7 (destruct c as [|c]; [cbn; rewrite ?z0; first [apply H|ring|destruct i; cbn; rewrite ?z0; ring]|]); cbn; rewrite ?z0; try ring; destruct i, c; cbn; rewrite ?z0; ring. Qed.
Lemma srel_diag2 w w' t t' : (forall i, i < 2 -> (w' = k i * w)%R) -> (t' = k 2%nat * t)%R -> srel k (diag2 (N:=RN) w t) (diag2 w' t').
Proof. intros H T i c. destruct i as [|[|[|i]]]; do 4 (destruct c as [|c]; [cbn; rewrite ?z0; first [apply H; lia|exact T|ring|destruct i; cbn; rewrite ?z0; ring]|]); cbn; rewrite ?z0; try ring; destruct i, c; cbn; rewrite ?z0; ring. Qed.
Lemma orel_diag_block r c i0 dim w w' : (forall i, w' = k i * w)%R -> orel k (diag_block (N:=RN) r c i0 dim w) (diag_block r c i0 dim w').
Proof. intros H. unfold diag_block. destruct ((dim <=? r) && (i0 + dim <=? c)); [|reflexivity]. intros i j. cbn [mat_at]. destruct ((j =? i0 + i) && (i <? dim)); [apply H|change (Q2R 0 = k i * Q2R 0)%R; rewrite z0; ring]. Qed.
End Blocks.
Lemma neg_weight (k w w' : R) : (w' = k * w -> - w' = k * - w)%R.
Proof. intros ->. ring. Qed.
Lemma neg_weight_dt (k w w' dt : R) : (w' = k * w -> - w' * dt = k * (- w * dt))%R.
Proof. intros ->. ring. Qed.
Lemma better_free rel f f' : better_design rel f f' -> value_free f /\ value_free f'.
Proof. destruct f, f'; cbn; try contradiction; try (split; exact I); destruct loc; try contradiction; destruct loc0; try contradiction; split; exact I. Qed.
Lemma better_build m0 f f' : (0 < m0)%R -> better_design (at_most m0) f f' -> f_rsize (build f') = f_rsize (build f) /\ f_vars (build f') = f_vars (build f) /\
  exists k : nat -> R, (forall i, / (m0 * m0) <= k i * k i)%R /\ forall h, jrel k (f_jac (build f) h []) (f_jac (build f') h []).
Proof.
  intros M0. destruct f, f'; cbn [better_design]; try contradiction; try (destruct loc; try contradiction; destruct loc0; try contradiction); intros X.
  - destruct X as (-> & L & X). destruct (better_weight _ _ _ M0 X) as (k & K1 & K2). cbn [build generic_prior f_rsize f_vars f_jac]. change (car RN) with R in *. rewrite L. split; [reflexivity|]. split; [reflexivity|]. exists (fun _ => k). split; [auto|]. intros h.
    unfold gprior_jac. destruct (hget h a) as [v| |]; cbn [obind all_blocks]; [|split; [constructor|reflexivity]|split; [constructor|reflexivity]]. split; [|reflexivity]. cbn [fst].
    destruct (vconst (lib RN) v); repeat constructor; try apply srel_mempty. apply srel_diagm. intros _. exact K2.
  - destruct X as (E & X). injection E as -> -> -> ->. destruct (better_weight _ _ _ M0 X) as (k & K1 & K2). split; [reflexivity|]. split; [reflexivity|]. exists (fun _ => k). split; [auto|]. intros h.
    cbn [build generic_between f_jac]. unfold gbetween_jac.
    assert (B1 : forall m, srel (fun _ => k) (diagm (N:=RN) m (ndiv nunit sigma)) (diagm m (ndiv nunit sigma0))) by (intros m; apply srel_diagm; intros _; exact K2).
    assert (B2 : forall m, srel (fun _ => k) (diagm (N:=RN) m (nneg (ndiv nunit sigma))) (diagm m (nneg (ndiv nunit sigma0)))) by (intros m; apply srel_diagm; intros _; exact (neg_weight _ _ _ K2)).
    unfold block_for. destruct (hget h a) as [va| |]; cbn [obind all_blocks]; [|split; [constructor|reflexivity]|split; [constructor|reflexivity]].
    destruct (hget h b) as [vb| |]; cbn [obind all_blocks]; [|split; [constructor|reflexivity]|split; [constructor|reflexivity]].
    destruct (hget h d) as [vd| |]; cbn [obind all_blocks]; [|split; [constructor|reflexivity]|split; [constructor|reflexivity]].
    split; [|reflexivity]. cbn [fst]. constructor; [|constructor; [|constructor; [|constructor]]].
    + destruct (vconst (lib RN) va); [apply srel_mempty|apply B2].
    + destruct (vconst (lib RN) vb); [apply srel_mempty|apply B1].
    + destruct (vconst (lib RN) vd); [apply srel_mempty|apply B2].
  - destruct X as (E & X). injection E as -> -> -> -> -> ->. destruct (better_weight _ _ _ M0 X) as (k & K1 & K2). split; [reflexivity|]. split; [reflexivity|]. exists (fun _ => k). split; [auto|]. intros h.
    cbn [build linear_velocity f_jac]. unfold linvel_jac. destruct (hget h c) as [vc| |] eqn:Ec; cbn [obind withj]; [|split; [apply jrel_start|reflexivity]|split; [apply jrel_start|reflexivity]].
    assert (P : forall x w w', (w' = k * w)%R -> orel (fun _ => k) (let* v := hget h x in if l_const v then Ok mempty else diag_block (N:=RN) n (ksize (l_kind v)) i0 (ksize (l_kind vc)) w) (let* v := hget h x in if l_const v then Ok mempty else diag_block (N:=RN) n (ksize (l_kind v)) i0 (ksize (l_kind vc)) w')).
    { intros x w w' H. destruct (hget h x) as [v| |]; cbn [obind]; [|reflexivity|reflexivity]. destruct (l_const v); [apply srel_mempty|apply orel_diag_block; auto]. }
    apply jrel_setj; [apply orel_blk, srel_diagm; intros _; exact (neg_weight_dt _ _ _ _ K2)|]. apply jrel_setj; [apply P; exact K2|]. apply jrel_setj; [apply P; exact (neg_weight _ _ _ K2)|apply jrel_start].
  - destruct X as (-> & X). destruct (better_weight _ _ _ M0 X) as (k & K1 & K2). split; [reflexivity|]. split; [reflexivity|]. exists (fun _ => k). split; [auto|]. intros h.
    apply jrel_setj; [apply orel_blk, srel_mat36; intros _; exact K2|apply jrel_start].
  - destruct X as (E & X). injection E as -> -> ->. destruct (better_weight _ _ _ M0 X) as (k & K1 & K2). split; [reflexivity|]. split; [reflexivity|]. exists (fun _ => k). split; [auto|]. intros h.
    assert (K3 : (nneg (n:=RN) (ndiv nunit sigma0) = k * nneg (n:=RN) (ndiv nunit sigma))%R) by exact (neg_weight _ _ _ K2).
    apply jrel_setj; [apply orel_blk, srel_diagm; intros _; exact K3|]. apply jrel_setj; [apply orel_blk, srel_mat36; intros _; exact K2|]. apply jrel_setj; [apply orel_blk, srel_mat36; intros _; exact K3|apply jrel_start].
  - destruct X as (-> & X & Y). destruct (better_weight _ _ _ M0 X) as (k & K1 & K2). destruct (better_weight _ _ _ M0 Y) as (m & M1 & M2). split; [reflexivity|]. split; [reflexivity|]. exists (fun i => if i <? 2 then k else m). split; [intros i; destruct (i <? 2); auto|]. intros h.
    apply jrel_setj; [apply orel_blk, srel_diag2; [intros i Hi; apply Nat.ltb_lt in Hi; rewrite Hi; exact K2|exact M2]|apply jrel_start].
  - destruct X as (E & X & Y). injection E as -> -> ->. destruct (better_weight _ _ _ M0 X) as (k & K1 & K2). destruct (better_weight _ _ _ M0 Y) as (e & M1 & M2). split; [reflexivity|]. split; [reflexivity|]. exists (fun i => if i <? 2 then k else e). split; [intros i; destruct (i <? 2); auto|]. intros h.
    match goal with |- jrel ?kk _ _ => set (q := kk) end.
    assert (D1 : srel q (diag2 (N:=RN) (ndiv nunit psigma) (ndiv nunit asigma)) (diag2 (ndiv nunit psigma0) (ndiv nunit asigma0))).
    { apply srel_diag2; unfold q; [intros i Hi; apply Nat.ltb_lt in Hi; rewrite Hi; exact K2|exact M2]. }
    assert (D2 : srel q (diag2 (N:=RN) (nneg (ndiv nunit psigma)) (nneg (ndiv nunit asigma))) (diag2 (nneg (ndiv nunit psigma0)) (nneg (ndiv nunit asigma0)))).
    { apply srel_diag2; unfold q; [intros i Hi; apply Nat.ltb_lt in Hi; rewrite Hi; exact (neg_weight _ _ _ K2)|exact (neg_weight _ _ _ M2)]. }
    apply jrel_setj; [apply orel_blk; exact D2|]. apply jrel_setj; [apply orel_blk; exact D1|]. apply jrel_setj; [apply orel_blk; exact D2|apply jrel_start].
Qed.

Lemma better_answers m0 {S S' : Type} (SV : solver RN S) (SV' : solver RN S') (EV EV' : nat -> env (N:=RN) (V:=lvar RN)) (HE : forall n, env_ok (EV n)) (HE' : forall n, env_ok (EV' n)) (HF : factorising_solver SV) (HF' : factorising_solver SV')
  l1 l1' l2 l2' h1 h1' g1 g1' (p p' : pstate (N:=RN) (V:=lvar RN) (S:=S)) (q q' : pstate (N:=RN) (V:=lvar RN) (S:=S')) (lfs lfs' : list (lib_factor RN)) :
  finalized_history (lib RN) l1 l2 h1 (p_heap p) g1 (p_graph p) -> unfinalized (lib RN) ([], empty_graph) l1 -> careful ([], empty_graph) l1 -> careful (h1, g1) l2 ->
  finalized_history (lib RN) l1' l2' h1' (p_heap q) g1' (p_graph q) -> unfinalized (lib RN) ([], empty_graph) l1' -> careful ([], empty_graph) l1' -> careful (h1', g1') l2' ->
  let vs := get_all_variables (p_graph p) in let fs := get_all_factors (p_graph p) in let vs' := get_all_variables (p_graph q) in let fs' := get_all_factors (p_graph q) in
  still_there (lib RN) (p_heap p) (p_heap q) -> (forall a, In a vs <-> In a vs') -> fs = map build lfs -> Permutation fs' (map build lfs') -> (0 < m0)%R -> Forall2 (better_design (at_most m0)) lfs lfs' ->
  Forall (factor_wf (lib RN) (p_heap p) vs) fs -> some_active (lib RN) (p_heap p) fs -> Forall (factor_wf (lib RN) (p_heap q) vs') fs' -> some_active (lib RN) (p_heap q) fs' ->
  st_method (p_set p) = GaussNewton \/ (forall a v, nth_error (p_heap p) a = Some v -> real_kind (l_kind v)) ->
  st_method (p_set q) = GaussNewton \/ (forall a v, nth_error (p_heap q) a = Some v -> real_kind (l_kind v)) ->
  1 <= st_max_iter (p_set p) -> 1 <= st_max_iter (p_set q) -> p_hvalid p = false -> p_hvalid q = false ->
  optimize (lib RN) SV EV p = (p', Ok tt) -> optimize (lib RN) SV' EV' q = (q', Ok tt) -> p_caught p' = false -> p_caught q' = false ->
  exists p1 q1, prepare SV p' = (p1, Ok tt) /\ prepare SV' q' = (q1, Ok tt) /\
    (forall b, In b vs -> 0 < width (lib RN) (p_heap p) b -> (1 <= / (m0 * m0))%R -> no_larger (snd (estimate_covariance (lib RN) SV (Some b) p1)) (snd (estimate_covariance (lib RN) SV' (Some b) q1))) /\
    forall b P Q, In b vs -> 0 < width (lib RN) (p_heap p) b -> snd (estimate_covariance (lib RN) SV (Some b) p1) = Ok (Some P) -> snd (estimate_covariance (lib RN) SV' (Some b) q1) = Ok (Some Q) ->
      mrows Q = mrows P /\ mcols Q = mcols P /\ forall z : list R, (/ (m0 * m0) * quad_form Q z <= quad_form P z)%R.
Proof.
  intros A B C1 C2 A' B' C1' C2' vs fs vs' fs' Th Gv Ef Pf M0 Ds W Ac W' Ac' Hm Hm' Hn Hn' Hv Hv' E E' Hc Hc'.
  destruct (lib_history _ _ _ _ _ _ A C1 C2) as (G1 & G2). destruct (lib_history _ _ _ _ _ _ A' C1' C2') as (G1' & G2').
  destruct (held_answers (lib RN) SV EV lib_ok HE HF (fun v => real_kind (l_kind v)) l1 l2 h1 g1 p p' A B W Ac G1 G2 (traceable_undoable p Hm) Hn Hv E Hc) as (Nd & Hl & h & p1 & R1 & P1 & An & _).
  destruct (held_answers (lib RN) SV' EV' lib_ok HE' HF' (fun v => real_kind (l_kind v)) l1' l2' h1' g1' q q' A' B' W' Ac' G1' G2' (traceable_undoable q Hm') Hn' Hv' E' Hc') as (Nd' & Hl' & h' & q1 & R1' & P1' & An' & _).
  fold vs fs in Nd, Hl, An. fold vs' fs' in Nd', Hl', An'. exists p1, q1. split; [exact P1|]. split; [exact P1'|].
  pose proof (revalued_hpres (lib RN) lib_ok _ _ R1) as T1. pose proof (hpres_trans (lib RN) true _ _ _ (proj1 (there_hpres (lib RN) _ _) Th) (revalued_hpres (lib RN) lib_ok _ _ R1')) as T2.
  assert (Wl : forall k a, hpres (lib RN) true (p_heap p) k -> In a vs -> width (lib RN) k a = width (lib RN) (p_heap p) a).
  { intros k a T Ha. rewrite Forall_forall in Hl. specialize (Hl a Ha). unfold width. destruct (nth_error (p_heap p) a) as [v|] eqn:Ev; [|apply nth_error_None in Ev; unfold addr in *; lia]. destruct (T a v Ev) as (v' & -> & _ & Sz & C). rewrite (C eq_refl), Sz. reflexivity. }
  assert (Kn : Forall2 (keener h h' (/ (m0 * m0))) fs (map build lfs')).
  { rewrite Ef. assert (Lv : forall f, In f lfs -> forall a, In (Some a) (f_vars (build f)) -> a < length (p_heap p)).
    { intros f Hf a Ha. rewrite Forall_forall in W. destruct (W (build f)) as (_ & W1 & _); [rewrite Ef; apply in_map; exact Hf|]. destruct (W1 _ Ha) as (b & v & X & Y & _). injection X as <-. apply nth_error_Some. congruence. }
    clear - Ds T1 T2 Lv M0. induction Ds as [|f f' l l' D _ IH]; cbn [map]; constructor; [|apply IH; intros e He; apply Lv; right; exact He].
    destruct (better_build m0 f f' M0 D) as (X1 & X2 & k & K1 & X3). split; [exact X1|]. exists k. split; [exact K1|]. intros a i c. rewrite (jrel_deriv k (build f) (build f') h' X2 (X3 h')). f_equal. unfold deriv.
    pose proof (Lv f (or_introl eq_refl)) as La. destruct (better_free _ f f' D) as (Vf & _). rewrite (free_jacobian _ _ f Vf T1 La), (free_jacobian _ _ f Vf T2 La). reflexivity. }
  assert (Wd : forall a, In a vs -> width (lib RN) h' a = width (lib RN) h a) by (intros a Ha; rewrite (Wl h' a T2 Ha), (Wl h a T1 Ha); reflexivity).
  assert (C0 : (0 < / (m0 * m0))%R) by (apply Rinv_0_lt_compat; nra). split.
  - intros b Hb Wb Hm1. refine (answers_keen (lib RN) h h' vs vs' fs (map build lfs') fs' Nd Nd' Gv Pf Wd _ C0 Kn _ _ Hm1 An An' b Hb _). rewrite (Wl h b T1 Hb). exact Wb.
  - intros b P Q Hb Wb EP EQ. refine (answers_times (lib RN) h h' vs vs' fs (map build lfs') fs' Nd Nd' Gv Pf Wd _ C0 Kn _ _ An An' b P Q Hb _ EP EQ). rewrite (Wl h b T1 Hb). exact Wb.
Qed.
Lemma no_worse_one f f' : better_design no_worse f f' -> better_design (at_most 1) f f'.
Proof.
  assert (H : forall s s', no_worse s s' -> at_most 1 s s') by (unfold no_worse, at_most; intros; lra).
  destruct f, f'; cbn [better_design]; try contradiction; try (destruct loc; try contradiction; destruct loc0; try contradiction); intuition auto.
Qed.
Theorem better_covariances {S S' : Type} (SV : solver RN S) (SV' : solver RN S') (EV EV' : nat -> env (N:=RN) (V:=lvar RN)) (HE : forall n, env_ok (EV n)) (HE' : forall n, env_ok (EV' n)) (HF : factorising_solver SV) (HF' : factorising_solver SV')
  l1 l1' l2 l2' h1 h1' g1 g1' (p p' : pstate (N:=RN) (V:=lvar RN) (S:=S)) (q q' : pstate (N:=RN) (V:=lvar RN) (S:=S')) (lfs lfs' : list (lib_factor RN)) :
  finalized_history (lib RN) l1 l2 h1 (p_heap p) g1 (p_graph p) -> unfinalized (lib RN) ([], empty_graph) l1 -> careful ([], empty_graph) l1 -> careful (h1, g1) l2 ->
  finalized_history (lib RN) l1' l2' h1' (p_heap q) g1' (p_graph q) -> unfinalized (lib RN) ([], empty_graph) l1' -> careful ([], empty_graph) l1' -> careful (h1', g1') l2' ->
  let vs := get_all_variables (p_graph p) in let fs := get_all_factors (p_graph p) in let vs' := get_all_variables (p_graph q) in let fs' := get_all_factors (p_graph q) in
  still_there (lib RN) (p_heap p) (p_heap q) -> (forall a, In a vs <-> In a vs') -> fs = map build lfs -> Permutation fs' (map build lfs') -> Forall2 (better_design no_worse) lfs lfs' ->
  Forall (factor_wf (lib RN) (p_heap p) vs) fs -> some_active (lib RN) (p_heap p) fs -> Forall (factor_wf (lib RN) (p_heap q) vs') fs' -> some_active (lib RN) (p_heap q) fs' ->
  st_method (p_set p) = GaussNewton \/ (forall a v, nth_error (p_heap p) a = Some v -> real_kind (l_kind v)) ->
  st_method (p_set q) = GaussNewton \/ (forall a v, nth_error (p_heap q) a = Some v -> real_kind (l_kind v)) ->
  1 <= st_max_iter (p_set p) -> 1 <= st_max_iter (p_set q) -> p_hvalid p = false -> p_hvalid q = false ->
  optimize (lib RN) SV EV p = (p', Ok tt) -> optimize (lib RN) SV' EV' q = (q', Ok tt) -> p_caught p' = false -> p_caught q' = false ->
  exists p1 q1, prepare SV p' = (p1, Ok tt) /\ prepare SV' q' = (q1, Ok tt) /\
    forall b, In b vs -> 0 < width (lib RN) (p_heap p) b -> no_larger (snd (estimate_covariance (lib RN) SV (Some b) p1)) (snd (estimate_covariance (lib RN) SV' (Some b) q1)).
Proof.
  intros A B C1 C2 A' B' C1' C2' vs fs vs' fs' Th Gv Ef Pf Ds W Ac W' Ac' Hm Hm' Hn Hn' Hv Hv' E E' Hc Hc'.
  assert (Ds1 : Forall2 (better_design (at_most 1)) lfs lfs') by (clear - Ds; induction Ds; constructor; auto using no_worse_one). clear Ds. rename Ds1 into Ds.
  destruct (better_answers 1%R SV SV' EV EV' HE HE' HF HF' _ _ _ _ _ _ _ _ p p' q q' lfs lfs' A B C1 C2 A' B' C1' C2' Th Gv Ef Pf Rlt_0_1 Ds W Ac W' Ac' Hm Hm' Hn Hn' Hv Hv' E E' Hc Hc') as (p1 & q1 & H1 & H2 & G & _).
  exists p1, q1. split; [exact H1|]. split; [exact H2|]. intros b Hb Wb. apply (G b Hb Wb). rewrite Rmult_1_r, Rinv_1. lra.
Qed.
Theorem times_covariances {S S' : Type} (SV : solver RN S) (SV' : solver RN S') (EV EV' : nat -> env (N:=RN) (V:=lvar RN)) (HE : forall n, env_ok (EV n)) (HE' : forall n, env_ok (EV' n)) (HF : factorising_solver SV) (HF' : factorising_solver SV') (m : R)
  l1 l1' l2 l2' h1 h1' g1 g1' (p p' : pstate (N:=RN) (V:=lvar RN) (S:=S)) (q q' : pstate (N:=RN) (V:=lvar RN) (S:=S')) (lfs lfs' : list (lib_factor RN)) :
  finalized_history (lib RN) l1 l2 h1 (p_heap p) g1 (p_graph p) -> unfinalized (lib RN) ([], empty_graph) l1 -> careful ([], empty_graph) l1 -> careful (h1, g1) l2 ->
  finalized_history (lib RN) l1' l2' h1' (p_heap q) g1' (p_graph q) -> unfinalized (lib RN) ([], empty_graph) l1' -> careful ([], empty_graph) l1' -> careful (h1', g1') l2' ->
  let vs := get_all_variables (p_graph p) in let fs := get_all_factors (p_graph p) in let vs' := get_all_variables (p_graph q) in let fs' := get_all_factors (p_graph q) in
  still_there (lib RN) (p_heap p) (p_heap q) -> (forall a, In a vs <-> In a vs') -> fs = map build lfs -> Permutation fs' (map build lfs') -> (0 < m)%R -> Forall2 (better_design (at_most m)) lfs lfs' ->
  Forall (factor_wf (lib RN) (p_heap p) vs) fs -> some_active (lib RN) (p_heap p) fs -> Forall (factor_wf (lib RN) (p_heap q) vs') fs' -> some_active (lib RN) (p_heap q) fs' ->
  st_method (p_set p) = GaussNewton \/ (forall a v, nth_error (p_heap p) a = Some v -> real_kind (l_kind v)) ->
  st_method (p_set q) = GaussNewton \/ (forall a v, nth_error (p_heap q) a = Some v -> real_kind (l_kind v)) ->
  1 <= st_max_iter (p_set p) -> 1 <= st_max_iter (p_set q) -> p_hvalid p = false -> p_hvalid q = false ->
  optimize (lib RN) SV EV p = (p', Ok tt) -> optimize (lib RN) SV' EV' q = (q', Ok tt) -> p_caught p' = false -> p_caught q' = false ->
  exists p1 q1, prepare SV p' = (p1, Ok tt) /\ prepare SV' q' = (q1, Ok tt) /\
    forall b P Q, In b vs -> 0 < width (lib RN) (p_heap p) b -> snd (estimate_covariance (lib RN) SV (Some b) p1) = Ok (Some P) -> snd (estimate_covariance (lib RN) SV' (Some b) q1) = Ok (Some Q) ->
      mrows Q = mrows P /\ mcols Q = mcols P /\ forall z : list R, (quad_form Q z <= m * m * quad_form P z)%R.
Proof.
  intros A B C1 C2 A' B' C1' C2' vs fs vs' fs' Th Gv Ef Pf M0 Ds W Ac W' Ac' Hm Hm' Hn Hn' Hv Hv' E E' Hc Hc'.
  destruct (better_answers m SV SV' EV EV' HE HE' HF HF' _ _ _ _ _ _ _ _ p p' q q' lfs lfs' A B C1 C2 A' B' C1' C2' Th Gv Ef Pf M0 Ds W Ac W' Ac' Hm Hm' Hn Hn' Hv Hv' E E' Hc Hc') as (p1 & q1 & H1 & H2 & _ & G).
  exists p1, q1. split; [exact H1|]. split; [exact H2|]. intros b P Q Hb Wb EP EQ. destruct (G b P Q Hb Wb EP EQ) as (R1 & R2 & U). split; [exact R1|]. split; [exact R2|]. intros z. specialize (U z).
  apply (Rmult_le_compat_l (m * m)) in U; [|nra]. rewrite <- Rmult_assoc, Rinv_r, Rmult_1_l in U by nra. exact U.
Qed.
