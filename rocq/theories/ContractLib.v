(** Vectors and points with priors, differences and velocities are linear problems. *)
From Coq Require Import List Arith ZArith QArith Bool Reals Lra Lia.
From Verif Require Import Base Sparse Graph SpecGraph SpecOpt ListLemmas GraphLayout GraphFin Optimizer OptMore Geom Vars VarsLemmas FactorsLin FactorsLinFacts FactorsGeo SpecFactor FactorLib SpecShape FactorShape FactorSafe Real RSum SpecSolver SpecSteps OptStepsLib NumJacReal SpecRest OptSteps CovRun SpecContract ContractRun.
Import ListNotations.
Local Open Scope nat_scope.
Set Bullet Behavior "Strict Subproofs".

Lemma affine_more {V : Type} (VC : vclass RN V) (h : @heap V) l vs f js : (forall a v, In a l -> nth_error h a = Some v -> vconst VC v = false -> In a vs) ->
  affine_at VC h (l ++ vs) f js -> affine_at VC h vs f js.
Proof.
  intros Hl A h' (L & R). apply A. split; [exact L|]. intros a v Hv. destruct (R a v Hv) as (v' & R1 & R2 & R3 & R4 & R5 & R6). exists v'. repeat (split; [assumption|]). split.
  - intros [C|N]; apply R5; [left; exact C|right]. intros H. apply N. apply in_or_app. right. exact H.
  - intros C Ha. apply R6; [exact C|]. apply in_app_or in Ha. destruct Ha as [Ha|Ha]; [|exact Ha]. eapply Hl; eauto.
Qed.

(** ** LinearVelocityFactor *)
Lemma nth_times (x : list R) dt i : nth i (map (fun y => y * dt)%R x) 0%R = (nth i x 0 * dt)%R.
Proof. revert i. induction x as [|y x IH]; intros [|i]; cbn; try lra; auto. Qed.
Definition vel_mat (n m i0 : nat) (w : R) : mat RN := Mat (N:=RN) n m (fun i j => if ((j =? i0 + i) && (i <? n)) then w else nzero (N:=RN)).
Definition vel_part (v : lvar RN) (n i0 : nat) (w : R) : mat RN :=
  if l_const v then mempty else vel_mat n (ksize (l_kind v)) i0 w.
Definition vel_blocks (va vb vc : lvar RN) (n i0 : nat) (dt w : R) : list (mat RN) :=
  [vel_part va n i0 (- w)%R; vel_part vb n i0 w; if l_const vc then mempty else diagm n (- w * dt)%R].
Lemma vel_jac_value a b c n i0 (dt w : R) (h : @heap (lvar RN)) va vb vc : nth_error h a = Some va -> nth_error h b = Some vb -> nth_error h c = Some vc ->
  i0 + n <= ksize (l_kind va) -> i0 + n <= ksize (l_kind vb) -> ksize (l_kind vc) = n ->
  linvel_jac a b c n i0 dt w h [] = (vel_blocks va vb vc n i0 dt w, Ok tt).
Proof.
  intros Ha Hb Hc La Lb Lc. unfold linvel_jac, blk, block_for, hget, diag_block, vel_blocks, vel_part. rewrite Ha, Hb, Hc. cbn [withj obind]. rewrite Lc.
  assert (Q : forall v : lvar RN, i0 + n <= ksize (l_kind v) -> ((n <=? n) && (i0 + n <=? ksize (l_kind v))) = true) by (intros v H; rewrite Nat.leb_refl; apply Nat.leb_le in H; rewrite H; reflexivity).
  rewrite (Q _ La), (Q _ Lb). change (vconst (lib RN) vc) with (l_const vc). destruct (l_const va), (l_const vb), (l_const vc); reflexivity.
Qed.
Lemma vel_value a b c n i0 (dt w : R) (h : @heap (lvar RN)) va vb vc : nth_error h a = Some va -> nth_error h b = Some vb -> nth_error h c = Some vc ->
  i0 + n <= length (kval (l_kind va)) -> i0 + n <= length (kval (l_kind vb)) -> length (kval (l_kind vc)) = n ->
  exists r : list R, linvel_ref a b c n i0 dt w h = Ok r /\ length r = n /\
    forall i, i < n -> nth i r 0%R = (w * (nth (i0 + i) (kval (l_kind vb)) 0 - nth (i0 + i) (kval (l_kind va)) 0 - nth i (kval (l_kind vc)) 0 * dt))%R.
Proof.
  intros Ha Hb Hc La Lb Lc. unfold linvel_ref, value_at, hget, segment. rewrite Ha, Hb, Hc. cbn [obind].
  rewrite (proj2 (Nat.leb_le _ _) La), (proj2 (Nat.leb_le _ _) Lb). cbn [obind]. unfold vec_minus.
  set (sa := firstn n (skipn i0 (kval (l_kind va)))). set (sb := firstn n (skipn i0 (kval (l_kind vb)))).
  assert (Lsa : length sa = n) by (unfold sa; rewrite firstn_length, skipn_length; lia).
  assert (Lsb : length sb = n) by (unfold sb; rewrite firstn_length, skipn_length; lia).
  assert (Lab : length (vsub (N:=RN) sb sa) = n) by (etransitivity; [apply vsub_length|]; change (car RN) with R in *; lia).
  set (vt := map (fun x : R => (x * dt)%R) (kval (l_kind vc))).
  assert (Lv : length vt = n) by (unfold vt; rewrite map_length; exact Lc).
  match goal with |- context [if ?x then _ else _] => replace x with true by (symmetry; apply Nat.eqb_eq; exact (eq_trans Lab (eq_sym Lv))) end. cbn [obind].
  eexists. split; [reflexivity|]. split; [etransitivity; [apply vscale_length|]; etransitivity; [apply vsub_length|]; exact (eq_trans (f_equal2 Nat.min Lab Lv) (Nat.min_id n))|].
  intros i Hi. assert (Ts : forall x : list R, nth i (firstn n (skipn i0 x)) 0%R = nth (i0 + i) x 0%R).
  { intros x. rewrite !OptLinear.nth_nth_error, nth_error_firstn_lt by exact Hi. rewrite nth_error_skipn_plus. reflexivity. }
  change (car RN) with R in *. rewrite (nth_vscale w), (nth_vsub _ vt) by (first [exact (eq_trans Lab (eq_sym Lv))|rewrite Lab; exact Hi]). rewrite (nth_vsub sb sa) by (first [exact (eq_trans Lsb (eq_sym Lsa))|rewrite Lsb; exact Hi]). unfold sa, sb. rewrite !Ts. do 2 f_equal.
  exact (nth_times (kval (l_kind vc)) dt i).
Qed.
Lemma part_sum n i0 (w : R) m (f : nat -> R) i : i < n -> i0 + n <= m -> rsum m (fun c => mat_at (vel_mat n m i0 w) i c * f c)%R = (w * f (i0 + i)%nat)%R.
Proof.
  intros Hi Hm. rewrite (rsum_single m (i0 + i)); [|lia|].
  - unfold vel_mat; cbn [mat_at]. rewrite Nat.eqb_refl, (proj2 (Nat.ltb_lt _ _) Hi). reflexivity.
  - intros k _ Hk. unfold vel_mat; cbn [mat_at]. rewrite (proj2 (Nat.eqb_neq _ _) Hk). cbn [andb]. change ((nzero (N:=RN) : R) * f k = 0)%R. rewrite lit_zero. lra.
Qed.
Lemma vel_affine id a b c n dt sigma i0 (h : @heap (lvar RN)) vs va vb vc : nth_error h a = Some va -> nth_error h b = Some vb -> nth_error h c = Some vc ->
  In a vs /\ In b vs /\ In c vs -> in_shape (l_kind va) -> in_shape (l_kind vb) -> in_shape (l_kind vc) ->
  i0 + n <= ksize (l_kind va) -> i0 + n <= ksize (l_kind vb) -> ksize (l_kind vc) = n ->
  affine_at (lib RN) h vs (linear_velocity id a b c n dt sigma i0) (vel_blocks va vb vc n i0 dt (nunit (N:=RN) / sigma)%R).
Proof.
  intros Ha Hb Hc (Ia & Ib & Ic) Wa Wb Wc La Lb Lc h' (_ & Hr). set (w := (nunit (N:=RN) / sigma)%R).
  destruct (Hr a va Ha) as (va' & Ha' & _ & _ & _ & Ka & Na). destruct (Hr b vb Hb) as (vb' & Hb' & _ & _ & _ & Kb & Nb). destruct (Hr c vc Hc) as (vc' & Hc' & _ & _ & _ & Kc & Nc).
  unfold in_shape in *. cbn [vval vconst vsize lib] in Na, Nb, Nc, Ka, Kb, Kc.
  assert (La' : length (kval (l_kind va')) = ksize (l_kind va)) by (destruct (l_const va) eqn:E; [rewrite Ka by auto; auto|apply Na; auto]).
  assert (Lb' : length (kval (l_kind vb')) = ksize (l_kind vb)) by (destruct (l_const vb) eqn:E; [rewrite Kb by auto; auto|apply Nb; auto]).
  assert (Lc' : length (kval (l_kind vc')) = ksize (l_kind vc)) by (destruct (l_const vc) eqn:E; [rewrite Kc by auto; auto|apply Nc; auto]).
  destruct (vel_value a b c n i0 dt w h va vb vc Ha Hb Hc) as (r & E1 & L1 & Q1); [lia..|].
  destruct (vel_value a b c n i0 dt w h' va' vb' vc' Ha' Hb' Hc') as (r' & E2 & L2 & Q2); [lia..|].
  exists r, r'. split; [exact E1|]. split; [exact E2|]. split; [exact L1|]. split; [exact L2|]. intros i Hi. cbn in Hi. pose proof (Q1 i Hi) as X1. pose proof (Q2 i Hi) as X2. change (car RN) with R in *. rewrite X1, X2.
  unfold block_term. cbn [linear_velocity f_vars length rsum nth_error]. rewrite Ha, Ha', Hb, Hb', Hc, Hc'. unfold vel_blocks, vel_part. cbn [nth_error vconst vval vsize lib].
  destruct (l_const va) eqn:Ea; [rewrite Ka by auto|rewrite (part_sum n i0 (- w) _ _ i Hi La)];
  (destruct (l_const vb) eqn:Eb; [rewrite Kb by auto|rewrite (part_sum n i0 w _ _ i Hi Lb)]);
  (destruct (l_const vc) eqn:Ec; [rewrite Kc by auto|rewrite Lc, (diag_sum n (- w * dt)%R) by auto]); change (car RN) with R; ring.
Qed.

(** ** all *)
Lemma plain_additive (v : lvar RN) : in_shape (l_kind v) -> is_generic (l_kind v) \/ is_landmark (l_kind v) -> additive (lib RN) v.
Proof.
  intros W K. destruct v as [id c k]. apply (vector_additive [LVar id c k] 0 (kval k) (LVar id c k)); [|reflexivity]. exists id, c.
  destruct k; cbn in *; try tauto; right; (split; [exact W|reflexivity]).
Qed.
Lemma one_over (sigma : R) : @ndiv RN (@nunit RN) sigma = (1 / sigma)%R.
Proof. change ((nunit (N:=RN) : R) / sigma = 1 / sigma)%R. change (nunit (N:=RN)) with (nlit (n:=RN) (1#1)). rewrite lit_int. reflexivity. Qed.
Lemma class_affine h vs lf : well_used h lf -> linear_class lf -> factor_wf (lib RN) h vs (build lf) -> exists js, f_jac (build lf) h [] = (js, Ok tt) /\ affine_at (lib RN) h vs (build lf) js.
Proof.
  intros U C (_ & Wf & _).
  assert (In' : forall a v, In (Some a) (f_vars (build lf)) -> nth_error h a = Some v -> vconst (lib RN) v = false -> In a vs).
  { intros a v Ha Hv Cv. destruct (Wf _ Ha) as (b & w & Eb & Hw & X & _). injection Eb as <-. assert (w = v) by congruence. subst w. exact (proj1 (X Cv)). }
  destruct lf; try contradiction; cbn [well_used] in U; cbn [build] in *.
  - destruct U as (v & Hv & Wv & Sz). exists (gprior_blocks (lib RN) v (length prior) (1 / sigma)). split.
    + cbn [f_jac generic_prior]. erewrite gprior_jac_value by exact Hv. rewrite one_over. reflexivity.
    + apply (affine_more (lib RN) h [a]); [intros b w [<-|[]]; apply In'; left; reflexivity|]. apply gprior_affine; auto. left. reflexivity.
  - destruct U as ((va & Ha & Wa & Sa) & (vb & Hb & Wb & Sb) & (vd & Hd & Wd & Sd)). exists (gbetween_blocks (lib RN) va vb vd n (1 / sigma)). split.
    + cbn [f_jac generic_between]. erewrite gbetween_jac_value by eassumption. rewrite one_over. reflexivity.
    + apply (affine_more (lib RN) h [a; b; d]); [intros e w [<-|[<-|[<-|[]]]]; apply In'; cbn; auto|]. unfold in_shape, of_size in *. apply gbetween_affine; first [assumption|exact (eq_trans Wa Sa)|exact (eq_trans Wb Sb)|exact (eq_trans Wd Sd)|cbn; tauto].
  - destruct U as ((va & Ha & Wa & Sa) & (vb & Hb & Wb & Sb) & (vc & Hc & Wc & Sc)). exists (vel_blocks va vb vc n i0 dt (nunit (N:=RN) / sigma)%R). split.
    + cbn [f_jac linear_velocity]. apply vel_jac_value; assumption.
    + apply (affine_more (lib RN) h [a; b; c]); [intros e w [<-|[<-|[<-|[]]]]; apply In'; cbn; auto|]. apply vel_affine; first [assumption|cbn; tauto].
Qed.
Lemma class_jac h h' lf : linear_class lf -> hpres (lib RN) true h h' -> well_used h lf -> f_jac (build lf) h' [] = f_jac (build lf) h [].
Proof.
  intros C P U. assert (G : forall a v, nth_error h a = Some v -> exists v', nth_error h' a = Some v' /\ l_const v' = l_const v /\ ksize (l_kind v') = ksize (l_kind v)).
  { intros a v Hv. destruct (P a v Hv) as (v' & E & _ & Sz & K). exists v'. split; [exact E|]. split; [exact (K eq_refl)|exact Sz]. }
  destruct lf; try contradiction; cbn [well_used] in U; cbn [build].
  - destruct U as (v & Hv & _ & _). destruct (G a v Hv) as (v' & Hv' & Cv & _). cbn [f_jac generic_prior]. rewrite (gprior_jac_value _ _ _ _ _ _ Hv), (gprior_jac_value _ _ _ _ _ _ Hv'). unfold gprior_blocks. cbn [vconst lib]. rewrite Cv. reflexivity.
  - destruct U as ((va & Ha & _) & (vb & Hb & _) & (vd & Hd & _)). destruct (G a va Ha) as (va' & Ha' & Ca & _). destruct (G b vb Hb) as (vb' & Hb' & Cb & _). destruct (G d vd Hd) as (vd' & Hd' & Cd & _).
    cbn [f_jac generic_between]. rewrite (gbetween_jac_value _ _ _ _ _ _ _ _ _ _ Ha Hb Hd), (gbetween_jac_value _ _ _ _ _ _ _ _ _ _ Ha' Hb' Hd'). unfold gbetween_blocks. cbn [vconst lib]. rewrite Ca, Cb, Cd. reflexivity.
  - destruct U as ((va & Ha & _ & Sa) & (vb & Hb & _ & Sb) & (vc & Hc & _ & Sc)). destruct (G a va Ha) as (va' & Ha' & Ca & Za). destruct (G b vb Hb) as (vb' & Hb' & Cb & Zb). destruct (G c vc Hc) as (vc' & Hc' & Cc & Zc).
    unfold of_size in Sc. cbn [f_jac linear_velocity]. rewrite (vel_jac_value a b c n i0 dt _ h va vb vc Ha Hb Hc Sa Sb Sc), (vel_jac_value a b c n i0 dt _ h' va' vb' vc' Ha' Hb' Hc') by congruence || lia.
    unfold vel_blocks, vel_part. rewrite Ca, Cb, Cc, Za, Zb. reflexivity.
Qed.
Lemma vector_linear h vs fs : shapely h -> Forall (factor_wf (lib RN) h vs) fs -> shape_contract (lib RN) h fs -> vector_problem h vs fs -> linear_problem (lib RN) h vs fs.
Proof.
  intros Sh W Sc (Pv & Pf). split.
  - assert (X : exists jss, Forall2 (fun f js => f_jac f h [] = (js, Ok tt) /\ affine_at (lib RN) h vs f js) fs jss).
    { clear Sc. induction fs as [|f fs IH]; [exists []; constructor|]. inversion W; subst. destruct IH as (jss & IH); [assumption|intros g Hg; apply Pf; right; exact Hg|].
      destruct (Pf f (or_introl eq_refl)) as (lf & -> & C & U). destruct (class_affine h vs lf U C ltac:(assumption)) as (js & A & B). exists (js :: jss). constructor; auto. }
    destruct X as (jss & X). exists jss.
    assert (Sc' : forall f js, In f fs -> f_jac f h [] = (js, Ok tt) -> blocks_ok (lib RN) h (f_rsize f) (f_vars f) js) by (intros f js; apply Sc; constructor).
    clear -X Sc'. induction X as [|f js fs jss (A & B) X IH]; [split; constructor|]. destruct IH as (I1 & I2); [intros g k Hg; apply Sc'; right; exact Hg|].
    split; constructor; auto. split; [exact A|]. apply Sc'; [left; reflexivity|exact A].
  - intros h' Rv. destruct (revalued_lib _ _ Rv Sh) as ((Ex & Sh') & Cs). split.
    + intros a v Ha Hv Cv. destruct (Cs _ _ Hv) as (u & Hu & Cu). destruct (Ex _ _ Hu) as (v1 & Hv1 & Sm). assert (v1 = v) by congruence. subst v1.
      apply plain_additive; [exact (Sh' _ _ Hv)|]. cbn in Cv. specialize (Pv a u Ha Hu ltac:(congruence)). destruct (l_kind u), (l_kind v); cbn in *; tauto.
    + intros f Hf. destruct (Pf f Hf) as (lf & -> & C & U). apply class_jac; auto. exact (revalued_hpres (lib RN) lib_ok _ _ Rv).
Qed.
Lemma contracts_lib {S : Type} (SV : solver RN S) (EV : nat -> env (N:=RN) (V:=lvar RN)) (HE : forall n, env_ok (EV n)) (HF : factorising_solver SV)
  l1 l2 h1 g1 (p p' : pstate (N:=RN) (V:=lvar RN) (S:=S)) hs :
  finalized_history (lib RN) l1 l2 h1 (p_heap p) g1 (p_graph p) -> unfinalized (lib RN) ([], empty_graph) l1 -> careful ([], empty_graph) l1 -> careful (h1, g1) l2 ->
  let vs := get_all_variables (p_graph p) in let fs := get_all_factors (p_graph p) in
  Forall (factor_wf (lib RN) (p_heap p) vs) fs -> some_active (lib RN) (p_heap p) fs ->
  vector_problem (p_heap p) vs fs -> revalued (lib RN) (p_heap p) hs -> reassigned (lib RN) (p_heap p) hs vs -> stationary (lib RN) hs vs fs ->
  st_method (p_set p) = GaussNewton -> optimize (lib RN) SV EV p = (p', Ok tt) -> p_caught p' = false ->
  let q := ((1 - st_rate (p_set p)) ^ ss_iter (p_cur p'))%R in
  distance_scaled (lib RN) q vs hs (p_heap p) (p_heap p') /\
  forall rs, stacked hs fs rs ->
    (ss_chi2 (p_cur p') - sqnorm (N:=RN) rs = q * q * (ss_chi2 (p_init p') - sqnorm (N:=RN) rs))%R /\
    (0 < ss_iter (p_cur p') -> forall h r, reassigned (lib RN) (p_heap p) h vs -> stacked h fs r -> (sqnorm (N:=RN) rs <= sqnorm (N:=RN) r)%R).
Proof.
  intros A B C1 C2 vs fs W Ac Vp Rv Ra St Hm E Hc. destruct (lib_history _ _ _ _ _ _ A C1 C2) as (G1 & G2). destruct (sound_history _ _ _ _ _ _ A C1 C2) as (Sh & _). cbn [fst] in Sh.
  exact (contracts (lib RN) SV EV lib_ok HE HF l1 l2 h1 g1 p p' hs A B W Ac G1 G2 (vector_linear _ _ _ Sh W G2 Vp) Rv Ra St Hm E Hc).
Qed.
