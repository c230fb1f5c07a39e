(** Runs on graphs that float: Gauss-Newton refuses them, Levenberg-Marquardt keeps their centre. *)
From Coq Require Import List Arith ZArith Bool Reals Lra Lia.
From Verif Require Import Base ListLemmas Sparse Graph SpecGraph SpecOpt GraphVec GraphFin GraphLayout GraphDense Geom Vars VarsLemmas FactorLib SpecShape FactorShape FactorSafe Optimizer OptLemmas OptWork OptLM OptRun OptMore Real RSum
  SpecSolver SpecSteps SpecBlocks OptOrder SpecFactor GraphBasic OptLinear OptSteps OptStepsLib OptVerdict GaugeSum SpecGauge GaugeFactors.
Import ListNotations.
Local Open Scope nat_scope.
Set Bullet Behavior "Strict Subproofs".

Lemma history_nodup l1 l2 h1 (h : rheap) g1 g : finalized_history (lib RN) l1 l2 h1 h g1 g -> NoDup (get_all_variables g).
Proof. intros H. destruct (finalized_facts (lib RN) lib_ok _ _ _ _ _ _ H) as (_ & F & _). eapply vars_nodup; eauto. Qed.

(** no factor changes to first order *)
Lemma untouched_zero (h : rheap) tr vs (fs : list (factor (N:=RN) (V:=lvar RN))) J : NoDup vs -> Forall (factor_wf (lib RN) h vs) fs -> Forall (untouched h tr) fs ->
  jacobian_at (lib RN) h vs fs J -> forall f i, In f fs -> i < f_rsize f -> first_order (lib RN) h vs (fun a c => nth c (drift h tr a) 0%R) f i = 0%R.
Proof.
  intros Nd W U (jss & F & _) f i Hf Hi. rewrite Forall_forall in W, U. destruct (U f Hf) as (lf & -> & Wl & In0).
  assert (exists js, f_jac (build lf) h [] = (js, Ok tt)) as (js & E).
  { clear -F Hf. induction F as [|g js fs jss E F IH]; [destruct Hf|]. destruct Hf as [->|Hf]; eauto. }
  rewrite (first_order_response h (drift h tr) vs _ js i Nd (W _ Hf) E). exact (lib_blind h tr lf Wl In0 js i E Hi).
Qed.
Lemma drift_width (h : rheap) tr a c : c < width (lib RN) h a -> nth c (drift h tr a) 0%R = shift h tr a c.
Proof.
  intros Hc. unfold width in Hc. destruct (nth_error h a) as [v|] eqn:Hv; [|lia]. apply (drift_nth h tr a v c Hv). cbn [vconst vsize lib] in Hc. destruct (l_const v); [lia|exact Hc].
Qed.

Theorem floating_fails {S : Type} (SV : solver RN S) (EV : nat -> env (N:=RN) (V:=lvar RN)) :
  (forall n, env_ok (EV n)) -> factorising_solver SV ->
  forall l1 l2 h1 g1 (p p' : pstate (N:=RN) (V:=lvar RN) (S:=S)) tr,
  finalized_history (lib RN) l1 l2 h1 (p_heap p) g1 (p_graph p) -> unfinalized (lib RN) ([], empty_graph) l1 ->
  careful ([], empty_graph) l1 -> careful (h1, g1) l2 ->
  let vs := get_all_variables (p_graph p) in let fs := get_all_factors (p_graph p) in
  Forall (factor_wf (lib RN) (p_heap p) vs) fs -> some_active (lib RN) (p_heap p) fs ->
  Forall (untouched (p_heap p) tr) fs -> something_moves (p_heap p) tr vs ->
  st_method (p_set p) = GaussNewton -> 1 <= st_max_iter (p_set p) ->
  optimize (lib RN) SV EV p = (p', Ok tt) -> p_caught p' = false ->
  ss_status (p_cur p') = FAILED /\ p_heap p' = p_heap p /\ ss_iter (p_cur p') = 0.
Proof.
  intros HE HF l1 l2 h1 g1 p p' tr Hi Hu C1 C2 vs fs Hwf Hact Hun (a & c & Ha & Hc & Hs) Hm Hn E Hca. destruct (lib_history _ _ _ _ _ _ Hi C1 C2) as (B1 & B2).
  apply (gn_blind (lib RN) SV EV lib_ok HE HF l1 l2 h1 g1 p p' Hi Hu Hwf Hact B1 B2 Hm Hn); auto. intros J HJ.
  apply (first_order_unobservable (lib RN) (p_heap p) vs fs J (fun a c => nth c (drift (p_heap p) tr a) 0%R) HJ).
  - apply (untouched_zero _ _ _ _ J (history_nodup _ _ _ _ _ _ Hi) Hwf Hun HJ).
  - exists a, c. split; [exact Ha|]. split; [exact Hc|]. rewrite (drift_width _ _ _ _ Hc). exact Hs.
Qed.

(** ** damped steps are orthogonal to what the Jacobian does not see *)
Lemma damped_orthogonal l (J : mat RN) r x g : damped_solution l J r x -> (forall k, k < mrows J -> rsum (mcols J) (fun i => mat_at J k i * nth i g 0)%R = 0%R) ->
  (l * rsum (mcols J) (fun i => nth i g 0 * nth i x 0) = 0)%R.
Proof.
  intros (_ & X) G.
  assert (A : rsum (mcols J) (fun i => nth i g 0 * (rsum (mcols J) (fun j => rsum (mrows J) (fun k => mat_at J k i * mat_at J k j) * nth j x 0) + l * nth i x 0))%R =
              rsum (mcols J) (fun i => nth i g 0 * - rsum (mrows J) (fun k => mat_at J k i * nth k r 0))%R).
  { apply rsum_ext. intros i Hi. f_equal. exact (X i Hi). }
  rewrite (rsum_ext _ _ (fun i => rsum (mrows J) (fun k => mat_at J k i * nth i g 0 * rsum (mcols J) (fun j => mat_at J k j * nth j x 0)) + l * (nth i g 0 * nth i x 0))%R) in A.
  2: { intros i _. change (car RN) with R. rewrite Rmult_plus_distr_l. f_equal; [|ring]. rewrite <- rsum_scal.
       rewrite (rsum_ext (mcols J) _ (fun j => rsum (mrows J) (fun k => mat_at J k i * nth i g 0 * (mat_at J k j * nth j x 0)))%R).
       2: { intros j _. rewrite <- rsum_scal_r, <- rsum_scal. apply rsum_ext. intros k _. change (car RN) with R. match goal with |- ?a = ?b => change (@eq R a b) end. ring. }
       rewrite rsum_swap. apply rsum_ext. intros k _. apply rsum_scal. }
  rewrite rsum_plus, rsum_swap, rsum_scal in A.
  rewrite (rsum_zero (mrows J)) in A by (intros k Hk; rewrite rsum_scal_r, (G k Hk); apply Rmult_0_l).
  rewrite (rsum_ext (mcols J) (fun i => nth i g 0 * - rsum (mrows J) (fun k => mat_at J k i * nth k r 0))%R (fun i => rsum (mrows J) (fun k => mat_at J k i * nth i g 0 * - nth k r 0)%R)) in A.
  2: { intros i _. change (car RN) with R. rewrite Ropp_mult_distr_r_reverse. rewrite <- (Rmult_1_l (rsum (mrows J) _)), Ropp_mult_distr_l, <- Rmult_assoc, <- rsum_scal. apply rsum_ext. intros k _. match goal with |- ?a = ?b => change (@eq R a b) end. ring. }
  rewrite rsum_swap, (rsum_zero (mrows J) (fun k => rsum (mcols J) (fun i => mat_at J k i * nth i g 0 * - nth k r 0)%R)) in A by (intros k Hk; rewrite rsum_scal_r, (G k Hk); apply Rmult_0_l).
  rewrite Rplus_0_l in A. exact A.
Qed.

(** ** a step keeps classes and constness, hence what moves how *)
Definition kept (h h' : rheap) : Prop :=
  length h' = length h /\ forall a v, nth_error h a = Some v -> exists v', nth_error h' a = Some v' /\ same_class (l_kind v) (l_kind v') /\ l_const v' = l_const v /\ in_shape (l_kind v') /\ l_id v' = l_id v.
Lemma kept_at h h' a : kept h h' -> (nth_error h a = None /\ nth_error h' a = None) \/
  exists v v', nth_error h a = Some v /\ nth_error h' a = Some v' /\ same_class (l_kind v) (l_kind v') /\ l_const v' = l_const v.
Proof.
  intros (L & K). destruct (nth_error h a) as [v|] eqn:E.
  - destruct (K a v E) as (v' & A & B & C & _). right. exists v, v'. auto.
  - left. split; [reflexivity|]. apply nth_error_None in E. apply nth_error_None. lia.
Qed.
Lemma speed_kept h h' tr a c : kept h h' -> speed h' tr a c = speed h tr a c.
Proof. intros K. unfold speed. destruct (kept_at _ _ a K) as [(-> & ->)|(v & v' & -> & -> & _ & ->)]; reflexivity. Qed.
Lemma shift_kept h h' tr a c : kept h h' -> planes_stay h tr -> shift h' tr a c = shift h tr a c.
Proof.
  intros K P. unfold shift. rewrite !(speed_kept h h') by exact K. destruct (kept_at _ _ a K) as [(-> & ->)|(v & v' & E & -> & Sc & _)]; [reflexivity|]. rewrite E.
  destruct (l_kind v) as [x|x|x Rx|x Rx|o b lo hi x|n e|x] eqn:Ev, (l_kind v') as [y|y|y Ry|y Ry|o' b' lo' hi' y|n' e'|y]; cbn in Sc; try contradiction; try reflexivity.
  assert (Z : forall i, speed h tr a i = 0%R) by (intros i; unfold speed; rewrite E, (P a v n e E Ev); destruct (l_const v); reflexivity).
  rewrite !Z. destruct (c =? 3); ring.
Qed.
Lemma width_kept (h h' : rheap) a : kept h h' -> width (lib RN) h' a = width (lib RN) h a.
Proof.
  intros K. unfold width. destruct (kept_at _ _ a K) as [(-> & ->)|(v & v' & -> & -> & Sc & Cv)]; [reflexivity|]. cbn [vconst vsize lib]. rewrite Cv, (same_class_size _ _ Sc). reflexivity.
Qed.
Lemma planes_kept h h' tr : kept h h' -> planes_stay h tr -> planes_stay h' tr.
Proof.
  intros K P a v' n e E Ev c. destruct (kept_at _ _ a K) as [(_ & X)|(v & w & A & B & Sc & _)]; [congruence|]. assert (w = v') as -> by congruence.
  destruct (l_kind v) as [x|x|x Rx|x Rx|o b lo hi x|n0 e0|x] eqn:E0; rewrite Ev in Sc; cbn in Sc; try contradiction. exact (P a v n0 e0 A E0 c).
Qed.
Lemma indifferent_kept h h' tr f : kept h h' -> planes_stay h tr -> indifferent h tr f -> indifferent h' tr f.
Proof.
  intros K P. pose proof (fun a c => shift_kept h h' tr a c K P) as Sh. pose proof (fun a c => speed_kept h h' tr a c K) as Sp.
  destruct f; cbn [indifferent]; unfold still, together; try (intros H; exact H);
    try (destruct sc); intros H; repeat match goal with H : _ /\ _ |- _ => destruct H end; repeat split; intros; rewrite ?Sh, ?Sp; auto.
Qed.
Lemma untouched_kept h h' tr f : kept h h' -> planes_stay h tr -> untouched h tr f -> untouched h' tr f.
Proof.
  intros K P (lf & -> & W & I). exists lf. split; [reflexivity|]. split; [|exact (indifferent_kept _ _ _ _ K P I)].
  apply (well_used_kept h h' lf); [| |exact W].
  - intros a v H. destruct K as (_ & K). destruct (K a v H) as (v' & A & B & _). eauto.
  - intros a v' H. destruct K as (L & K). destruct (nth_error h a) as [v|] eqn:E; [|apply nth_error_None in E; assert (a < length h') by (apply nth_error_Some; congruence); lia].
    destruct (K a v E) as (w & A & _ & _ & B & _). congruence.
Qed.

(** one step: the centre moves by the inner product of the velocities with the step *)
Lemma element_inc (v v' : lvar RN) dx c : in_shape (l_kind v) -> with_kind v (kinc (l_kind v) dx) = Ok v' -> c < ksize (l_kind v) ->
  match l_kind v with KGeneric _ | KLandmark _ => True | KPose _ _ => c < 3 | KPose2 _ => c < 2 | _ => False end ->
  nth c (kval (l_kind v')) 0%R = (nth c (kval (l_kind v)) 0 + nth c dx 0)%R.
Proof.
  intros Sh H Hc Hk. apply VarsLemmas.with_kind_ok in H. destruct H as (k' & H & ->). cbn [l_kind]. unfold in_shape in Sh.
  assert (A : forall (x y : list R) c, length x = length y -> c < length x -> nth c (vadd (N:=RN) x y) 0%R = (nth c x 0 + nth c y 0)%R).
  { clear. induction x as [|a x IH]; intros [|b y] c L Hc; cbn in *; try lia. destruct c as [|c]; [reflexivity|]. apply IH; lia. }
  destruct (l_kind v) as [x|x|x Rx|x Rx|o b lo hi x|n0 e0|x]; try contradiction; cbn [kinc kval ksize] in *.
  - destruct (Nat.eqb_spec (length dx) (length x)); [|discriminate]. injection H as <-. cbn. apply A; [symmetry; assumption|exact Hc].
  - destruct (length dx =? 3) eqn:Ed; [|discriminate]. unfold vec_plus in H. destruct (length x =? length dx) eqn:El; [|discriminate]. cbn in H. injection H as <-. cbn. apply Nat.eqb_eq in El. apply A; [exact El|]. cbn in *. lia.
  - destruct (Nat.eqb_spec (length dx) 6); [|discriminate]. destruct (length x <? 6); [discriminate|]. injection H as <-.
    do 7 (destruct x as [|? x]; try discriminate). do 7 (destruct dx as [|? dx]; try discriminate). destruct c as [|[|[|c]]]; [| | |lia]; reflexivity.
  - destruct (Nat.eqb_spec (length dx) 3); [|discriminate]. 
    do 4 (destruct x as [|? x]; try discriminate). do 4 (destruct dx as [|? dx]; try discriminate). cbn in H. injection H as <-. destruct c as [|[|c]]; [| |lia]; reflexivity.
Qed.

Lemma kept_hpres h h' : kept h h' -> hpres (lib RN) true h h'.
Proof. intros (_ & K) a v E. destruct (K a v E) as (v' & A & B & C & _ & D). exists v'. split; [exact A|]. split; [exact D|]. split; [symmetry; exact (same_class_size _ _ B)|intros _; exact C]. Qed.
Lemma kept_refl h : shapely h -> kept h h.
Proof. intros Sh. split; [reflexivity|]. intros a v E. exists v. split; [exact E|]. split; [apply same_class_refl|]. split; [reflexivity|]. split; [exact (Sh a v E)|reflexivity]. Qed.
Lemma kept_shapely h h' : kept h h' -> shapely h'.
Proof.
  intros (L & K) a v' H. destruct (nth_error h a) as [v|] eqn:E; [|apply nth_error_None in E; assert (a < length h') by (apply nth_error_Some; congruence); lia].
  destruct (K a v E) as (w & A & _ & _ & B & _). congruence.
Qed.
Lemma kept_trans h1 h2 h3 : kept h1 h2 -> kept h2 h3 -> kept h1 h3.
Proof.
  intros (L & K) (L' & K'). split; [congruence|]. intros a v E. destruct (K a v E) as (v' & A & B & C & _ & D). destruct (K' a v' A) as (w & A' & B' & C' & I & D').
  exists w. split; [exact A'|]. split; [eapply same_class_trans; eauto|]. split; [congruence|]. split; [exact I|congruence].
Qed.
Lemma updated_kept h h' vs (d : nat -> lvar RN -> list R) : shapely h -> updated (lib RN) h h' vs (fun k v => vinc (lib RN) v (d k v)) -> kept h h'.
Proof.
  intros Sh (L & U1 & U2). split; [exact L|]. intros a v E. destruct (l_const v) eqn:C.
  - exists v. split; [apply (U2 a v E); right; exact C|]. split; [apply same_class_refl|]. split; [exact C|]. split; [exact (Sh a v E)|reflexivity].
  - destruct (in_dec Nat.eq_dec a vs) as [Ha|Ha].
    + apply In_nth_error in Ha. destruct Ha as (k & Hk). destruct (U1 k a v Hk E C) as (v' & I & E'). exists v'. split; [exact E'|]. cbn [vinc lib] in I.
      pose proof I as I0. apply VarsLemmas.with_kind_ok in I0. destruct I0 as (k' & Ik & ->). destruct (kinc_keeps _ _ _ (Sh a v E) Ik) as (K1 & K2). cbn [l_kind l_const l_id]. auto.
    + exists v. split; [apply (U2 a v E); left; exact Ha|]. split; [apply same_class_refl|]. split; [exact C|]. split; [exact (Sh a v E)|reflexivity].
Qed.

Section Centre.
Variables (vs : list addr) (fs : list (factor (N:=RN) (V:=lvar RN))) (tr : addr -> nat -> R).
Hypothesis Nd : NoDup vs.
(** what holds of all heaps on the way *)
Definition floats (h : rheap) : Prop :=
  shapely h /\ Forall (fun a => a < length h) vs /\ Forall (factor_wf (lib RN) h vs) fs /\ Forall (untouched h tr) fs /\ planes_stay h tr.
Lemma floats_kept h h' : kept h h' -> floats h -> floats h'.
Proof.
  intros K (A & L & B & C & D). split; [exact (kept_shapely _ _ K)|]. split; [destruct K as (E & _); rewrite E; exact L|].
  split; [eapply Forall_impl; [|exact B]; intros f; eapply wf_pres; [apply kept_hpres; exact K|exact L]|].
  split; [eapply Forall_impl; [|exact C]; intros f; apply untouched_kept; auto|exact (planes_kept _ _ _ K D)].
Qed.
Lemma newton_centre rate l h h' : l <> 0%R -> floats h -> newton_step (lib RN) vs fs rate l h h' -> kept h h' /\ centre h tr vs h' = centre h tr vs h.
Proof.
  intros Hl (Sh & Lv & Wf & Un & Pl) (r & J & x & Hr & HJ & Hx & U). pose proof (updated_kept _ _ _ _ Sh U) as K. split; [exact K|].
  destruct (jacobian_parts (lib RN) _ _ _ _ HJ) as (R1 & R2 & R3). pose proof (proj1 Hx) as Lx. rewrite R2 in Lx.
  destruct (parts_of (width (lib RN) h) vs Nd x Lx) as (d & D). destruct (parts_to (width (lib RN) h) vs (fun a c => shift h tr a c)) as (g & Dg).
  assert (O : (l * rsum (mcols J) (fun i => nth i g 0 * nth i x 0) = 0)%R).
  { apply (damped_orthogonal l J r x g Hx). intros k Hk. rewrite R1 in Hk. destruct (part_of _ _ _ Hk) as (m & f & i & Hm & Hi & ->). rewrite R2.
    refine (eq_trans _ (untouched_zero h tr vs fs J Nd Wf Un HJ f i (nth_error_In _ _ Hm) Hi)).
    apply (parts_sum (width (lib RN) h) vs (fun b c => deriv h f b i c * nth c (drift h tr b) 0)%R). intros q b e Hq He.
    exact (f_equal2 Rmult (R3 m f q b i e Hm Hq Hi He) (eq_trans (proj2 Dg q b e Hq He) (eq_sym (drift_width h tr b e He)))). }
  assert (O2 : lsum vs (fun a => rsum (width (lib RN) h a) (fun c => shift h tr a c * d a c)%R) = 0%R).
  { rewrite R2 in O. rewrite (parts_sum (width (lib RN) h) vs (fun a c => shift h tr a c * d a c)%R) in O.
    - apply Rmult_integral in O. destruct O; [contradiction|assumption].
    - intros q b e Hq He. exact (f_equal2 Rmult (proj2 Dg q b e Hq He) (proj2 D q b e Hq He)). }
  transitivity (centre h tr vs h + rate * lsum vs (fun a => rsum (width (lib RN) h a) (fun c => shift h tr a c * d a c)%R))%R; [|rewrite O2; ring].
  unfold centre. assert (Ls : forall t (F : nat -> R), (t * lsum vs F)%R = lsum vs (fun a => t * F a)%R).
  { clear. intros t F. induction vs as [|a l IH]; unfold lsum in *; cbn; [ring|]. rewrite Rmult_plus_distr_l, IH. reflexivity. }
  rewrite Ls, <- lsum_plus. apply lsum_ext. intros a Ha. rewrite <- rsum_scal, <- rsum_plus. apply rsum_ext. intros c Hc.
  destruct (Req_dec (shift h tr a c) 0) as [Z|Z]; [rewrite Z; ring|].
  assert (element h' a c = element h a c + d a c * rate)%R as ->; [|ring].
  apply In_nth_error in Ha. destruct Ha as (k & Hk). unfold width in Hc. destruct (nth_error h a) as [v|] eqn:E; [|lia]. cbn [vconst vsize lib] in Hc. destruct (l_const v) eqn:C; [lia|].
  destruct U as (_ & U1 & _). destruct (U1 k a v Hk E C) as (v' & I & E'). cbn [vinc vsize lib] in I. unfold element. rewrite E, E'.
  assert (W : width (lib RN) h a = ksize (l_kind v)) by (unfold width; rewrite E; cbn [vconst vsize lib]; rewrite C; reflexivity).
  unfold col_start in I. rewrite <- W in I. pose proof (parts_slice (width (lib RN) h) vs _ _ k a (scaled_parts _ _ _ _ rate D) Hk) as Sl. change (car RN) with R in *. rewrite Sl, W in I.
  etransitivity; [apply (element_inc v v' _ c (Sh a v E) I Hc)|].
  2: { f_equal. rewrite (nth_indep _ 0%R ((fun c => d a c * rate)%R 0)) by (rewrite map_length, seq_length; exact Hc). rewrite (map_nth (fun c => d a c * rate)%R), seq_nth by exact Hc. reflexivity. }
  - revert Z. unfold shift. rewrite E. destruct (l_kind v) as [y|y|y Ry|y Ry|o b lo hi y|n e|y] eqn:Ev; auto.
    + destruct (Nat.ltb_spec c 3); auto. intros []; reflexivity.
    + assert (Zs : forall i, speed h tr a i = 0%R) by (intros i; unfold speed; rewrite E, (Pl a v n e E Ev), C; reflexivity). rewrite !Zs. destruct (c =? 3); intros []; ring.
    + destruct (Nat.ltb_spec c 2); auto. intros []; reflexivity.
Qed.
Lemma centre_kept h h' k : kept h h' -> floats h -> centre h' tr vs k = centre h tr vs k.
Proof.
  intros K (_ & _ & _ & _ & P). unfold centre. apply lsum_ext. intros a _. rewrite (width_kept _ _ _ K). apply rsum_ext. intros c _. rewrite (shift_kept _ _ _ _ _ K P). reflexivity.
Qed.
Lemma moves_centre rate up down top k h0 l0 h l : (0 < up)%R -> (0 < top)%R -> (0 < l0)%R -> floats h0 -> moves (lm_move (lib RN) vs fs rate up down top) k (h0, l0) (h, l) ->
  (0 < l)%R /\ kept h0 h /\ centre h0 tr vs h = centre h0 tr vs h0.
Proof.
  intros Hu Ht Hl F M. remember (h0, l0) as s0 eqn:E0. remember (h, l) as s eqn:E. revert h l E. induction M as [s|k s x y M IH X]; intros h l E; subst.
  - injection E as <- <-. split; [exact Hl|]. split; [apply kept_refl; apply F|reflexivity].
  - destruct x as [h1 l1]. destruct (IH eq_refl h1 l1 eq_refl) as (P1 & K1 & C1). pose proof (floats_kept _ _ K1 F) as F1. inversion X as [? ? J Hj Ho|? ? ? r r' A1 A2 A3 A4|? ? ? r r' A1 A2 A3 A4]; subst.
    + split; [nra|]. auto.
    + destruct (newton_centre rate l1 h1 h ltac:(lra) F1 A1) as (K & Ce). split; [eapply Rlt_le_trans; [|apply Rmax_r]; lra|]. split; [exact (kept_trans _ _ _ K1 K)|].
      rewrite <- C1, <- !(centre_kept h0 h1 _ K1 F). exact Ce.
    + split; [|auto]. apply Rmin_pos; [nra|exact Ht].
Qed.
End Centre.

Theorem floating_centre {S : Type} (SV : solver RN S) (EV : nat -> env (N:=RN) (V:=lvar RN)) :
  (forall n, env_ok (EV n)) -> factorising_solver SV ->
  forall l1 l2 h1 g1 (p p' : pstate (N:=RN) (V:=lvar RN) (S:=S)) tr,
  finalized_history (lib RN) l1 l2 h1 (p_heap p) g1 (p_graph p) -> unfinalized (lib RN) ([], empty_graph) l1 ->
  careful ([], empty_graph) l1 -> careful (h1, g1) l2 ->
  let vs := get_all_variables (p_graph p) in let fs := get_all_factors (p_graph p) in let st := p_set p in
  Forall (factor_wf (lib RN) (p_heap p) vs) fs -> some_active (lib RN) (p_heap p) fs ->
  Forall (untouched (p_heap p) tr) fs -> planes_stay (p_heap p) tr -> (forall a v, nth_error (p_heap p) a = Some v -> real_kind (l_kind v)) ->
  st_method st = LevenbergMarquardt -> 1 <= st_max_iter st -> (0 < st_lambda0 st)%R -> (0 < st_up st)%R -> (0 < st_max_lambda st)%R ->
  optimize (lib RN) SV EV p = (p', Ok tt) -> p_caught p' = false ->
  centre (p_heap p) tr vs (p_heap p') = centre (p_heap p) tr vs (p_heap p).
Proof.
  intros HE HF l1 l2 h1 g1 p p' tr Hi Hu C1 C2 vs fs st Hwf Hact Hun Hpl Hk Hm Hn H0 H1 H2 E Hca. destruct (lib_history _ _ _ _ _ _ Hi C1 C2) as (B1 & B2).
  destruct (lm_path (lib RN) SV EV lib_ok HE (fun v => real_kind (l_kind v)) l1 l2 h1 g1 p p' lib_real Hk HF Hi Hu Hwf Hact B1 B2 Hm Hn E Hca) as (k & _ & M).
  assert (F : floats vs fs tr (p_heap p)).
  { split; [exact (proj1 (sound_history _ _ _ _ _ _ Hi C1 C2))|]. split; [|split; auto]. destruct (finalized_facts (lib RN) lib_ok _ _ _ _ _ _ Hi) as (_ & A & _). apply (ri_live _ _ _ (fin_reg _ _ _ A)). }
  apply (moves_centre vs fs tr (history_nodup _ _ _ _ _ _ Hi) _ _ _ _ k _ _ _ _ H1 H2 H0 F M).
Qed.
