(** Proofs for PropsNumJac: affine factors, the limit of small steps, counterexamples. *)
From Coq Require Import List Arith ZArith QArith Bool Lia Reals Lra.
From Coquelicot Require Import Coquelicot.
From Verif Require Import Base Sparse Graph Geom Vars SpecGraph SpecOpt ListLemmas RSum Real SpecSolver FactorsLin FactorsLinFacts FactorLib SpecShape FactorShape FactorSafe VarsLemmas NumJac SpecTools NumJacFacts NumJacLib.
From Verif Require Import SpecGeom SpecFactor GeomR GeomExp GeomLog FactorCalc FactorStep FactorMotion.
Import ListNotations.
Set Bullet Behavior "Strict Subproofs".
Local Open Scope nat_scope.

Section Affine.
Context {V : Type} (VC : vclass RN V) (VCok : vclass_ok VC).
Notation factor := (factor (N:=RN) (V:=V)).
Lemma nth_along n k (eps : R) dx c : along (N:=RN) n k eps dx -> c < n -> nth c dx 0%R = if Nat.eqb c k then eps else 0%R.
Proof. intros (L & H) Hc. rewrite (nth_error_nth _ _ _ (H c Hc)). destruct (c =? k); [reflexivity|]. apply q0. Qed.
Lemma nth_nneg (dx : list R) c : nth c (map (nneg (n:=RN)) dx) 0%R = (- nth c dx 0)%R.
Proof. revert c. induction dx as [|x dx IH]; intros [|c]; cbn; try ring; auto. Qed.
Lemma nudge_reassigned (h : @heap V) vs a v v' x : nth_error h a = Some v -> vinc VC v x = Ok v' -> vconst VC v = false -> length (vval VC v') = vsize VC v ->
  In a vs -> each_nonconst VC h vs (SpecSolver.additive VC) -> reassigned VC h (lupd a v' h) vs.
Proof.
  intros Ha E Hc L Hin Ad. pose proof (lt_of_nth _ _ _ Ha) as La. split; [apply lupd_length|]. intros b w Hb. destruct (Nat.eq_dec a b) as [<-|n].
  - assert (w = v) by congruence. subst w. exists v'. split; [apply lupd_nth_same; auto|]. destruct (ok_inc _ VCok _ _ _ E) as (A & B & C). repeat split; auto. intros [K|K]; [congruence|contradiction].
  - exists w. rewrite lupd_nth_other by auto. repeat split; auto. intros Hbc Hbn. apply (Ad b w Hbn Hb Hbc).
Qed.
Lemma nudge_term (h : @heap V) (vars : list (option addr)) js i (a : addr) v v' dx k (e : R) qa B : NoDup vars -> nth_error vars qa = Some (Some a) -> nth_error h a = Some v -> nth_error js qa = Some B ->
  vconst VC v = false -> k < vsize VC v -> (forall c, c < vsize VC v -> nth c (vval VC v') 0%R = (nth c (vval VC v) 0 + nth c dx 0)%R) ->
  (forall c, c < vsize VC v -> nth c dx 0%R = if Nat.eqb c k then e else 0%R) ->
  rsum (length vars) (block_term VC h (lupd a v' h) vars js i) = (mat_at B i k * e)%R.
Proof.
  intros ND Hq Ha HB Hc Hk Hv Hdx. pose proof (lt_of_nth _ _ _ Ha) as La. rewrite (rsum_single _ qa).
  - unfold block_term. rewrite Hq, Ha, HB, Hc, lupd_nth_same by auto. rewrite (rsum_single _ k); auto.
    + rewrite Hv, Hdx, Nat.eqb_refl by auto. change (car RN) with R. ring.
    + intros c Lc Hck. rewrite Hv, Hdx by auto. rewrite (proj2 (Nat.eqb_neq c k)) by auto. change (car RN) with R. ring.
  - apply (lt_of_nth _ _ _ Hq).
  - intros q Lq Hqq. unfold block_term. destruct (nth_error vars q) as [[b|]|] eqn:Eq; auto. assert (b <> a).
    { intros ->. apply Hqq. eapply (proj1 (NoDup_nth_error vars)); auto. congruence. }
    rewrite lupd_nth_other by auto. destruct (nth_error h b) as [w|]; auto. destruct (nth_error js q); auto. destruct (vconst VC w); auto.
    apply rsum_zero. intros c _. change (car RN) with R. ring.
Qed.
Lemma affine_num (f : factor) (h : @heap V) vs js (eps : R) : eps <> 0%R -> (forall h, f_res f h = f_res_ref f h) ->
  (forall p, In p (f_vars f) -> exists a v, p = Some a /\ In a vs /\ nth_error h a = Some v) -> NoDup (f_vars f) ->
  affine_at VC h vs f js -> each_nonconst VC h vs (SpecSolver.additive VC) -> each_variable VC f h (returns VC) ->
  exists Js, num_jac VC f eps h = (h, Ok Js) /\ difference_quotients VC f h (eps : RN) Js /\ entrywise VC h f eq Js js.
Proof.
  intros He Rf Hp ND Af Ad Rt.
  assert (E : exists Js, num_jac VC f eps h = (h, Ok Js)).
  { unfold num_jac. assert (R0 : exists r, f_res f h = Ok r).
    { rewrite Rf. destruct (Af h) as (r & _ & H & _); [|eauto]. split; auto. intros a v Ha. exists v. repeat split; auto. intros Hc Hin. apply (Ad a v Hin Ha Hc). }
    destruct R0 as (r & ->). cbn [hthen]. apply num_vars_runs. intros p Hpi. destruct (Hp p Hpi) as (a & v & -> & Hin & Ha). exists a, v. split; auto. split; auto. intros Hc k Hk.
    assert (L : forall x : list RN, length x = vsize VC v -> exists v' r, vinc VC v x = Ok v' /\ f_res f (lupd a v' h) = Ok r /\ length r = f_rsize f).
    { intros x Lx. destruct (Ad a v Hin Ha Hc) as (_ & A). destruct (A x Lx) as (v' & Ev & Lv & _). exists v'.
      destruct (Af (lupd a v' h)) as (r0 & r' & _ & Hr & _ & Lr & _); [eapply nudge_reassigned; eauto|]. exists r'. rewrite Rf. auto. }
    destruct (L (probe (N:=RN) (vsize VC v) k eps)) as (vp & rp & A1 & A2 & A3); [apply probe_along|].
    destruct (L (vneg (probe (N:=RN) (vsize VC v) k eps))) as (vm & rm & B1 & B2 & B3); [unfold vneg; rewrite map_length; apply probe_along|].
    eexists. eapply num_col_runs; eauto. }
  destruct E as (Js & E). exists Js. split; auto. destruct (num_jac_ok VC f eps h h Js Rt E) as (_ & Dq). split; auto.
  intros q a v A B Hq Ha Hc HA HB i k Hi Hk. destruct Dq as (_ & Dq). destruct (Dq _ _ _ Hq HA) as (a' & v0 & Eq & Ha' & Dc). injection Eq as <-.
  assert (v0 = v) by congruence. subst v0. rewrite Hc in Dc. destruct Dc as (_ & _ & Dc). destruct (Dc k Hk) as (dx & vp & vm & rp & rm & Al & Ip & Im & Rp & Rm & Lp & Lm & Q).
  rewrite Q by auto. assert (Hin : In a vs). { destruct (Hp (Some a) (nth_error_In _ _ Hq)) as (a0 & ? & Ea & Ia & _). congruence. }
  destruct (Ad a v Hin Ha Hc) as (Lv & Add).
  destruct (Add dx (proj1 Al)) as (vp' & Ep & Lp' & Vp). rewrite Ip in Ep. injection Ep as <-.
  assert (Ln : length (map (nneg (n:=RN)) dx) = vsize VC v) by (rewrite map_length; apply Al).
  destruct (Add _ Ln) as (vm' & Em & Lm' & Vm). rewrite Im in Em. injection Em as <-.
  assert (Sp : forall c, c < vsize VC v -> nth c dx 0%R = if Nat.eqb c k then eps else 0%R) by (intros; eapply nth_along; eauto).
  assert (Sm : forall c, c < vsize VC v -> nth c (map (nneg (n:=RN)) dx) 0%R = if Nat.eqb c k then (- eps)%R else 0%R).
  { intros c Lc. rewrite nth_nneg. etransitivity; [apply f_equal, Sp; exact Lc|]. destruct (c =? k); [reflexivity|apply Ropp_0]. }
  destruct (Af (lupd a vp h)) as (r0 & rp' & R0 & Rp' & _ & _ & Fp); [eapply nudge_reassigned; eauto|].
  destruct (Af (lupd a vm h)) as (r1 & rm' & R1 & Rm' & _ & _ & Fm); [eapply nudge_reassigned; eauto|].
  rewrite R0 in R1. injection R1 as <-. rewrite Rf in Rp, Rm. rewrite Rp in Rp'. rewrite Rm in Rm'. injection Rp' as <-. injection Rm' as <-.
  specialize (Fp i Hi). specialize (Fm i Hi).
  rewrite (nudge_term h _ js i a v vp dx k eps q B ND Hq Ha HB Hc Hk Vp Sp) in Fp.
  rewrite (nudge_term h _ js i a v vm _ k (- eps)%R q B ND Hq Ha HB Hc Hk Vm Sm) in Fm.
  change (nzero (N:=RN)) with (Q2R 0). rewrite q0. change (nlit (n:=RN) 2) with (Q2R 2).
  change ((nth i rp 0 - nth i rm 0) / (Q2R 2 * eps) = mat_at B i k)%R.
  change (list (car RN)) with (list R) in *. change (car RN) with R in *. rewrite Fp, Fm.
  replace (Q2R 2) with 2%R by (unfold Q2R; simpl; lra). field. exact He.
Qed.
End Affine.

(** ** Library factors that are affine *)
Lemma vector_additive (h : @heap (lvar RN)) a x v : sees_vector h a x -> nth_error h a = Some v -> SpecSolver.additive (lib RN) v /\ returns (lib RN) v /\ kval (l_kind v) = x /\ ksize (l_kind v) = length x.
Proof.
  intros (id & c & S) Ha.
  assert (P : forall dx, length dx = length x -> forall k, k < length x -> nth k (vadd (N:=RN) x dx) 0%R = (nth k x 0 + nth k dx 0)%R).
  { clear. induction x as [|y x IH]; intros [|d dx] L k Hk; simpl in *; try lia. destruct k; [reflexivity|]. apply IH; lia. }
  assert (LA : forall dx, length dx = length x -> length (vadd (N:=RN) x dx) = length x) by (intros dx L; rewrite vadd_length, L, Nat.min_id; reflexivity).
  destruct S as [S|(L3 & S)]; rewrite S in Ha; injection Ha as <-.
  - split; [|split; [apply plain_returns; exact I|auto]]. split; [reflexivity|]. intros dx L. simpl in *. unfold with_kind. cbn [l_kind kinc].
    change (length dx = length x) in L. rewrite (proj2 (Nat.eqb_eq _ _) L). eexists. split; [reflexivity|]. cbn. split; [apply LA; exact L|]. apply P. exact L.
  - split; [|split; [apply plain_returns; exact I|auto]]. split; [exact L3|]. intros dx L. simpl in *. unfold with_kind. cbn [l_kind kinc].
    change (length dx = 3) in L. rewrite (proj2 (Nat.eqb_eq _ _) L). unfold vec_plus. change (car RN) with R in *.
    assert (E : length x = length dx) by congruence. rewrite (proj2 (Nat.eqb_eq _ _) E). eexists. split; [reflexivity|]. cbn. split; [etransitivity; [apply LA; auto|auto]|]. intros k Hk. apply P; [auto|]. rewrite L3. exact Hk.
Qed.
Lemma vector_there (h : @heap (lvar RN)) a x : sees_vector h a x -> exists v, nth_error h a = Some v.
Proof. intros (id & c & [S|(_ & S)]); eauto. Qed.
Lemma prior_num id a prior sigma (h : @heap (lvar RN)) x (eps : R) : eps <> 0%R -> sees_vector h a x -> length x = length prior ->
  exists Js Ja, num_jac (lib RN) (generic_prior (lib RN) id a prior sigma) eps h = (h, Ok Js) /\ f_jac (generic_prior (lib RN) id a prior sigma) h [] = (Ja, Ok tt) /\
    entrywise (lib RN) h (generic_prior (lib RN) id a prior sigma) eq Js Ja.
Proof.
  intros He S L. destruct (vector_there _ _ _ S) as (v & Ha). destruct (vector_additive _ _ _ _ S Ha) as (Ad & Rt & Ev & Es).
  assert (Ls : vsize (lib RN) v = length prior) by exact (eq_trans Es L).
  destruct (affine_num (lib RN) lib_ok (generic_prior (lib RN) id a prior sigma) h [a] (gprior_blocks (lib RN) v (length prior) (1 / sigma)%R) eps He) as (Js & E1 & _ & E2).
  - intros h'. reflexivity.
  - intros p [<-|[]]. exists a, v. repeat split; auto. left. reflexivity.
  - repeat constructor. intros [].
  - apply (gprior_affine (lib RN) id a prior sigma h [a] v Ha); [left; reflexivity| |exact Ls]. exact (eq_trans (f_equal (@length R) Ev) (eq_sym Es)).
  - intros b w [<-|[]] Hb _. assert (w = v) by congruence. subst w. exact Ad.
  - intros b w [E|[]] Hb _. injection E as <-. assert (w = v) by congruence. subst w. exact Rt.
  - exists Js. eexists. split; [exact E1|]. split; [|exact E2]. cbn [f_jac generic_prior]. rewrite (gprior_jac_value (lib RN) a _ _ h v Ha). f_equal. f_equal.
    cbn. rewrite q1. reflexivity.
Qed.
Lemma between_num id a b d n sigma (h : @heap (lvar RN)) xa xb xd (eps : R) : eps <> 0%R -> sees_vector h a xa -> sees_vector h b xb -> sees_vector h d xd ->
  length xa = n -> length xb = n -> length xd = n -> a <> b -> b <> d -> a <> d ->
  exists Js Ja, num_jac (lib RN) (generic_between (lib RN) id a b d n sigma) eps h = (h, Ok Js) /\ f_jac (generic_between (lib RN) id a b d n sigma) h [] = (Ja, Ok tt) /\
    entrywise (lib RN) h (generic_between (lib RN) id a b d n sigma) eq Js Ja.
Proof.
  intros He Sa Sb Sd La Lb Ld Nab Nbd Nad.
  destruct (vector_there _ _ _ Sa) as (va & Ha). destruct (vector_additive _ _ _ _ Sa Ha) as (Ada & Rta & Eva & Esa).
  destruct (vector_there _ _ _ Sb) as (vb & Hb). destruct (vector_additive _ _ _ _ Sb Hb) as (Adb & Rtb & Evb & Esb).
  destruct (vector_there _ _ _ Sd) as (vd & Hd). destruct (vector_additive _ _ _ _ Sd Hd) as (Add & Rtd & Evd & Esd).
  destruct (affine_num (lib RN) lib_ok (generic_between (lib RN) id a b d n sigma) h [a; b; d] (gbetween_blocks (lib RN) va vb vd n (1 / sigma)%R) eps He) as (Js & E1 & _ & E2).
  - intros h'. reflexivity.
  - intros p [<-|[<-|[<-|[]]]]; eexists _, _; (split; [reflexivity|]); (split; [simpl; auto|eauto]).
  - repeat constructor; intros K; repeat (destruct K as [K|K]; [injection K; congruence|]); exact K.
  - apply (gbetween_affine (lib RN) id a b d n sigma h [a; b; d] va vb vd Ha Hb Hd); [simpl; tauto| | | | | |];
    first [exact (eq_trans Esa La)|exact (eq_trans Esb Lb)|exact (eq_trans Esd Ld)|exact (eq_trans (f_equal (@length R) Eva) La)|exact (eq_trans (f_equal (@length R) Evb) Lb)|exact (eq_trans (f_equal (@length R) Evd) Ld)].
  - intros e w Hin Hw _. destruct Hin as [<-|[<-|[<-|[]]]]; match goal with H : nth_error h ?a = Some ?v, K : nth_error h ?a = Some ?w |- _ => rewrite K in H; injection H as <- end; assumption.
  - intros e w Hin Hw _. destruct Hin as [E|[E|[E|[]]]]; injection E as <-; match goal with H : nth_error h ?a = Some ?v, K : nth_error h ?a = Some ?w |- _ => rewrite K in H; injection H as <- end; assumption.
  - exists Js. eexists. split; [exact E1|]. split; [|exact E2]. cbn [f_jac generic_between]. rewrite (gbetween_jac_value (lib RN) a b d _ _ h va vb vd Ha Hb Hd). cbn. rewrite q1. reflexivity.
Qed.
