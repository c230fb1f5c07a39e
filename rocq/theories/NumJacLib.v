(** Proofs for PropsNumJac: the library's variables return; correctly used library factors. *)
From Coq Require Import List Arith ZArith QArith Bool Lia Reals Lra.
From Verif Require Import Base Sparse Graph Geom Vars SpecGraph SpecOpt ListLemmas VarOps SpecVars VarsLemmas FactorLib SpecShape FactorShape FactorSafe NumJac SpecTools NumJacFacts.
From Verif Require Import Real SpecGeom GeomR GeomExp GeomLog VarsRun.
Import ListNotations.
Set Bullet Behavior "Strict Subproofs".
Local Open Scope nat_scope.

Section Any.
Context {N : num}.
Notation heap := (@heap (lvar N)).
Lemma returns_kind (v : lvar N) : (forall dx k, kinc (l_kind v) dx = Ok k -> kset k (kval (l_kind v)) = Ok (l_kind v)) -> returns (lib N) v.
Proof.
  intros H dx v' E. simpl in *. destruct (VarsLemmas.with_kind_ok _ _ _ E) as (k & Ek & ->). cbn [l_kind]. unfold with_kind. cbn [l_id l_const].
  rewrite (H _ _ Ek). destruct v; reflexivity.
Qed.
(** states of the four classes whose restore does not depend on the arithmetic *)
Definition plain_kind (k : kind N) : Prop :=
  match k with
  | KGeneric _ | KLandmark _ => True
  | KPose x R => R = dcm_of_rot (seg3 3 x)
  | KRot x R => exists w, to_v3 x = Ok w /\ R = exp_so3 w
  | _ => False
  end.
Lemma plain_returns (v : lvar N) : plain_kind (l_kind v) -> returns (lib N) v.
Proof.
  intros P. apply returns_kind. intros dx k. destruct (l_kind v) as [x|x|x A|x A|o b lo hi x|n e|x]; cbn [plain_kind] in P; try contradiction; cbn [kinc kval].
  - destruct (length dx =? length x) eqn:L; [|discriminate]. intros H. injection H as <-. cbn [kset]. apply Nat.eqb_eq in L.
    rewrite vadd_length, L, Nat.min_id, Nat.eqb_refl. reflexivity.
  - destruct (length dx =? 3); [|discriminate]. destruct (vec_plus x dx); try discriminate. intros H. injection H as <-. reflexivity.
  - destruct (length dx =? 6); [|discriminate]. destruct (length x <? 6) eqn:L; [discriminate|]. intros H. injection H as <-. cbn [kset]. rewrite L, P. reflexivity.
  - destruct P as (w & E & ->). destruct (to_v3 dx); try discriminate. intros H. injection H as <-. cbn [kset]. rewrite E. reflexivity.
Qed.
Lemma kinc_runs (k : kind N) x : in_shape k -> length x = ksize k -> exists k', kinc k x = Ok k'.
Proof.
  intros S L. assert (U := kinc_defined k x). destruct (kinc k x) as [k'|e|u] eqn:E; [eauto| |exfalso; apply (U u S L); reflexivity].
  exfalso. clear U. unfold in_shape in S. destruct k as [y|y|y A|y A|o b lo hi y|n d|y]; cbn [kinc ksize] in *; rewrite ?L, ?Nat.eqb_refl in E; try discriminate.
  - unfold vec_plus in E. destruct (length y =? length x); discriminate.
  - cbn in S. rewrite S in E. discriminate.
  - unfold to_v3 in E. destruct x as [|? [|? [|? [|? ?]]]]; discriminate.
  - unfold vec_plus in E. destruct (length y =? length x); [|discriminate]. cbn [obind] in E. unfold clip0 in E. destruct (vadd y x); discriminate.
Qed.
Lemma lib_inc_runs (v : lvar N) x : in_shape (l_kind v) -> length x = ksize (l_kind v) ->
  exists k', vinc (lib N) v x = Ok (LVar (l_id v) (l_const v) k') /\ same_class (l_kind v) k' /\ in_shape k'.
Proof.
  intros S L. destruct (kinc_runs _ _ S L) as (k' & E). exists k'. split; [simpl; unfold with_kind; rewrite E; reflexivity|]. eapply kinc_keeps; eauto.
Qed.
Lemma nudged_kept (h : heap) a v v' : shapely h -> nth_error h a = Some v -> same_class (l_kind v) (l_kind v') -> in_shape (l_kind v') ->
  extends h (lupd a v' h) /\ shapely (lupd a v' h).
Proof.
  intros S Ha C I. pose proof (lt_of_nth _ _ _ Ha) as La. split.
  - intros b w Hb. destruct (Nat.eq_dec a b) as [->|n]; [|rewrite lupd_nth_other by auto; exists w; split; [auto|apply same_class_refl]].
    rewrite lupd_nth_same by auto. assert (w = v) by congruence. subst w. eauto.
  - intros b w Hb. destruct (Nat.eq_dec a b) as [->|n]; [rewrite lupd_nth_same in Hb by auto; congruence|rewrite lupd_nth_other in Hb by auto; eauto].
Qed.
Lemma lib_vars (h : heap) (f : lib_factor N) p : well_used h f -> In p (f_vars (build f)) -> exists a v, p = Some a /\ nth_error h a = Some v.
Proof.
  intros W I. destruct f; cbn [well_used] in W; cbn in I;
    repeat match goal with H : _ /\ _ |- _ => destruct H | H : var_at _ _ _ |- _ => destruct H as (? & ? & ?) end;
    repeat (destruct I as [<-|I]; [eauto|]); contradiction.
Qed.
Lemma lib_num_jac (h : heap) (f : lib_factor N) eps : shapely h -> well_used h f -> each_variable (lib N) (build f) h (returns (lib N)) ->
  exists Js, num_jac (lib N) (build f) eps h = (h, Ok Js) /\ difference_quotients (lib N) (build f) h eps Js.
Proof.
  intros S W R.
  assert (E : exists Js, num_jac (lib N) (build f) eps h = (h, Ok Js)).
  { unfold num_jac. destruct (residual_size_ok f h W) as (r & -> & _). cbn [hthen]. apply num_vars_runs. intros p Hp.
    destruct (lib_vars h f p W Hp) as (a & v & -> & Ha). exists a, v. split; auto. split; auto. intros Hc k Hk.
    assert (L : forall x : list N, length x = vsize (lib N) v -> exists v' r, vinc (lib N) v x = Ok v' /\ f_res (build f) (lupd a v' h) = Ok r /\ length r = f_rsize (build f)).
    { intros x Lx. destruct (lib_inc_runs v x (S _ _ Ha) Lx) as (k' & E & C & I). destruct (nudged_kept h a v (LVar (l_id v) (l_const v) k') S Ha C I) as (Ex & S').
      destruct (residual_size_ok f _ (well_used_kept _ _ _ Ex S' W)) as (r' & E' & L'). eauto. }
    destruct (L (probe (vsize (lib N) v) k eps)) as (vp & rp & A1 & A2 & A3); [apply probe_along|].
    destruct (L (vneg (probe (vsize (lib N) v) k eps))) as (vm & rm & B1 & B2 & B3); [unfold vneg; rewrite map_length; apply probe_along|].
    eexists. eapply num_col_runs; eauto. }
  destruct E as (Js & E). exists Js. split; auto. eapply num_jac_ok; eauto.
Qed.
End Any.

(** ** Exact arithmetic *)
Lemma real_returns (v : lvar RN) : real_kind (l_kind v) -> returns (lib RN) v.
Proof. intros H dx v' E. exact (proj2 (un_inc _ _ lib_real v dx v' H E)). Qed.
Lemma clip_in (lo hi q : R) : (lo <= q <= hi)%R -> clip (N:=RN) lo hi q = q.
Proof. intros H. unfold clip. rewrite r_nmin, r_nmax. unfold Rmax, Rmin. destruct (Rle_dec q lo); destruct (Rle_dec _ hi); lra. Qed.
Lemma wrap_in (t : R) : (- PI < t <= PI)%R -> wrap_angle (N:=RN) t = t.
Proof.
  intros B. destruct (wrap_asked t) as [k E]. pose proof (wrap_range t) as W. rewrite E in W. pose proof PI_RGT_0.
  assert (K : k = 0%Z). { assert (-1 < IZR k < 1)%R by (split; nra). destruct H0 as (H0 & H1). apply lt_IZR in H0. apply lt_IZR in H1. lia. }
  subst k. rewrite E. change (t + 2 * 0 * PI = t)%R. ring.
Qed.
Lemma calls_inv (I : lvar RN -> Prop) l : (forall v o v', I v -> vcall v o = Ok v' -> I v') -> forall v v', I v -> vcalls v l = Ok v' -> I v'.
Proof.
  intros H. induction l as [|o l IH]; intros v v' Hv E; cbn [vcalls] in E; [congruence|]. destruct (vcall v o) eqn:Ec; try discriminate; eauto.
Qed.
Ltac same_kind := intros [? ? ?] op v' (x0 & Ek); cbn [l_kind] in Ek; subst; destruct op; cbn [vcall];
  try (intros E; injection E as <-; eexists; reflexivity);
  intros E; simpl in E; apply VarsLemmas.with_kind_ok in E; destruct E as (k' & E & ->); cbn [l_kind kset kinc] in E;
  repeat match type of E with (if ?b then _ else _) = _ => destruct b | obind ?o _ = _ => destruct o; cbn [obind] in E end; try discriminate; injection E as <-; eexists; reflexivity.
Lemma made_returns (v : lvar RN) : made v -> returns (lib RN) v.
Proof.
  intros (v0 & l & E & C).
  destruct C as [(id & x & C)|[(id & p & ->)|[(id & t & r & ->)|[(id & o & b & range & ->)|[(id & n & d & ->)|(id & p & ->)]]]]].
  - assert (I : exists x, l_kind v = KGeneric x).
    { revert E. apply (calls_inv (fun v => exists x, l_kind v = KGeneric x)); [same_kind|]. unfold mk_generic in C. destruct (length x =? 0); [discriminate|]. injection C as <-. eexists; reflexivity. }
    destruct I as (y & Ek). apply plain_returns. rewrite Ek. exact I.
  - assert (I : exists x, l_kind v = KLandmark x).
    { revert E. apply (calls_inv (fun v => exists x, l_kind v = KLandmark x)); [same_kind|]. eexists; reflexivity. }
    destruct I as (y & Ek). apply plain_returns. rewrite Ek. exact I.
  - assert (I : VarsRun.is_pose v).
    { eapply pose_calls; [|exact E]. eexists. split; [apply (f_equal2 (@KPose RN)); [reflexivity|destruct r; reflexivity]|]. simpl. lia. }
    destruct I as (x & Ek & _). apply plain_returns. rewrite Ek. reflexivity.
  - assert (I : is_inv o (v3normalized b) v) by (eapply inv_calls; [|exact E]; eexists _, _; split; [reflexivity|apply clip_lib]).
    destruct I as (q & t & Ek & B). apply returns_kind. rewrite Ek. intros dx k. cbn [kinc kval].
    destruct (length dx =? 1) eqn:L; [|discriminate]. apply Nat.eqb_eq in L. destruct dx as [|d [|? ?]]; try discriminate. destruct t as [|? ?]; [|discriminate].
    cbn. intros H. injection H as <-. cbn. rewrite clip_in; [reflexivity|]. rewrite lit_lo, lit_hi. exact B.
  - destruct (plane_unit_or_zero id n d l) as (v1 & n' & E1 & U & _ & _ & Z). rewrite E in E1. injection E1 as <-. apply real_returns.
    unfold unit_vector in U. destruct (l_kind v) as [| | | | |m e|]; try discriminate. injection U as <-. cbn [real_kind].
    destruct Z as [Z| ->]; [apply normalized_unit; exact Z|apply normalized_zero; unfold v3sq, v3zero; gx; ring].
  - destruct (pose2_calls l (mk_pose2 id p) (vx p, vy p, vz p)) as (v1 & E1 & H).
    { exists (wrap_angle (vz p)). split; [reflexivity|]. split; [apply wrap_range|apply wrap_asked]. }
    rewrite E in E1. injection E1 as <-. destruct (fold_left asked2 l (vx p, vy p, vz p)) as [[x y] th]. destruct H as (t & Ek & B & _). apply real_returns. rewrite Ek. cbn [real_kind]. apply wrap_in. exact B.
Qed.
Lemma rotation_returns id (A : m3 RN) : rotation A -> A = m3id \/ (/ 100000 <= acos ((m3trace A - 1) / 2))%R -> returns (lib RN) (mk_rotation id A).
Proof.
  intros R H. apply plain_returns. cbn [mk_rotation l_kind plain_kind]. exists (log_so3 A). split; [destruct (log_so3 A); reflexivity|]. symmetry. apply exp_of_log; assumption.
Qed.
(** after set_value_from_vector a rotation returns, whatever its angle *)
Lemma set_rotation_returns (v v' : lvar RN) A x : dcm_AB v = Some A -> vset (lib RN) v x = Ok v' -> returns (lib RN) v'.
Proof.
  unfold dcm_AB. intros D E. apply plain_returns. simpl in E. apply VarsLemmas.with_kind_ok in E. destruct E as (k & E & ->). cbn [l_kind]. destruct (l_kind v); try discriminate.
  cbn [kset] in E. destruct (to_v3 x) eqn:T; try discriminate. injection E as <-. cbn [plain_kind]. eauto.
Qed.
