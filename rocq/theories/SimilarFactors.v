(** The library's relative measurements do not respond to similarities. *)
From Coq Require Import List Arith ZArith QArith Bool Reals Lra Lia.
From Verif Require Import Base Sparse Graph SpecGraph Geom Vars FactorsLin FactorsLinFacts FactorsGeo FactorLib SpecGeom SpecFactor SpecShape FactorShape Real RSum GeomR FactorRead FactorJac FactorOri SpecSimilar.
Import ListNotations.
Local Open Scope nat_scope.
Set Bullet Behavior "Strict Subproofs".

Definition field (h : rheap) (u : addr -> nat -> R) (a : addr) : list R :=
  match nth_error h a with Some v => map (rate h u a) (seq 0 (ksize (l_kind v))) | None => [] end.
Lemma field_nth h u a v c : nth_error h a = Some v -> c < ksize (l_kind v) -> nth c (field h u a) 0%R = rate h u a c.
Proof.
  intros Hv Hc. unfold field. rewrite Hv. rewrite (nth_indep _ 0%R (rate h u a 0)) by (rewrite map_length, seq_length; exact Hc).
  rewrite (map_nth (rate h u a)), seq_nth by exact Hc. reflexivity.
Qed.
Lemma term_rate h u a v M i : nth_error h a = Some v ->
  term h (field h u) a (if l_const v then mempty else M) i = rsum (ksize (l_kind v)) (fun c => mat_at M i c * rate h u a c)%R.
Proof.
  intros Hv. unfold term. rewrite Hv. cbn [vsize lib]. destruct (l_const v) eqn:C.
  - symmetry. apply rsum_zero. intros c _. unfold rate. rewrite Hv, C. ring.
  - apply rsum_ext. intros c Hc. rewrite (field_nth _ _ _ _ _ Hv Hc). reflexivity.
Qed.
Lemma halts_rsum h u a n (M : mat RN) i : halts h u a -> rsum n (fun c => mat_at M i c * rate h u a c)%R = 0%R.
Proof. intros H. apply rsum_zero. intros c _. rewrite H. ring. Qed.
Lemma diag_rsum n (w : R) (e : nat -> R) i : i < n -> rsum n (fun c => mat_at (diagm (N:=RN) n w) i c * e c)%R = (w * e i)%R.
Proof. intros Hi. exact (diag_sum n w e i Hi). Qed.
Ltac blks := repeat match goal with H : nth_error _ ?a = Some ?v |- context [blk _ ?a ?M] => rewrite (blk_at _ a v M H) | H : nth_error _ ?a = Some ?v, E : context [blk _ ?a ?M] |- _ => rewrite (blk_at _ a v M H) in E end.
Ltac terms := cbn [response]; repeat match goal with H : nth_error ?h ?a = Some ?v |- context [term ?h (field ?h ?u) ?a (if l_const ?v then mempty else ?M) ?i] =>
  rewrite (term_rate h u a v M i H) end.
Ltac entries := unfold m3diag; cbn [fst snd mat36 mat33 col3 m3rows diag2 rows_mat mat_at nth v3list m3row0 m3row1 m3row2 app m00 m01 m02 m10 m11 m12 m20 m21 m22 vx vy vz].
Ltac i3 i := destruct i as [|[|[|i]]]; [| | |lia].

(** ** turning commutes with changing frames *)
Lemma turned (C : m3 RN) w d : rotation C -> v3cross (m3v C w) (m3v C d) = m3v C (v3cross w d).
Proof.
  intros HC. pose proof (skew_conj C w HC) as K. apply (f_equal (fun A => m3v A d)) in K.
  transitivity (m3v (m3mul (skew (m3v C w)) C) d); [dm C; dv w; dv d; gx; f_equal; ring|]. rewrite K. dm C; dv w; dv d; gx; f_equal; ring.
Qed.
(** a bearing's derivative does not see the direction of the bearing *)
Lemma flat_bearing (w : R) (q : v3 RN) k : v3norm q <> 0%R -> m3v (m3scale (w / v3norm q)%num (m3add (m3outer (v3neg (v3div q (v3norm q))) (v3div q (v3norm q))) m3id)) (v3scale k q) = v3zero.
Proof.
  intros Hn. assert (E : @eq R (v3norm q * v3norm q)%R (vx q * vx q + vy q * vy q + vz q * vz q)%R).
  { unfold v3norm. dv q. gx. apply sqrt_sqrt. nra. }
  revert Hn E. generalize (v3norm q). intros n Hn E. change (car RN) with R in *. destruct q as [x y z]. cbn [vx vy vz] in E.
  assert (Z : forall e : R, (w / n * k * e * (1 - (x * x + y * y + z * z) / (n * n)))%R = 0%R) by (intros e; rewrite <- E; field; exact Hn).
  gx. f_equal; (etransitivity; [|apply Z]); [instantiate (1 := x)|instantiate (1 := y)|instantiate (1 := z)]; match goal with |- ?a = ?b => change (@eq R a b) end; field; exact Hn.
Qed.
Lemma flat_map (q : v3 RN) k : v3norm q <> 0%R ->
  m3v (m3map (fun x : RN => (x / v3norm q)%num) (m3sub m3id (m3outer (v3div q (v3norm q)) (v3div q (v3norm q))))) (v3scale k q) = v3zero.
Proof.
  intros Hn. assert (E : @eq R (v3norm q * v3norm q)%R (vx q * vx q + vy q * vy q + vz q * vz q)%R).
  { unfold v3norm. dv q. gx. apply sqrt_sqrt. nra. }
  revert Hn E. generalize (v3norm q). intros n Hn E. change (car RN) with R in *. destruct q as [x y z]. cbn [vx vy vz] in E.
  assert (Z : forall e : R, (1 / n * k * e * (1 - (x * x + y * y + z * z) / (n * n)))%R = 0%R) by (intros e; rewrite <- E; field; exact Hn).
  gx. f_equal; (etransitivity; [|apply Z]); [instantiate (1 := x)|instantiate (1 := y)|instantiate (1 := z)]; match goal with |- ?a = ?b => change (@eq R a b) end; field; exact Hn.
Qed.
(** velocities as vectors *)
Definition rate3 (h : rheap) u a off : v3 RN := V3 (N:=RN) (rate h u a off) (rate h u a (1 + off)) (rate h u a (2 + off)).
Definition sweep (S : similarity) (x : v3 RN) : v3 RN := v3add (v3add (v3cross (turn S) x) (v3scale (grow S : RN) x)) (go S).
Lemma rate3_swept h u a S x : (forall i, i < 3 -> rate h u a i = swept S x i) -> rate3 h u a 0 = sweep S x.
Proof.
  intros H. unfold rate3. cbn [Nat.add]. rewrite (H 0), (H 1), (H 2) by lia. destruct S as [w k t]. dv w; dv x; dv t. unfold sweep, swept, crossing. cbn [turn grow go]. gx. f_equal; ring.
Qed.
Lemma rate3_turns h u a w C off : (forall i, i < 3 -> rate h u a (i + off) = (- sum3 (fun k => ent C i k * coord w k))%R) -> rate3 h u a off = v3neg (m3v C w).
Proof. intros H. unfold rate3. rewrite <- (Nat.add_0_l off) at 1. rewrite (H 0), (H 1), (H 2) by lia. dm C; dv w. gx. f_equal; ring. Qed.
Lemma turns_rate3 h u w C p : turns_along h u w C p -> rate3 h u p 3 = v3neg (m3v C w).
Proof. intros H. apply rate3_turns. intros i Hi. rewrite Nat.add_comm. exact (H i Hi). Qed.
(** what a camera sees of a point carried along with it: only its distance grows *)
Lemma seen_motion (C : m3 RN) S x p : rotation C ->
  v3sub (m3v C (v3sub (sweep S x) (sweep S p))) (v3cross (m3v C (v3sub x p)) (v3neg (m3v C (turn S)))) = v3scale (grow S : RN) (m3v C (v3sub x p)).
Proof.
  intros HC. pose proof (turned C (turn S) (v3sub x p) HC) as T.
  transitivity (v3add (v3sub (m3v C (v3cross (turn S) (v3sub x p))) (v3cross (m3v C (turn S)) (m3v C (v3sub x p)))) (v3scale (grow S : RN) (m3v C (v3sub x p)))).
  - destruct S as [w k t]. dm C; dv w; dv x; dv p; dv t. unfold sweep. cbn [turn grow go]. gx. f_equal; ring.
  - rewrite T. generalize (m3v C (v3cross (turn S) (v3sub x p))) (m3v C (v3sub x p)). intros a b. dv a; dv b. gx. f_equal; ring.
Qed.
Lemma pose_sees_size (h : rheap) a p C : sees_pose h a p C -> exists v, nth_error h a = Some v /\ ksize (l_kind v) = 6 /\ pose_at h a = Ok (p, C).
Proof. intros H. pose proof (pose_at_sees h a p C H) as E. destruct H as (id & c & r & H). eexists. split; [exact H|]. split; [reflexivity|exact E]. Qed.
Lemma landmark_of (h : rheap) l x : var_at h l is_landmark -> sees_vector h l [vx x; vy x; vz x] -> sees_landmark h l x.
Proof. intros (v & Hv & _ & K) (id & c & [H|(_ & H)]); [|exists id, c; exact H]. rewrite Hv in H. injection H as ->. cbn in K. contradiction. Qed.

Section Blind.
Variables (h : rheap) (u : addr -> nat -> R).
Definition blind (f : factor (N:=RN) (V:=lvar RN)) : Prop := (forall js (i : nat), f_jac f h [] = (js, Ok tt) -> (i < f_rsize f)%nat -> response h (field h u) (f_vars f) js i = 0%R).

Lemma s_bearing id p l obs s : well_used h (LBearing id p l obs s) -> unseen h u (LBearing id p l obs s) -> blind (build (LBearing id p l obs s)).
Proof.
  intros (_ & Wb) (S & (x & C & Sp & HC & Rp & Rt) & (y & Sl & Rl)) js i. apply (landmark_of _ _ _ Wb) in Sl. destruct (pose_sees_size _ _ _ _ Sp) as (va & Ha & Ka & Ea).
  pose proof (landmark_at_sees _ _ _ Sl) as Eb. destruct Sl as (idl & cl & Hb). remember (LVar idl cl _) as vb eqn:Evb in Hb. assert (Kb : ksize (l_kind vb) = 3) by (rewrite Evb; reflexivity). clear Evb.
  cbn [build]. unfold bearing_observation. cbv zeta. cbn [f_jac f_rsize f_vars]. unfold bearing_jac. rewrite Ea, Eb. cbn [obind fst snd]. destruct (nltb _ _) eqn:Ef; cbn [withj]; [discriminate|]. blks.
  assert (Hn : v3norm (m3v C (v3sub y x)) <> 0%R).
  { intros Z. rewrite Z in Ef. apply Rltb_false in Ef. rewrite min_dist_R in Ef. lra. }
  pose proof (flat_bearing (nunit / s)%num (m3v C (v3sub y x)) (grow S) Hn) as Fl.
  match type of Fl with m3v ?M _ = _ => revert Fl; generalize M end. intros D Fl E Hi. cbn in E. injection E as <-. terms. rewrite Ka, Kb, rsum6, rsum3.
  rewrite <- (seen_motion C S y x HC), <- (rate3_swept h u l S y Rl), <- (rate3_swept h u p S x Rp), <- (turns_rate3 _ _ _ _ _ Rt) in Fl.
  clear -Fl Hi. unfold rate3 in Fl. cbn [Nat.add] in Fl. revert Fl. generalize (rate h u p 0) (rate h u p 1) (rate h u p 2) (rate h u p 3) (rate h u p 4) (rate h u p 5) (rate h u l 0) (rate h u l 1) (rate h u l 2).
  intros p0 p1 p2 p3 p4 p5 l0 l1 l2 Fl. dm C. dm D. dv x. dv y. gx in Fl. injection Fl as F0 F1 F2.
  i3 i; entries; gx; [etransitivity; [|exact F0]|etransitivity; [|exact F1]|etransitivity; [|exact F2]]; ring.
Qed.
Lemma s_projection id p l obs s tol : well_used h (LProjection id p l obs s tol) -> unseen h u (LProjection id p l obs s tol) -> blind (build (LProjection id p l obs s tol)).
Proof.
  intros (_ & Wb) (S & (x & C & Sp & HC & Rp & Rt) & (y & Sl & Rl)) js i. apply (landmark_of _ _ _ Wb) in Sl. destruct (pose_sees_size _ _ _ _ Sp) as (va & Ha & Ka & Ea).
  pose proof (landmark_at_sees _ _ _ Sl) as Eb. destruct Sl as (idl & cl & Hb). remember (LVar idl cl _) as vb eqn:Evb in Hb. assert (Kb : ksize (l_kind vb) = 3) by (rewrite Evb; reflexivity). clear Evb.
  cbn [build]. unfold bearing_projection. cbv zeta. cbn [f_jac f_rsize f_vars]. unfold proj_jac. rewrite Ea, Eb. cbn [obind withj fst snd]. destruct (nleb _ _); blks.
  - intros E Hi. cbn in E. injection E as <-. terms. rewrite !rsum_zero; [ring|intros k _; cbn; rewrite q0; ring..].
  - generalize (tangent_basis (v3normalized obs)). intros [t1 t2].
    destruct (Req_dec (v3norm (m3v C (v3sub y x))) 0) as [Z|Hn].
    + (* 1/0 is 0 in the reals: every entry of the derivative is 0 *)
      match goal with |- context [m3map ?f ?M] => assert (D0 : m3map f M = m3zero) end.
      { rewrite Z. generalize (m3sub (N:=RN) m3id (m3outer (v3div (m3v C (v3sub y x)) 0%R) (v3div (m3v C (v3sub y x)) 0%R))). intros M. dm M. gx. unfold Rdiv. rewrite Rinv_0. f_equal; ring. }
      rewrite D0. intros E Hi. cbn in E. injection E as <-. terms. rewrite Ka, Kb, rsum6, rsum3. clear -Hi. dm C. dv x; dv y; dv t1; dv t2.
      destruct i as [|[|i]]; [| |lia]; entries; cbn [fst snd]; unfold row_m; gx; unfold Rdiv; ring.
    + pose proof (flat_map (m3v C (v3sub y x)) (grow S) Hn) as Fl.
      match type of Fl with m3v ?M _ = _ => revert Fl; generalize M end. intros D Fl E Hi. cbn in E. injection E as <-. terms. rewrite Ka, Kb, rsum6, rsum3.
      rewrite <- (seen_motion C S y x HC), <- (rate3_swept h u l S y Rl), <- (rate3_swept h u p S x Rp), <- (turns_rate3 _ _ _ _ _ Rt) in Fl.
      clear -Fl Hi. unfold rate3 in Fl. cbn [Nat.add] in Fl. revert Fl. generalize (rate h u p 0) (rate h u p 1) (rate h u p 2) (rate h u p 3) (rate h u p 4) (rate h u p 5) (rate h u l 0) (rate h u l 1) (rate h u l 2).
      intros p0 p1 p2 p3 p4 p5 l0 l1 l2 Fl. destruct t1 as [tx ty tz]. destruct t2 as [sx sy sz]. dm C. dm D. dv x. dv y. gx in Fl. injection Fl as F0 F1 F2.
      match type of F0 with ?a = _ => match type of F1 with ?b = _ => match type of F2 with ?c = _ =>
        destruct i as [|[|i]]; [transitivity (1 / s * (tx * a + ty * b + tz * c))%R|transitivity (1 / s * (sx * a + sy * b + sz * c))%R|lia] end end end;
      try (rewrite F0, F1, F2; change (car RN) with R; ring); entries; cbn [fst snd]; unfold row_m; gx; unfold Rdiv; ring.
Qed.
Lemma s_inverse_range id p l obs s : well_used h (LInverseRange id p l obs s) -> unseen h u (LInverseRange id p l obs s) -> blind (build (LInverseRange id p l obs s)).
Proof.
  intros _ (S & (x & C & Sp & HC & Rp & Rt) & (o & b & rho & Sl & So & Sb & Rl)) js i. destruct (pose_sees_size _ _ _ _ Sp) as (va & Ha & Ka & Ea).
  destruct Sl as (idl & cl & lo & hi & Hb). remember (LVar idl cl _) as vb eqn:Evb in Hb. assert (Kb : ksize (l_kind vb) = 1) by (rewrite Evb; reflexivity).
  cbn [build]. unfold inverse_range_bearing. cbv zeta. cbn [f_jac f_rsize f_vars]. unfold invbear_jac. rewrite Ea. cbn [obind].
  destruct (Rlt_le_dec (Rabs rho) (1 / 1000000000)) as [Small|Far].
  - unfold inv_at. rewrite (get_at _ _ _ Hb). rewrite Evb. cbn [obind l_kind nth]. intros E. exfalso. revert E.
    match goal with |- context [withj _ (if ?c then _ else _) _] => destruct c end; cbn [withj]; [discriminate|].
    assert (Z : nltb (n:=RN) (nabs (n:=RN) rho) min_dist = true) by (apply Rltb_true; rewrite min_dist_R; exact Small). rewrite Z. rewrite (blk_at _ _ _ _ Ha). cbn. discriminate.
  - assert (Ei : inv_at h l = Ok (inv_point o b rho, rho : car RN, b)).
    { unfold inv_at. rewrite (get_at _ _ _ Hb). rewrite Evb. cbn [obind l_kind nth]. rewrite inv_pos_far by exact Far. reflexivity. }
    rewrite Ei. clear Ei Evb. cbn [obind fst snd].
    destruct (nltb _ _) eqn:Ef; cbn [withj]; [discriminate|]. destruct (nltb (nabs _) _) eqn:Er; [rewrite (blk_at _ _ _ _ Ha); discriminate|]. blks.
    set (y := inv_point o b rho) in *. assert (Hr : rho <> 0%R) by (intros ->; rewrite Rabs_R0 in Far; lra).
    assert (Hn : v3norm (m3v C (v3sub y x)) <> 0%R).
    { intros Z. rewrite Z in Ef. apply Rltb_false in Ef. rewrite min_dist_R in Ef. lra. }
    pose proof (flat_map (m3v C (v3sub y x)) (grow S) Hn) as Fl.
    match type of Fl with m3v ?M _ = _ => revert Fl; generalize M end. intros D Fl E Hi. cbn in E. injection E as <-. terms. rewrite Ka, Kb, rsum6, rsum1.
    assert (Ry : sweep S y = v3scale ((- rate h u l 0 / (rho * rho))%R : RN) b).
    { rewrite Rl. pose proof (So 0 ltac:(lia)) as So0. pose proof (So 1 ltac:(lia)) as So1. pose proof (So 2 ltac:(lia)) as So2.
      pose proof (Sb 0 ltac:(lia)) as Sb0. pose proof (Sb 1 ltac:(lia)) as Sb1. pose proof (Sb 2 ltac:(lia)) as Sb2. clear -Hr So0 So1 So2 Sb0 Sb1 Sb2.
      unfold sweep, y, inv_point, swept, crossing in *. destruct S as [w k t]. destruct w as [wx wy wz]. destruct t as [tx ty tz]. destruct o as [ox oy oz]. destruct b as [bx b_y bz]. cbn [turn grow go] in *.
      gx in So0. gx in So1. gx in So2. gx in Sb0. gx in Sb1. gx in Sb2. gx.
      match type of So0 with ?a0 = _ => match type of So1 with ?a1 = _ => match type of So2 with ?a2 = _ => match type of Sb0 with ?c0 = _ => match type of Sb1 with ?c1 = _ => match type of Sb2 with ?c2 = _ =>
        f_equal; [transitivity (a0 + / rho * c0 + k / rho * bx)%R|transitivity (a1 + / rho * c1 + k / rho * b_y)%R|transitivity (a2 + / rho * c2 + k / rho * bz)%R] end end end end end end;
      try (rewrite ?So0, ?So1, ?So2, ?Sb0, ?Sb1, ?Sb2; field; exact Hr); field; exact Hr. }
    rewrite <- (seen_motion C S y x HC), Ry, <- (rate3_swept h u p S x Rp), <- (turns_rate3 _ _ _ _ _ Rt) in Fl.
    clear -Fl Hi Hr. unfold rate3 in Fl. cbn [Nat.add] in Fl. revert Fl. generalize (rate h u p 0) (rate h u p 1) (rate h u p 2) (rate h u p 3) (rate h u p 4) (rate h u p 5) (rate h u l 0).
    intros p0 p1 p2 p3 p4 p5 l0 Fl. unfold y, inv_point in *. dm C. dm D. dv x. dv o. dv b. gx in Fl. injection Fl as F0 F1 F2.
    match type of F0 with ?a = _ => match type of F1 with ?b = _ => match type of F2 with ?c = _ => i3 i; [transitivity (1 / s * a)%R|transitivity (1 / s * b)%R|transitivity (1 / s * c)%R] end end end;
    try (rewrite ?F0, ?F1, ?F2; change (car RN) with R; ring); entries; gx; unfold Rdiv. all: ring.
Qed.
End Blind.
