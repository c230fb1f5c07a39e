(** Exact Jacobians: bearing projection, planes, 2D factors. *)
From Coq Require Import List Arith ZArith QArith Bool Reals Lra Lia.
From Coquelicot Require Import Coquelicot.
From Verif Require Import Base Sparse Graph Geom Vars VarOps FactorsLin FactorsLinFacts FactorsGeo SpecGeom SpecFactor Real RSum GeomR FactorCalc FactorRead FactorJac.
Import ListNotations.
Local Open Scope R_scope.

Ltac genv := repeat match goal with |- context [nth ?i (vel ?h ?D ?a) 0] => let v := fresh "dv" in generalize (nth i (vel h D a) 0); intros v end.
Ltac rowsx := cbn [rows_mat mat_at nth v3list m3row0 m3row1 m3row2 app vx vy vz].

(** ** Bearing projection *)
Definition proj_blocks (h : rheap) a l (T : v3 RN * v3 RN) (w : R) (q : v3 RN) (C : m3 RN) : list (mat RN) :=
  let D := invb_D q in
  let A := m3mul (m3scale (- w) D) C in let B := m3mul (m3scale w D) (m3neg (skew q)) in let E := m3mul (m3scale w D) C in
  [blkv h a (rows_mat 2 6 [v3list (row_m (fst T) A) ++ v3list (row_m (fst T) B); v3list (row_m (snd T) A) ++ v3list (row_m (snd T) B)]);
   blkv h l (rows_mat 2 3 [v3list (row_m (fst T) E); v3list (row_m (snd T) E)])].
Lemma normalized_div (q : v3 RN) : 0 < len q -> v3normalized q = v3div q (len q).
Proof.
  intros Hq. pose proof (length2_len _ Hq) as L. dv q. unfold v3normalized. replace (nltb (n:=RN) nzero (v3sq (V3 (N:=RN) x y z))) with true; [reflexivity|].
  symmetry. apply Rltb_true. change (Q2R 0 < length2 (V3 (N:=RN) x y z)). rewrite q0. exact L.
Qed.
Lemma proj_exact id a l obs (sigma tol : R) h p C x : sees_pose h a p C -> sees_landmark h l x ->
  let q := m3v C (v3sub x p) in let k := v3normalized obs in 0 < len q -> tol < v3dot k (v3div q (len q)) ->
  exact_jacobian (bearing_projection (N:=RN) id a l obs sigma tol) h (proj_blocks h a l (tangent_basis k) (1 / sigma) q C).
Proof.
  intros Sa Sl q k F Dp. pose proof (there_pose _ _ _ _ Sa) as Ta. pose proof (there_landmark _ _ _ Sl) as Tl.
  unfold bearing_projection. cbv zeta. rewrite unit_over. set (w := 1 / sigma). fold k. generalize (tangent_basis k). intros T.
  split; [|split]; cbn [f_jac f_vars f_res f_rsize].
  1: (intros J0; unfold proj_jac; destruct (sized2 J0) as (j0 & j1 & ->); rewrite (pose_at_sees _ _ _ _ Sa), (landmark_at_sees _ _ _ Sl);
      cbn [obind withj fst snd]; fold q; change (v3norm q) with (len q);
      replace (nleb (n:=RN) (v3dot k (v3div q (len q))) tol) with false by (symmetry; apply Rleb_false; exact Dp);
      rewrite !(blk_there _ _ _ _ Ta), !(blk_there _ _ _ _ Tl); reflexivity).
  1: shapes.
  intros H D HM. destruct (read_pose _ _ _ _ _ _ HM Sa) as (P1 & Q1 & E1 & MP1 & MQ1). destruct (read_landmark _ _ _ _ _ HM Sl) as (X & EX & MX).
  set (B := fun s => v3normalized (m3v (Q1 s) (v3sub (X s) (P1 s)))).
  assert (MB := normalized_moves _ _ _ (mv_moves _ _ _ _ _ _ MQ1 (v3sub_moves _ _ _ _ _ _ MX MP1)) F). fold B in MB. fold q in MB.
  match type of MB with moving _ _ ?e => set (bv := e) in MB end.
  exists (fun s => if nleb (n:=RN) (v3dot k (B s)) tol then v2list (v2scale w (V2 (N:=RN) nunit nunit)) else v2list (v2scale w (tt_v T (B s)))).
  split.
  { intros s. unfold proj_res. rewrite E1, EX. cbn [obind fst snd]. fold (B s). destruct (nleb _ _); split; reflexivity. }
  assert (L : locally 0 (fun s => nleb (n:=RN) (v3dot k (B s)) tol = false)).
  { pose proof (dot_derive _ _ _ _ _ _ (still_moves k) MB) as Dd. eapply filter_imp; [|apply (near_gt _ _ tol _ Dd)].
    1: (cbv beta; intros s Hs; apply Rleb_false; exact Hs).
    cbv beta. rewrite (proj1 MB). exact Dp. }
  assert (R2 : forall t, is_derive (fun s => w * v3dot t (B s)) 0 (w * v3dot t bv)).
  { intros t. eapply d_eq; [apply d_scal; apply (dot_derive _ _ _ _ _ _ (still_moves t) MB)|]. dv t. dv q. destruct bv. gx. ring. }
  intros i Hi. eapply is_derive_ext_loc with (f := fun s => nth i (v2list (v2scale w (tt_v T (B s)))) 0).
  { eapply filter_imp; [|exact L]. cbv beta. intros s ->. reflexivity. }
  destruct T as [t1 t2]. destruct i as [|[|i]]; [| |lia].
  1: (eapply d_eq; [exact (R2 t1)|]). 2: (eapply d_eq; [exact (R2 t2)|]).
  all: unfold proj_blocks; cbv zeta; cbn [response]; rewrite (term_there _ _ _ _ _ _ Ta), (term_there _ _ _ _ _ _ Tl), rsum6, rsum3;
    unfold bv, invb_D; cbv zeta; change (v3norm q) with (len q); clearbody q w; generalize (len q) F; intros n Hn;
    rowsx; unfold dir3; cbn [Nat.add]; genv; clear - Hn; dm C; dv q; dv t1; dv t2; unfold row_m, dot; cbn [fst snd]; gx; field; lra.
Qed.
Lemma proj_behind_exact id a l obs (sigma tol : R) h p C x : sees_pose h a p C -> sees_landmark h l x ->
  let q := m3v C (v3sub x p) in let k := v3normalized obs in 0 < len q -> v3dot k (v3div q (len q)) < tol ->
  exact_jacobian (bearing_projection (N:=RN) id a l obs sigma tol) h [blkv h a (mzero 2 6); blkv h l (mzero 2 3)].
Proof.
  intros Sa Sl q k F Dp. pose proof (there_pose _ _ _ _ Sa) as Ta. pose proof (there_landmark _ _ _ Sl) as Tl.
  unfold bearing_projection. cbv zeta. rewrite unit_over. set (w := 1 / sigma). fold k. generalize (tangent_basis k). intros T.
  split; [|split]; cbn [f_jac f_vars f_res f_rsize].
  1: (intros J0; unfold proj_jac; destruct (sized2 J0) as (j0 & j1 & ->); rewrite (pose_at_sees _ _ _ _ Sa), (landmark_at_sees _ _ _ Sl);
      cbn [obind withj fst snd]; fold q; change (v3norm q) with (len q);
      replace (nleb (n:=RN) (v3dot k (v3div q (len q))) tol) with true by (symmetry; apply Rleb_true; left; exact Dp);
      rewrite !(blk_there _ _ _ _ Ta), !(blk_there _ _ _ _ Tl); reflexivity).
  1: shapes.
  intros H D HM. destruct (read_pose _ _ _ _ _ _ HM Sa) as (P1 & Q1 & E1 & MP1 & MQ1). destruct (read_landmark _ _ _ _ _ HM Sl) as (X & EX & MX).
  set (B := fun s => v3normalized (m3v (Q1 s) (v3sub (X s) (P1 s)))).
  assert (MB := normalized_moves _ _ _ (mv_moves _ _ _ _ _ _ MQ1 (v3sub_moves _ _ _ _ _ _ MX MP1)) F). fold B in MB. fold q in MB.
  exists (fun s => if nleb (n:=RN) (v3dot k (B s)) tol then v2list (v2scale w (V2 (N:=RN) nunit nunit)) else v2list (v2scale w (tt_v T (B s)))).
  split.
  { intros s. unfold proj_res. rewrite E1, EX. cbn [obind fst snd]. fold (B s). destruct (nleb _ _); split; reflexivity. }
  assert (L : locally 0 (fun s => nleb (n:=RN) (v3dot k (B s)) tol = true)).
  { pose proof (dot_derive _ _ _ _ _ _ (still_moves k) MB) as Dd. eapply filter_imp; [|apply (near_lt _ _ tol _ Dd)].
    1: (cbv beta; intros s Hs; apply Rleb_true; left; exact Hs).
    cbv beta. rewrite (proj1 MB). exact Dp. }
  intros i Hi. eapply is_derive_ext_loc with (f := fun s => nth i (v2list (v2scale w (V2 (N:=RN) nunit nunit))) 0).
  { eapply filter_imp; [|exact L]. cbv beta. intros s ->. reflexivity. }
  eapply d_eq; [apply d_const|]. cbn [response]. rewrite (term_there _ _ _ _ _ _ Ta), (term_there _ _ _ _ _ _ Tl), rsum6, rsum3.
  cbn [mzero mat_at]. gx. ring.
Qed.

(** ** Planes *)
Lemma d_norm P p e : moving P p e -> 0 < len p -> is_derive (fun s => v3norm (P s)) 0 (dot p e / len p).
Proof.
  intros HP Hp. pose proof (length2_len _ Hp) as L. mcomp HP. subst p. destruct e as [e0 e1 e2]. cbn [vx vy vz] in *.
  assert (S : is_derive (fun s => x s * x s + y s * y s + z s * z s) 0 (2 * (x 0 * e0 + y 0 * e1 + z 0 * e2))) by (der; ring).
  eapply d_ext; [intros s; rewrite Ec; reflexivity|]. change (fun s => v3norm (V3 (N:=RN) (x s) (y s) (z s))) with (fun s => sqrt (x s * x s + y s * y s + z s * z s)).
  eapply d_eq; [apply d_sqrt; [exact S|exact L]|]. unfold len, dot, length2. cbn [vx vy vz]. field. apply Rgt_not_eq. exact Hp.
Qed.
(** one-component residuals *)
Lemma exact1 (f : factor (N:=RN) (V:=lvar RN)) h J : f_rsize f = 1%nat -> (forall J0, f_jac f h J0 = (J, Ok tt)) -> shaped h 1 (f_vars f) J ->
  (forall H D, hmoves H h D -> exists r : R -> R, (forall s, f_res f (H s) = Ok [r s]) /\ is_derive r 0 (response h D (f_vars f) J 0)) -> exact_jacobian f h J.
Proof.
  intros E HJ HS HD. split; [exact HJ|]. rewrite E. split; [exact HS|]. intros H D HM. destruct (HD H D HM) as (r & HR & DR).
  exists (fun s => [r s]). split; [intros s; split; [apply HR|reflexivity]|]. intros i Hi. destruct i; [|lia]. exact DR.
Qed.
Definition plane_blocks (h : rheap) q m (w : R) (n p : v3 RN) : list (mat RN) :=
  [blkv h q (rows_mat 1 3 [v3list (v3scale w n)]); blkv h m (rows_mat 1 4 [v3list (v3scale w (v3sub p (v3scale (v3dot p n) n))) ++ [w]])].
Lemma plane_exact id q m (sigma : R) h p n e : sees_vector h q [vx p; vy p; vz p] -> sees_plane h m n e ->
  exact_jacobian (plane_factor (N:=RN) id q m sigma None) h (plane_blocks h q m (1 / sigma) n p).
Proof.
  intros Sq Sm. pose proof (there_vector _ _ _ Sq) as Tq. pose proof (there_plane _ _ _ _ Sm) as Tm. cbn [length] in Tq.
  unfold plane_factor. cbv zeta. rewrite unit_over. set (w := 1 / sigma). apply exact1; [reflexivity| | |]; cbn [f_jac f_vars f_res].
  1: (intros J0; unfold plane_jac; destruct (sized2 J0) as (j0 & j1 & ->); rewrite (value3_at_sees _ _ _ Sq), (plane_at_sees _ _ _ _ Sm); cbn [obind withj];
      rewrite !(blk_there _ _ _ _ Tq), !(blk_there _ _ _ _ Tm); reflexivity).
  1: shapes.
  intros H D HM. destruct (read_vector3 _ _ _ _ _ HM Sq) as (P & EP & MP). destruct (read_plane _ _ _ _ _ _ HM Sm) as (M & E & EM & MM & E0 & DE).
  eexists. split; [intros s; unfold plane_res; rewrite EP, EM; reflexivity|]. cbn [obind].
  eapply d_eq; [apply d_scal; unfold plane_distance; apply d_plus; [apply (dot_derive _ _ _ _ _ _ MM MP)|exact DE]|].
  unfold plane_blocks. cbn [response]. rewrite (term_there _ _ _ _ _ _ Tq), (term_there _ _ _ _ _ _ Tm), rsum3, rsum4. rowsx.
  unfold across, dir3, dot. cbn [Nat.add]. genv. clear. dv p. dv n. rowsx. gx. ring.
Qed.
Definition plane_scaled_blocks (h : rheap) q m (w r0 : R) (p0 : v3 RN) (n : v3 RN) (e : R) (p : v3 RN) : list (mat RN) :=
  let diff := v3sub p p0 in let r := len diff in let scale := 1 + r / r0 in let dist := v3dot n p - e in
  let ds := v3scale (1 / r0) (v3div diff r) in let dp := v3div (v3sub (v3scale scale n) (v3scale dist ds)) (scale * scale) in
  [blkv h q (rows_mat 1 3 [v3list (v3scale w dp)]);
   blkv h m (rows_mat 1 4 [v3list (v3scale w (v3div (v3sub p (v3scale (v3dot p n) n)) scale)) ++ [w * (- (1) / scale)]])].
Lemma plane_scaled_exact id q m (sigma r0 : R) p0 h p n e : sees_vector h q [vx p; vy p; vz p] -> sees_plane h m n e ->
  1 / 1000000000000 < len (v3sub p p0) -> 1 + len (v3sub p p0) / r0 <> 0 ->
  exact_jacobian (plane_factor (N:=RN) id q m sigma (Some (r0, p0))) h (plane_scaled_blocks h q m (1 / sigma) r0 p0 n e p).
Proof.
  intros Sq Sm F Fs. pose proof (there_vector _ _ _ Sq) as Tq. pose proof (there_plane _ _ _ _ Sm) as Tm. cbn [length] in Tq.
  assert (F0 : 0 < len (v3sub p p0)) by lra.
  unfold plane_factor. cbv zeta. rewrite unit_over. set (w := 1 / sigma). apply exact1; [reflexivity| | |]; cbn [f_jac f_vars f_res].
  { intros J0; unfold plane_jac; destruct (sized2 J0) as (j0 & j1 & ->); rewrite (value3_at_sees _ _ _ Sq), (plane_at_sees _ _ _ _ Sm); cbn [obind withj].
    change (v3norm (v3sub p p0)) with (len (v3sub p p0)).
    replace (nltb (n:=RN) (nlit (1#1000000000000)) (len (v3sub p p0))) with true.
    2: (symmetry; apply Rltb_true; change (nlit (n:=RN) (1#1000000000000)) with (Q2R (1#1000000000000)); unfold Q2R; simpl; lra).
    rewrite !(blk_there _ _ _ _ Tq), !(blk_there _ _ _ _ Tm). unfold plane_scaled_blocks. cbv zeta.
    change (nadd (n:=RN)) with Rplus. change (ndiv (n:=RN)) with Rdiv. change (nmul (n:=RN)) with Rmult. change (nneg (n:=RN)) with Ropp. change (nsub (n:=RN)) with Rminus.
    change (nunit (N:=RN)) with (Q2R 1). rewrite q1. reflexivity. }
  1: shapes.
  intros H D HM. destruct (read_vector3 _ _ _ _ _ HM Sq) as (P & EP & MP). destruct (read_plane _ _ _ _ _ _ HM Sm) as (M & E & EM & MM & E0 & DE).
  pose proof (v3sub_moves _ _ _ _ _ _ MP (still_moves p0)) as MS. pose proof (d_norm _ _ _ MS F0) as DN. cbv beta in DN.
  exists (fun s => w * ((v3dot (M s) (P s) - E s) / (1 + v3norm (v3sub (P s) p0) / r0))). split.
  { intros s; unfold plane_res; rewrite EP, EM. cbn [obind]. change (nunit (N:=RN)) with (Q2R 1). rewrite q1. reflexivity. }
  assert (DS : is_derive (fun s => 1 + v3norm (v3sub (P s) p0) / r0) 0 (dot (v3sub p p0) (v3sub (dir3 0 (vel h D q)) v3zero) / len (v3sub p p0) / r0)).
  { eapply d_eq; [apply (d_plus (fun _ => 1)); [apply d_const|apply (d_mult (fun s => v3norm (v3sub (P s) p0)) (fun _ => / r0)); [exact DN|apply d_const]]|].
    cbv beta. unfold Rdiv. ring. }
  assert (DT : is_derive (fun s => v3dot (M s) (P s) - E s) 0 (v3dot (across n (dir3 0 (vel h D m))) p + v3dot n (dir3 0 (vel h D q)) - nth 3 (vel h D m) 0)).
  { apply (d_minus (fun s => v3dot (M s) (P s)) E); [apply (dot_derive _ _ _ _ _ _ MM MP)|exact DE]. }
  assert (S0 : 1 + v3norm (v3sub (P 0) p0) / r0 <> 0) by (rewrite (proj1 MP); exact Fs).
  eapply d_eq; [apply d_scal; exact (d_div _ _ _ _ _ DT DS S0)|]. cbv beta. rewrite (proj1 MP), (proj1 MM), E0.
  unfold plane_scaled_blocks. cbv zeta. cbn [response]. rewrite (term_there _ _ _ _ _ _ Tq), (term_there _ _ _ _ _ _ Tm), rsum3, rsum4. rowsx.
  change (v3norm (v3sub p p0)) with (len (v3sub p p0)).
  clearbody w. clear - F0 Fs. set (l := len (v3sub p p0)) in *. clearbody l. unfold Rdiv in *. set (k := / r0) in *. clearbody k.
  unfold across, dir3, dot. cbn [Nat.add]. genv. dv p. dv n. dv p0. rowsx. gx. set (t := 1 + l * k) in *. clearbody t. field. split; [exact Fs|lra].
Qed.
