(** What the factors read along a motion, and how a Jacobian block acts on a velocity. *)
From Coq Require Import List Arith ZArith QArith Bool Reals Lra Lia.
From Coquelicot Require Import Coquelicot.
From Verif Require Import Base Sparse Graph Geom Vars VarOps FactorsLin FactorsLinFacts FactorsGeo SpecGeom SpecFactor Real RSum GeomR FactorCalc.
Import ListNotations.
Local Open Scope R_scope.
Notation rheap := (@heap (lvar RN)).

(** velocity of the variable at [a]; constant variables do not move *)
Definition vel (h : rheap) (D : addr -> list R) (a : addr) : list R :=
  match nth_error h a with Some v => if l_const v then [] else D a | None => [] end.
(** Jacobian block of the variable at [a] *)
Definition blkv (h : rheap) (a : addr) (M : mat RN) : mat RN :=
  match nth_error h a with Some v => if l_const v then mempty else M | None => M end.
Lemma vel_at h D a id c k : nth_error h a = Some (LVar id c k) -> vel h D a = if c then [] else D a.
Proof. intros H. unfold vel. rewrite H. reflexivity. Qed.
Lemma nth_nil_R i : nth i (@nil R) 0 = 0.
Proof. destruct i; reflexivity. Qed.
Lemma dir3_nil off : dir3 off [] = v3zero (N:=RN).
Proof. unfold dir3. rewrite !nth_nil_R. gx. reflexivity. Qed.
Lemma blk_value h a v M : nth_error h a = Some v -> blk h a M = Ok (blkv h a M).
Proof. intros H. unfold blk, block_for, hget, blkv. rewrite H. simpl. destruct (l_const v); reflexivity. Qed.
Lemma term_value h D a v M i : nth_error h a = Some v ->
  term h D a (blkv h a M) i = rsum (ksize (l_kind v)) (fun c => mat_at M i c * nth c (vel h D a) 0).
Proof.
  intros H. unfold term, blkv, vel. rewrite H. simpl. destruct (l_const v); [|reflexivity].
  symmetry. apply rsum_zero. intros k _. rewrite nth_nil_R. ring.
Qed.
Lemma hm_at (H : R -> rheap) h D a id c k : hmoves H h D -> nth_error h a = Some (LVar id c k) ->
  exists K, (forall s, nth_error (H s) a = Some (LVar id c (K s))) /\ if c then (forall s, K s = k) else kind_moves K k (D a).
Proof. intros HM Ha. destruct (HM a _ Ha) as (K & E & M). exists K. split; [exact E|exact M]. Qed.
Lemma seg3_dir3 off (x : list R) : seg3 (N:=RN) off x = dir3 off x.
Proof. unfold seg3, dir3. f_equal; (etransitivity; [|apply f_equal; exact q0]); reflexivity. Qed.

Lemma read_pose (H : R -> rheap) h D a p C : hmoves H h D -> sees_pose h a p C ->
  exists P Q, (forall s, pose_at (H s) a = Ok (P s, Q s)) /\ moving P p (dir3 0 (vel h D a)) /\ turning Q C (dir3 3 (vel h D a)).
Proof.
  intros HM (id & c & r & Ha). destruct (hm_at _ _ _ _ _ _ _ HM Ha) as (K & E & M). rewrite (vel_at _ _ _ _ _ _ Ha). destruct c.
  { exists (fun _ => p), (fun _ => C). split; [|rewrite !dir3_nil; split; [apply still_moves|apply still_turns]].
    intros s. unfold pose_at, hget. rewrite E, M. simpl. destruct p; reflexivity. }
  destruct M as (X & Q & EK & L & MP & MC). exists (fun s => dir3 0 (X s)), Q. split; [|split; [|exact MC]].
  { intros s. unfold pose_at, hget. rewrite E, EK. simpl. specialize (L s). rewrite seg3_dir3. destruct (X s) as [|? [|? [|? ?]]]; try discriminate. reflexivity. }
  { replace p with (dir3 0 [vx p; vy p; vz p; vx r; vy r; vz r]) by (destruct p; reflexivity). exact MP. }
Qed.
Lemma list3 (x : list R) : length x = 3%nat -> x = [nth 0 x 0; nth 1 x 0; nth 2 x 0].
Proof. destruct x as [|a [|b [|c [|]]]]; try discriminate; reflexivity. Qed.
Lemma vec_moves3 (X : R -> list R) x d : vec_moves X x d -> length x = 3%nat -> moving (fun s => dir3 0 (X s)) (dir3 0 x) (dir3 0 d).
Proof.
  intros (E & L & M) Hx. assert (M' : forall i, (i < 3)%nat -> is_derive (fun s => nth i (X s) 0) 0 (nth i d 0)) by (intros i Hi; apply M; rewrite Hx; exact Hi).
  eapply moving_of with (x := fun s => nth 0 (X s) 0) (y := fun s => nth 1 (X s) 0) (z := fun s => nth 2 (X s) 0); [reflexivity|rewrite E; reflexivity| | |];
  [exact (M' 0%nat ltac:(lia))|exact (M' 1%nat ltac:(lia))|exact (M' 2%nat ltac:(lia))].
Qed.
Lemma to_v3_dir3 (x : list R) : length x = 3%nat -> to_v3 (N:=RN) x = Ok (dir3 0 x).
Proof. intros L. unfold to_v3. change (@length (car RN) x) with (@length R x). rewrite L, seg3_dir3. reflexivity. Qed.
Lemma read_landmark (H : R -> rheap) h D a p : hmoves H h D -> sees_landmark h a p ->
  exists P, (forall s, landmark_at (H s) a = Ok (P s)) /\ moving P p (dir3 0 (vel h D a)).
Proof.
  intros HM (id & c & Ha). destruct (hm_at _ _ _ _ _ _ _ HM Ha) as (K & E & M). rewrite (vel_at _ _ _ _ _ _ Ha). destruct c.
  { exists (fun _ => p). split; [|rewrite dir3_nil; apply still_moves]. intros s. unfold landmark_at, hget. rewrite E, M. simpl. destruct p; reflexivity. }
  destruct M as (X & EK & MX). exists (fun s => dir3 0 (X s)). split.
  { intros s. unfold landmark_at, hget. rewrite E, EK. simpl. apply to_v3_dir3. apply (proj1 (proj2 MX)). }
  { replace p with (dir3 0 [vx p; vy p; vz p]) by (destruct p; reflexivity). apply (vec_moves3 _ _ _ MX). reflexivity. }
Qed.
(** any three-element vector variable *)
Lemma read_vector (H : R -> rheap) h D a x : hmoves H h D -> sees_vector h a x ->
  exists X, (forall s, value_at (H s) a = Ok (X s)) /\ vec_moves X x (vel h D a).
Proof.
  assert (ST : forall x : list R, vec_moves (fun _ => x) x []).
  { intros y. split; [reflexivity|]. split; [reflexivity|]. intros i _. rewrite nth_nil_R. apply d_const. }
  intros HM (id & c & [Ha|[L Ha]]); destruct (hm_at _ _ _ _ _ _ _ HM Ha) as (K & E & M); rewrite (vel_at _ _ _ _ _ _ Ha); destruct c.
  all: try (exists (fun _ => x); split; [intros s; unfold value_at, hget; rewrite E, M; reflexivity|apply ST]).
  all: destruct M as (X & EK & MX); exists X; split; [intros s; unfold value_at, hget; rewrite E, EK; reflexivity|exact MX].
Qed.
Lemma read_vector3 (H : R -> rheap) h D a p : hmoves H h D -> sees_vector h a [vx p; vy p; vz p] ->
  exists P, (forall s, value3_at (H s) a = Ok (P s)) /\ moving P p (dir3 0 (vel h D a)).
Proof.
  intros HM Hs. destruct (read_vector _ _ _ _ _ HM Hs) as (X & E & M). exists (fun s => dir3 0 (X s)). split.
  { intros s. unfold value3_at. rewrite E. simpl. apply to_v3_dir3. apply (proj1 (proj2 M)). }
  { replace p with (dir3 0 [vx p; vy p; vz p]) by (destruct p; reflexivity). apply (vec_moves3 _ _ _ M). reflexivity. }
Qed.
Lemma read_rot (H : R -> rheap) h D a C : hmoves H h D -> sees_rot h a C ->
  exists Q, (forall s, rot_at (H s) a = Ok (Q s)) /\ turning Q C (dir3 0 (vel h D a)).
Proof.
  intros HM (id & c & r & Ha). destruct (hm_at _ _ _ _ _ _ _ HM Ha) as (K & E & M). rewrite (vel_at _ _ _ _ _ _ Ha). destruct c.
  { exists (fun _ => C). split; [|rewrite !dir3_nil; apply still_turns]. intros s. unfold rot_at, hget. rewrite E, M. reflexivity. }
  destruct M as (X & Q & EK & MC). exists Q. split; [|exact MC]. intros s. unfold rot_at, hget. rewrite E, EK. reflexivity.
Qed.
Lemma read_generic (H : R -> rheap) h D a x : hmoves H h D -> sees_generic h a x ->
  exists X, (forall s, generic_at (H s) a = Ok (X s)) /\ vec_moves X x (vel h D a).
Proof.
  intros HM (id & c & Ha). destruct (hm_at _ _ _ _ _ _ _ HM Ha) as (K & E & M). rewrite (vel_at _ _ _ _ _ _ Ha). destruct c.
  { exists (fun _ => x). split; [intros s; unfold generic_at, hget; rewrite E, M; reflexivity|].
    split; [reflexivity|]. split; [reflexivity|]. intros i _. rewrite nth_nil_R. apply d_const. }
  destruct M as (X & EK & MX). exists X. split; [|exact MX]. intros s. unfold generic_at, hget. rewrite E, EK. reflexivity.
Qed.
Lemma read_inv (H : R -> rheap) h D a o b rho : hmoves H h D -> sees_inv h a o b rho -> 
  exists X : R -> R, (forall s, inv_at (H s) a = Ok (match inv_pos (LVar 0 false (KInv (N:=RN) o b 0 0 [X s])) with Some p => p | None => nan3 end, X s, b)) /\
  X 0 = rho /\ is_derive X 0 (nth 0 (vel h D a) 0).
Proof.
  intros HM (id & c & lo & hi & Ha). destruct (hm_at _ _ _ _ _ _ _ HM Ha) as (K & E & M). rewrite (vel_at _ _ _ _ _ _ Ha). destruct c.
  { exists (fun _ => rho). split; [|split; [reflexivity|apply d_const]]. intros s. unfold inv_at, hget. rewrite E, M. reflexivity. }
  destruct M as (X & EK & Ex & MX). exists X. split; [|split; [congruence|exact MX]]. intros s. unfold inv_at, hget. rewrite E, EK. reflexivity.
Qed.
Lemma across_zero n : across n (v3zero (N:=RN)) = v3zero (N:=RN).
Proof. destruct n. unfold across, dot. gx. f_equal; ring. Qed.
Lemma read_plane (H : R -> rheap) h D a n e : hmoves H h D -> sees_plane h a n e ->
  exists M (E : R -> R), (forall s, plane_at (H s) a = Ok (M s, E s)) /\ moving M n (across n (dir3 0 (vel h D a))) /\
  E 0 = e /\ is_derive E 0 (nth 3 (vel h D a) 0).
Proof.
  intros HM (id & c & Ha). destruct (hm_at _ _ _ _ _ _ _ HM Ha) as (K & E & M). rewrite (vel_at _ _ _ _ _ _ Ha). destruct c.
  { exists (fun _ => n), (fun _ => e). rewrite dir3_nil, across_zero. split; [|split; [apply still_moves|split; [reflexivity|apply d_const]]].
    intros s. unfold plane_at, hget. rewrite E, M. reflexivity. }
  destruct M as (Mc & Ec & EK & E0 & ME & MM). exists Mc, Ec. split; [|split; [exact MM|split; assumption]].
  intros s. unfold plane_at, hget. rewrite E, EK. reflexivity.
Qed.
(** a 2D pose: position and an angle modulo 2 pi *)
Lemma read_pose2 (H : R -> rheap) h D a x y t : hmoves H h D -> sees_pose2 h a x y t ->
  exists X Y T U : R -> R, (forall s, pose2_at (H s) a = Ok (V2 (X s) (Y s), T s) /\ value_at (H s) a = Ok [X s; Y s; T s]) /\ X 0 = x /\ Y 0 = y /\ T 0 = t /\ U 0 = t /\
  is_derive X 0 (nth 0 (vel h D a) 0) /\ is_derive Y 0 (nth 1 (vel h D a) 0) /\ is_derive U 0 (nth 2 (vel h D a) 0) /\
  forall s, cos (T s) = cos (U s) /\ sin (T s) = sin (U s).
Proof.
  intros HM (id & c & Ha). destruct (hm_at _ _ _ _ _ _ _ HM Ha) as (K & E & M). rewrite (vel_at _ _ _ _ _ _ Ha). destruct c.
  { exists (fun _ => x), (fun _ => y), (fun _ => t), (fun _ => t).
    split; [intros s; unfold pose2_at, value_at, hget; rewrite E, M; split; reflexivity|].
    split; [reflexivity|]. split; [reflexivity|]. split; [reflexivity|]. split; [reflexivity|].
    split; [apply d_const|]. split; [apply d_const|]. split; [apply d_const|]. intros s; split; reflexivity. }
  destruct M as (X & Y & T & U & EK & Ex & MX & MY & EU & MU & W). exists X, Y, T, U. inversion Ex; subst x y t.
  split; [intros s; unfold pose2_at, value_at, hget; rewrite E, EK; split; reflexivity|]. repeat (split; [assumption || reflexivity|]). exact W.
Qed.

(** the output vector *)
Lemma sized_length {N : num} n (J0 : list (mat N)) : length (sized n J0) = n.
Proof. unfold sized. destruct (Nat.eqb_spec (length J0) n); auto. apply repeat_length. Qed.
Lemma sized1 {N : num} (J0 : list (mat N)) : exists a, sized 1 J0 = [a].
Proof. generalize (sized_length 1 J0). destruct (sized 1 J0) as [|a [|]]; try discriminate. eauto. Qed.
Lemma sized2 {N : num} (J0 : list (mat N)) : exists a b, sized 2 J0 = [a; b].
Proof. generalize (sized_length 2 J0). destruct (sized 2 J0) as [|a [|b [|]]]; try discriminate. eauto. Qed.
Lemma sized3 {N : num} (J0 : list (mat N)) : exists a b c, sized 3 J0 = [a; b; c].
Proof. generalize (sized_length 3 J0). destruct (sized 3 J0) as [|a [|b [|c [|]]]]; try discriminate. eauto. Qed.

(** the variable exists and has size [n] *)
Definition there (h : rheap) (a : addr) (n : nat) : Prop := exists v, nth_error h a = Some v /\ ksize (l_kind v) = n.
Lemma there_pose h a p C : sees_pose h a p C -> there h a 6.
Proof. intros (id & c & r & Ha). eexists. split; [exact Ha|reflexivity]. Qed.
Lemma there_landmark h a p : sees_landmark h a p -> there h a 3.
Proof. intros (id & c & Ha). eexists. split; [exact Ha|reflexivity]. Qed.
Lemma there_rot h a C : sees_rot h a C -> there h a 3.
Proof. intros (id & c & r & Ha). eexists. split; [exact Ha|reflexivity]. Qed.
Lemma there_inv h a o b x : sees_inv h a o b x -> there h a 1.
Proof. intros (id & c & lo & hi & Ha). eexists. split; [exact Ha|reflexivity]. Qed.
Lemma there_plane h a n e : sees_plane h a n e -> there h a 4.
Proof. intros (id & c & Ha). eexists. split; [exact Ha|reflexivity]. Qed.
Lemma there_pose2 h a x y t : sees_pose2 h a x y t -> there h a 3.
Proof. intros (id & c & Ha). eexists. split; [exact Ha|reflexivity]. Qed.
Lemma there_vector h a x : sees_vector h a x -> there h a (length x).
Proof. intros (id & c & [Ha|[L Ha]]); eexists; (split; [exact Ha|]); [reflexivity|symmetry; exact L]. Qed.
Lemma there_generic h a x : sees_generic h a x -> there h a (length x).
Proof. intros (id & c & Ha); eexists; (split; [exact Ha|]); reflexivity. Qed.
Lemma blk_there h a n M : there h a n -> blk h a M = Ok (blkv h a M).
Proof. intros (v & Ha & _). exact (blk_value _ _ _ _ Ha). Qed.
Lemma term_there h D a n M i : there h a n -> term h D a (blkv h a M) i = rsum n (fun c => mat_at M i c * nth c (vel h D a) 0).
Proof. intros (v & Ha & <-). exact (term_value _ _ _ _ _ _ Ha). Qed.
Lemma shape_there (h : rheap) a n (M : mat RN) r : there h a n -> mrows M = r -> mcols M = n ->
  exists a' (v : lvar RN), Some a = Some a' /\ nth_error h a' = Some v /\
    if l_const v then mrows (blkv h a M) = 0%nat /\ mcols (blkv h a M) = 0%nat else mrows (blkv h a M) = r /\ mcols (blkv h a M) = vsize (lib RN) v.
Proof. intros (v & Ha & <-) Hr Hc. exists a, v. split; [reflexivity|]. split; [exact Ha|]. unfold blkv. rewrite Ha. destruct (l_const v); simpl; auto. Qed.
Lemma rsum6 f : rsum 6 f = f 0%nat + f 1%nat + f 2%nat + f 3%nat + f 4%nat + f 5%nat.
Proof. unfold rsum. simpl. ring. Qed.
Lemma rsum4 f : rsum 4 f = f 0%nat + f 1%nat + f 2%nat + f 3%nat.
Proof. unfold rsum. simpl. ring. Qed.
Lemma rsum3 f : rsum 3 f = f 0%nat + f 1%nat + f 2%nat.
Proof. unfold rsum. simpl. ring. Qed.
Lemma rsum2 f : rsum 2 f = f 0%nat + f 1%nat.
Proof. unfold rsum. simpl. ring. Qed.
Lemma rsum1 f : rsum 1 f = f 0%nat.
Proof. unfold rsum. simpl. ring. Qed.
(** blocks of three rows *)
Lemma term_mat36 h D a A B i : there h a 6 -> (i < 3)%nat ->
  term h D a (blkv h a (mat36 A B)) i = coord (v3add (m3v A (dir3 0 (vel h D a))) (m3v B (dir3 3 (vel h D a)))) i.
Proof.
  intros T Hi. rewrite (term_there _ _ _ _ _ _ T), rsum6. dm A; dm B.
  destruct i as [|[|[|i]]]; [| | |lia]; cbn [mat36 rows_mat mat_at nth v3list m3row0 m3row1 m3row2 app m00 m01 m02 m10 m11 m12 m20 m21 m22 vx vy vz];
  unfold dir3; cbn [Nat.add]; gx; ring.
Qed.
Lemma term_mat33 h D a A i : there h a 3 -> (i < 3)%nat -> term h D a (blkv h a (mat33 A)) i = coord (m3v A (dir3 0 (vel h D a))) i.
Proof.
  intros T Hi. rewrite (term_there _ _ _ _ _ _ T), rsum3. dm A.
  destruct i as [|[|[|i]]]; [| | |lia]; cbn [mat33 m3rows rows_mat mat_at nth v3list m3row0 m3row1 m3row2 app m00 m01 m02 m10 m11 m12 m20 m21 m22 vx vy vz];
  unfold dir3; cbn [Nat.add]; gx; ring.
Qed.
Lemma term_diagm h D a n (w : R) i : there h a n -> (i < n)%nat -> term h D a (blkv h a (diagm n w)) i = w * nth i (vel h D a) 0.
Proof. intros T Hi. rewrite (term_there _ _ _ _ _ _ T). apply (diag_sum n w (fun c => nth c (vel h D a) 0)). exact Hi. Qed.
Lemma term_col3 h D a v i : there h a 1 -> (i < 3)%nat -> term h D a (blkv h a (col3 v)) i = coord v i * nth 0 (vel h D a) 0.
Proof.
  intros T Hi. rewrite (term_there _ _ _ _ _ _ T), rsum1. destruct i as [|[|[|i]]]; [| | |lia]; reflexivity.
Qed.
Lemma pose_at_sees (h : rheap) a p C : sees_pose h a p C -> pose_at h a = Ok (p, C).
Proof. intros (id & c & r & Ha). unfold pose_at, hget. rewrite Ha. destruct p; reflexivity. Qed.
Lemma landmark_at_sees (h : rheap) a p : sees_landmark h a p -> landmark_at h a = Ok p.
Proof. intros (id & c & Ha). unfold landmark_at, hget. rewrite Ha. destruct p; reflexivity. Qed.
Lemma rot_at_sees (h : rheap) a C : sees_rot h a C -> rot_at h a = Ok C.
Proof. intros (id & c & r & Ha). unfold rot_at, hget. rewrite Ha. reflexivity. Qed.
Lemma plane_at_sees (h : rheap) a n e : sees_plane h a n e -> plane_at h a = Ok (n, e).
Proof. intros (id & c & Ha). unfold plane_at, hget. rewrite Ha. reflexivity. Qed.
Lemma pose2_at_sees (h : rheap) a x y t : sees_pose2 h a x y t -> pose2_at h a = Ok (V2 (N:=RN) x y, t).
Proof. intros (id & c & Ha). unfold pose2_at, hget. rewrite Ha. reflexivity. Qed.
Lemma generic_at_sees (h : rheap) a x : sees_generic h a x -> generic_at h a = Ok x.
Proof. intros (id & c & Ha). unfold generic_at, hget. rewrite Ha. reflexivity. Qed.
Lemma value_at_sees (h : rheap) a x : sees_vector h a x -> value_at h a = Ok x.
Proof. intros (id & c & [Ha|[L Ha]]); unfold value_at, hget; rewrite Ha; reflexivity. Qed.
Lemma value3_at_sees (h : rheap) a p : sees_vector h a [vx p; vy p; vz p] -> value3_at h a = Ok p.
Proof. intros Hs. unfold value3_at. rewrite (value_at_sees _ _ _ Hs). destruct p; reflexivity. Qed.
Lemma v3list_coord (p : v3 RN) i : (i < 3)%nat -> nth i (v3list p) 0 = coord p i.
Proof. intros Hi. destruct p. destruct i as [|[|[|i]]]; [reflexivity..|lia]. Qed.
(** exactness, for a factor whose residual is the three coordinates of a moving point *)
Lemma exact3 (f : factor (N:=RN) (V:=lvar RN)) h J : f_rsize f = 3%nat -> (forall J0, f_jac f h J0 = (J, Ok tt)) -> shaped h 3 (f_vars f) J ->
  (forall H D, hmoves H h D -> exists P p d, (forall s, f_res f (H s) = Ok (v3list (P s))) /\ moving P p d /\
    forall i, (i < 3)%nat -> coord d i = response h D (f_vars f) J i) -> exact_jacobian f h J.
Proof.
  intros E HJ HS HD. split; [exact HJ|]. rewrite E. split; [exact HS|]. intros H D HM. destruct (HD H D HM) as (P & p & d & HR & MP & HT).
  exists (fun s => v3list (P s)). split; [intros s; split; [apply HR|reflexivity]|]. intros i Hi. rewrite <- HT by exact Hi.
  eapply d_ext; [intros s; symmetry; apply v3list_coord; exact Hi|]. apply MP. exact Hi.
Qed.
Lemma unit_over (sigma : R) : @eq R (@ndiv RN (@nunit RN) sigma) (1 / sigma).
Proof. change (@ndiv RN (@nunit RN) sigma) with ((nunit (N:=RN) : R) / sigma)%R. f_equal. exact q1. Qed.
