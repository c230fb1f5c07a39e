(** Exact Jacobians of the factor classes over the reals. *)
From Coq Require Import List Arith ZArith QArith Bool Reals Lra Lia.
From Coquelicot Require Import Coquelicot.
From Verif Require Import Base Sparse Graph Geom Vars VarOps FactorsLin FactorsLinFacts FactorsGeo SpecGeom SpecFactor Real RSum GeomR FactorCalc FactorRead.
Import ListNotations.
Local Open Scope R_scope.

Ltac i3 i := destruct i as [|[|[|i]]]; [| | |lia].
Ltac gend := repeat match goal with |- context [dir3 ?o (vel ?h ?D ?a)] => let v := fresh "v" in let x := fresh "vx" in let y := fresh "vy" in let z := fresh "vz" in
  generalize (dir3 o (vel h D a)); intros v; destruct v as [x y z] end.
Ltac shapes := repeat (apply Forall2_cons; [eapply shape_there; [eassumption|reflexivity|reflexivity]|]); apply Forall2_nil.

Lemma pospri_exact id a prior (sigma : R) h p C : sees_pose h a p C ->
  exact_jacobian (pose_position_prior (N:=RN) id a prior sigma) h [blkv h a (mat36 (m3diag (1 / sigma)) m3zero)].
Proof.
  intros S. pose proof (there_pose _ _ _ _ S) as T. unfold pose_position_prior. cbv zeta. rewrite unit_over. set (w := 1 / sigma). apply exact3; [reflexivity| | |]; cbn [f_jac f_vars f_res].
  1: (intros J0; unfold pospri_jac; destruct (sized1 J0) as (x & ->); rewrite (blk_there _ _ _ _ T); reflexivity).
  1: shapes.
  intros H D HM. destruct (read_pose _ _ _ _ _ _ HM S) as (P & Q & E & MP & MQ).
  eexists _, _, _. split; [intros s; unfold pospri_res; rewrite E; reflexivity|].
  split; [apply v3scale_moves; apply v3sub_moves; [exact MP|apply still_moves]|].
  intros i Hi. cbn [response]. rewrite term_mat36 by assumption. gend. i3 i; unfold m3diag; gx; ring.
Qed.
Definition posbet_blocks (h : rheap) a b m (w : R) (loc : bool) (p1 : v3 RN) (C1 : m3 RN) (p2 : v3 RN) : list (mat RN) :=
  if loc then [blkv h a (mat36 (m3scale (- w) C1) (m3scale (- w) (skew (m3v C1 (v3sub p2 p1))))); blkv h b (mat36 (m3scale w C1) m3zero); blkv h m (diagm 3 (- w))]
  else [blkv h a (mat36 (m3diag (- w)) m3zero); blkv h b (mat36 (m3diag w) m3zero); blkv h m (diagm 3 (- w))].
Lemma posbet_exact id a b m (sigma : R) loc h p1 C1 p2 C2 x : sees_pose h a p1 C1 -> sees_pose h b p2 C2 -> sees_vector h m [vx x; vy x; vz x] ->
  exact_jacobian (pose_position_between (N:=RN) id a b m sigma loc) h (posbet_blocks h a b m (1 / sigma) loc p1 C1 p2).
Proof.
  intros Sa Sb Sm. pose proof (there_pose _ _ _ _ Sa) as Ta. pose proof (there_pose _ _ _ _ Sb) as Tb. pose proof (there_vector _ _ _ Sm) as Tm. cbn [length] in Tm.
  unfold pose_position_between. cbv zeta. rewrite unit_over. set (w := 1 / sigma). apply exact3; [reflexivity| | |]; cbn [f_jac f_vars f_res].
  1: (intros J0; unfold posbet_jac; destruct (sized3 J0) as (j0 & j1 & j2 & ->); rewrite (pose_at_sees _ _ _ _ Sa), (pose_at_sees _ _ _ _ Sb);
      destruct loc; cbn [obind withj fst snd]; rewrite !(blk_there _ _ _ _ Ta), !(blk_there _ _ _ _ Tb), !(blk_there _ _ _ _ Tm); reflexivity).
  1: (destruct loc; shapes).
  intros H D HM. destruct (read_pose _ _ _ _ _ _ HM Sa) as (P1 & Q1 & E1 & MP1 & MQ1). destruct (read_pose _ _ _ _ _ _ HM Sb) as (P2 & Q2 & E2 & MP2 & MQ2).
  destruct (read_vector3 _ _ _ _ _ HM Sm) as (X & EX & MX).
  assert (TD : forall i, (i < 3)%nat -> term h D m (blkv h m (diagm 3 (- w))) i = coord (v3scale (- w) (dir3 0 (vel h D m))) i).
  { intros i Hi. rewrite term_diagm by assumption. i3 i; reflexivity. }
  destruct loc.
  1: eexists _, _, _; split; [intros s; unfold posbet_res; rewrite E1, E2, EX; reflexivity|].
  1: split; [apply v3scale_moves; apply v3sub_moves; [apply mv_moves; [exact MQ1|apply v3sub_moves; eassumption]|exact MX]|].
  2: eexists _, _, _; split; [intros s; unfold posbet_res; rewrite E1, E2, EX; reflexivity|].
  2: split; [apply v3scale_moves; apply v3sub_moves; [apply v3sub_moves; eassumption|exact MX]|].
  all: intros i Hi; cbn [response posbet_blocks]; rewrite !term_mat36, TD by assumption; gend; dm C1; dv p1; dv p2; i3 i; unfold m3diag; gx; ring.
Qed.

(** ** Bearings *)
Lemma norm_len (q : v3 RN) : v3norm q = len q.
Proof. destruct q. unfold v3norm, len. gx. reflexivity. Qed.
Lemma min_dist_R : @eq R (min_dist (N:=RN)) (1 / 1000000000).
Proof. unfold min_dist. change (nlit (n:=RN) (1#1000000000)) with (Q2R (1#1000000000)). unfold Q2R. simpl. lra. Qed.
Lemma min_dist_pos : 0 < (min_dist (N:=RN) : R).
Proof. rewrite min_dist_R. lra. Qed.
Lemma far_enough (q : v3 RN) : 1 / 1000000000 <= len q -> nltb (n:=RN) (v3norm q) min_dist = false.
Proof. intros H. rewrite norm_len. apply Rltb_false. rewrite min_dist_R. exact H. Qed.
Definition bearing_D (w : R) (q : v3 RN) : m3 RN :=
  let n := v3norm q in let b := v3div q n in m3scale (w / n) (m3add (m3outer (v3neg b) b) m3id).
Lemma bearing_exact id a l obs (sigma : R) h p C x : sees_pose h a p C -> sees_landmark h l x -> 1 / 1000000000 <= len (m3v C (v3sub x p)) ->
  let q := m3v C (v3sub x p) in let A := bearing_D (1 / sigma) q in
  exact_jacobian (bearing_observation (N:=RN) id a l obs sigma) h
    [blkv h a (mat36 (m3mul (m3scale (- nunit (N:=RN)) A) C) (m3mul A (m3neg (skew q)))); blkv h l (mat33 (m3mul A C))].
Proof.
  intros Sa Sl F q A. pose proof (there_pose _ _ _ _ Sa) as Ta. pose proof (there_landmark _ _ _ Sl) as Tl.
  unfold bearing_observation. cbv zeta. rewrite unit_over. apply exact3; [reflexivity| | |]; cbn [f_jac f_vars f_res].
  1: (intros J0; unfold bearing_jac; destruct (sized2 J0) as (j0 & j1 & ->); rewrite (pose_at_sees _ _ _ _ Sa), (landmark_at_sees _ _ _ Sl);
      cbn [obind withj fst snd]; fold q; rewrite (far_enough q F); cbn [withj fst snd]; rewrite !(blk_there _ _ _ _ Ta), !(blk_there _ _ _ _ Tl); reflexivity).
  1: shapes.
  intros H D HM. destruct (read_pose _ _ _ _ _ _ HM Sa) as (P1 & Q1 & E1 & MP1 & MQ1). destruct (read_landmark _ _ _ _ _ HM Sl) as (X & EX & MX).
  eexists _, _, _. split; [intros s; unfold bearing_res; rewrite E1, EX; reflexivity|].
  assert (Fq : 0 < len q) by (unfold q; lra).
  split; [apply v3scale_moves; apply v3sub_moves; [apply normalized_moves; [apply mv_moves; [exact MQ1|apply v3sub_moves; eassumption]|exact Fq]|apply still_moves]|].
  intros i Hi. cbn [response]. rewrite !term_mat36, term_mat33 by assumption. unfold A, bearing_D. cbv zeta. change (v3norm q) with (len q). fold q.
  clearbody q. generalize (len q) Fq. intros n Hn. clear - Hi Hn. generalize (1 / sigma). intros w. gend. dm C. dv q. i3 i; unfold dot; gx; field; lra.
Qed.
(** ** Inverse range *)
Definition inv_point (o b : v3 RN) (x : R) : v3 RN := v3add o (v3scale (1 / x) b).
Lemma inv_pos_far o b lo hi id c (x : R) : 1 / 1000000000 <= Rabs x -> inv_pos (LVar id c (KInv (N:=RN) o b lo hi [x])) = Some (inv_point o b x).
Proof.
  intros H. unfold inv_pos. cbn [l_kind nth nfinite RN negb orb].
  replace (nltb (n:=RN) (nabs (n:=RN) x) (nlit (1#1000000000))) with false.
  2: (symmetry; apply Rltb_false; change (nlit (n:=RN) (1#1000000000)) with (min_dist (N:=RN)); rewrite min_dist_R; exact H).
  unfold inv_point. do 2 f_equal. apply (f_equal (fun k : R => v3scale (N:=RN) k b)). apply unit_over.
Qed.
Lemma inv_moves o b (X : R -> R) (rho dx : R) : X 0 = rho -> is_derive X 0 dx -> 1 / 1000000000 < Rabs rho ->
  moving (fun s => match inv_pos (LVar 0 false (KInv (N:=RN) o b 0 0 [X s])) with Some p => p | None => nan3 end) (inv_point o b rho)
    (v3scale (- dx / (rho * rho)) b).
Proof.
  intros E0 DX F.
  assert (N0 : rho <> 0) by (intros ->; rewrite Rabs_R0 in F; lra).
  apply (moving_loc (fun s => inv_point o b (X s))).
  { assert (L : locally 0 (fun s => 1 / 1000000000 < Rabs (X s))).
    { destruct (Rcase_abs rho) as [Hn|Hp].
      1: (rewrite (Rabs_left _ Hn) in F; eapply filter_imp; [|apply (near_lt X 0 (- (1 / 1000000000)) dx DX); rewrite E0; lra];
          cbv beta; intros s Hs; rewrite Rabs_left; lra).
      rewrite (Rabs_right _ Hp) in F. eapply filter_imp; [|apply (near_gt X 0 (1 / 1000000000) dx DX); rewrite E0; lra].
      cbv beta; intros s Hs; rewrite Rabs_right; lra. }
    eapply filter_imp; [|exact L]. cbv beta. intros s Hs. rewrite inv_pos_far by lra. reflexivity. }
  assert (DI : is_derive (fun s => 1 / X s) 0 (- dx / (rho * rho))).
  { eapply d_eq; [apply d_div; [apply d_const|exact DX|rewrite E0; exact N0]|]. cbv beta. rewrite E0. field. exact N0. }
  dv o. dv b.
  eapply moving_of; [intros s; unfold inv_point; gx; reflexivity|unfold inv_point; rewrite E0; gx; reflexivity| | |]; cbn [vx vy vz v3scale];
  (eapply d_eq; [apply d_plus; [apply d_const|apply d_mult; [exact DI|apply d_const]]|]); cbv beta; gx; ring.
Qed.
Definition invb_D (q : v3 RN) : m3 RN := let n := v3norm q in let b := v3div q n in m3map (fun x : R => x / n) (m3sub m3id (m3outer b b)).
Lemma invbear_exact id a l obs (sigma : R) h p C o b rho : sees_pose h a p C -> sees_inv h l o b rho -> 1 / 1000000000 < Rabs rho ->
  1 / 1000000000 <= len (m3v C (v3sub (inv_point o b rho) p)) ->
  let q := m3v C (v3sub (inv_point o b rho) p) in let A := invb_D q in let w := 1 / sigma in
  exact_jacobian (inverse_range_bearing (N:=RN) id a l obs sigma) h
    [blkv h a (mat36 (m3mul (m3scale (- w) A) C) (m3mul (m3scale w A) (m3neg (skew q))));
     blkv h l (col3 (m3v (m3scale w A) (m3v C (v3div (v3neg b) (rho * rho)))))].
Proof.
  intros Sa Sl F0 F q A w. pose proof (there_pose _ _ _ _ Sa) as Ta. pose proof (there_inv _ _ _ _ _ Sl) as Tl.
  assert (EV : inv_at h l = Ok (inv_point o b rho, rho, b)).
  { destruct Sl as (id' & c & lo & hi & Hl). unfold inv_at, hget. rewrite Hl. cbn [obind l_kind]. rewrite inv_pos_far by lra. reflexivity. }
  unfold inverse_range_bearing. cbv zeta. rewrite unit_over. fold w. apply exact3; [reflexivity| | |]; cbn [f_jac f_vars f_res].
  1: (intros J0; unfold invbear_jac; destruct (sized2 J0) as (j0 & j1 & ->); rewrite (pose_at_sees _ _ _ _ Sa), EV;
      cbn [obind withj fst snd]; fold q; rewrite (far_enough q F); cbn [withj fst snd];
      replace (nltb (n:=RN) (nabs (n:=RN) rho) min_dist) with false by (symmetry; apply Rltb_false; rewrite min_dist_R; left; exact F0);
      rewrite !(blk_there _ _ _ _ Ta), !(blk_there _ _ _ _ Tl); reflexivity).
  1: shapes.
  intros H D HM. destruct (read_pose _ _ _ _ _ _ HM Sa) as (P1 & Q1 & E1 & MP1 & MQ1). destruct (read_inv _ _ _ _ _ _ _ HM Sl) as (X & EX & X0 & DX).
  pose proof (inv_moves o b X rho _ X0 DX F0) as MX.
  eexists _, _, _. split; [intros s; unfold invbear_res; rewrite E1, EX; reflexivity|].
  assert (Fq : 0 < len q) by (unfold q; lra).
  split; [apply v3scale_moves; apply v3sub_moves; [apply normalized_moves; [apply mv_moves; [exact MQ1|apply v3sub_moves; [exact MX|exact MP1]]|exact Fq]|apply still_moves]|].
  intros i Hi. cbn [response]. rewrite !term_mat36, term_col3 by assumption. unfold A, invb_D. cbv zeta. change (v3norm q) with (len q). fold q.
  assert (N0 : rho <> 0) by (intros ->; rewrite Rabs_R0 in F0; lra).
  clearbody q. generalize (len q) Fq. intros n Hn. clearbody w. generalize (nth 0 (vel h D l) 0). intros dx. clear - Hi Hn N0. gend. dm C. dv q. dv b. i3 i; unfold dot; gx; field; split; lra.
Qed.

(** ** Coordinate transform *)
Lemma m3v_scale_moves (K : R -> R) (k dk : R) P p e : K 0 = k -> is_derive K 0 dk -> moving P p e ->
  moving (fun s => v3scale (K s) (P s)) (v3scale k p) (v3add (v3scale k e) (v3scale dk p)).
Proof.
  intros EK DK HP. mcomp HP. subst p. destruct e as [e0 e1 e2]. cbn [vx vy vz] in *. subst k.
  eapply moving_of; [intros s; rewrite Ec; gx; reflexivity|gx; reflexivity| | |]; gx; der; ring.
Qed.
Lemma ctrans_exact_part id r o s la lb (sigma : R) h C org (k : R) xa xb :
  sees_rot h r C -> sees_generic h o [vx org; vy org; vz org] -> sees_generic h s [k] -> sees_landmark h la xa -> sees_landmark h lb xb ->
  let w := 1 / sigma in
  let J := [blkv h r (mat33 (m3scale (w * k) (skew (m3v C xb)))); blkv h o (mat33 (m3scale w m3id)); blkv h s (col3 (m3v (m3scale (- w) C) xb));
            blkv h la (mat33 (m3scale w m3id)); blkv h lb (mat33 (m3scale (- w * k) C))] in
  let f := coordinate_transform (N:=RN) id r o s la lb sigma in
  (forall J0, length J0 = 0%nat \/ length J0 = 5%nat -> f_jac f h J0 = (J, Ok tt)) /\ shaped h 3 (f_vars f) J /\
  (forall J0, length J0 <> 0%nat -> length J0 <> 5%nat -> snd (f_jac f h J0) = UB UBIndex) /\
  forall H D, hmoves H h D -> exists r : R -> list R,
    (forall t, f_res f (H t) = Ok (r t) /\ length (r t) = 3%nat) /\
    forall i, (i < 3)%nat -> is_derive (fun t => nth i (r t) 0) 0 (response h D (f_vars f) J i).
Proof.
  intros Sr So Ss Sa Sb w J f. pose proof (there_rot _ _ _ Sr) as Tr. pose proof (there_generic _ _ _ So) as To. pose proof (there_generic _ _ _ Ss) as Ts.
  pose proof (there_landmark _ _ _ Sa) as Ta. pose proof (there_landmark _ _ _ Sb) as Tb. cbn [length] in To, Ts.
  unfold f, coordinate_transform. cbv zeta. rewrite unit_over. fold w. cbn [f_jac f_vars f_res].
  split.
  { intros J0 HJ. unfold ctrans_jac. rewrite (rot_at_sees _ _ _ Sr), (generic_at_sees _ _ _ Ss), (landmark_at_sees _ _ _ Sb). cbn [obind withj].
    rewrite !(blk_there _ _ _ _ Tr), !(blk_there _ _ _ _ To), !(blk_there _ _ _ _ Ts), !(blk_there _ _ _ _ Ta), !(blk_there _ _ _ _ Tb).
    destruct HJ as [HJ|HJ].
    1: (destruct J0; [|discriminate]; reflexivity).
    destruct J0 as [|j0 [|j1 [|j2 [|j3 [|j4 [|]]]]]]; try discriminate. reflexivity. }
  split; [unfold J; shapes|].
  split.
  { intros J0 H0 H5. unfold ctrans_jac. rewrite (rot_at_sees _ _ _ Sr), (generic_at_sees _ _ _ Ss), (landmark_at_sees _ _ _ Sb). cbn [obind withj].
    rewrite !(blk_there _ _ _ _ Tr), !(blk_there _ _ _ _ To), !(blk_there _ _ _ _ Ts), !(blk_there _ _ _ _ Ta), !(blk_there _ _ _ _ Tb).
    unfold ctrans_sized. rewrite (proj2 (Nat.eqb_neq _ _) H0), (proj2 (Nat.eqb_neq _ _) H5). reflexivity. }
  intros H D HM. destruct (read_rot _ _ _ _ _ HM Sr) as (Q & EQ & MQ). destruct (read_generic _ _ _ _ _ HM So) as (O & EO & MO).
  destruct (read_generic _ _ _ _ _ HM Ss) as (K & EK & MK). destruct (read_landmark _ _ _ _ _ HM Sa) as (A & EA & MA).
  destruct (read_landmark _ _ _ _ _ HM Sb) as (B & EB & MB).
  pose proof (vec_moves3 _ _ _ MO eq_refl) as MO3.
  assert (LO : forall t, length (O t) = 3%nat) by (intros t; apply (proj1 (proj2 MO))).
  destruct MK as (K0 & LK & DK). specialize (DK 0%nat (Nat.lt_0_succ _)).
  assert (KE : forall t, K t = [nth 0 (K t) 0]) by (intros t; specialize (LK t); destruct (K t) as [|y [|]]; try discriminate; reflexivity).
  pose (P := fun t => v3scale w (v3sub (A t) (v3sub (v3scale (nth 0 (K t) 0) (m3v (Q t) (B t))) (dir3 0 (O t))))).
  assert (MP : moving P (v3scale w (v3sub xa (v3sub (v3scale k (m3v C xb)) org)))
    (v3scale w (v3sub (dir3 0 (vel h D la)) (v3sub (v3add (v3scale k (v3add (m3v C (dir3 0 (vel h D lb))) (v3cross (dir3 0 (vel h D r)) (m3v C xb))))
       (v3scale (nth 0 (vel h D s) 0) (m3v C xb))) (dir3 0 (vel h D o)))))).
  { unfold P. apply v3scale_moves, v3sub_moves; [exact MA|]. apply v3sub_moves; [|replace org with (dir3 0 [vx org; vy org; vz org]) by (destruct org; reflexivity); exact MO3].
    apply m3v_scale_moves; [rewrite K0; reflexivity|exact DK|]. apply mv_moves; assumption. }
  exists (fun t => v3list (P t)). split.
  { intros t. split; [|reflexivity]. unfold ctrans_res, ctrans_ref. rewrite EQ, EK, EB, EO, EA. rewrite KE. cbn [obind]. rewrite to_v3_dir3 by apply LO. cbn [obind nth]. unfold P.
    apply f_equal. apply f_equal. apply f_equal. apply f_equal. apply (f_equal (fun u => v3sub u (dir3 0 (O t)))).
    generalize (nth 0 (K t) 0) (Q t) (B t). intros y C' b'. dm C'. dv b'. gring. }
  intros i Hi. eapply d_eq; [eapply d_ext; [intros t; symmetry; apply v3list_coord; exact Hi|]; apply MP; exact Hi|].
  cbn [response J]. unfold J. cbn [response]. rewrite !term_mat33, term_col3 by assumption. clearbody w. generalize (nth 0 (vel h D s) 0). intros dk. gend. dm C. dv xb. i3 i; gx; ring.
Qed.
