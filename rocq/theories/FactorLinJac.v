(** Exact Jacobians of the factors that only use value(). *)
From Coq Require Import List Arith ZArith QArith Bool Reals Lra Lia.
From Coquelicot Require Import Coquelicot.
From Verif Require Import Base Sparse Graph Geom Vars VarOps FactorsLin FactorsLinFacts FactorsGeo SpecGeom SpecFactor Real RSum GeomR FactorCalc FactorRead FactorJac.
Import ListNotations.
Local Open Scope R_scope.

Definition sized_value (h : rheap) (a : addr) (n : nat) : Prop := exists v, nth_error h a = Some v /\ length (kval (l_kind v)) = n.
Lemma read_additive (H : R -> rheap) h D a m x : hmoves H h D -> sees_additive h a m x ->
  exists X, (forall s, value_at (H s) a = Ok (X s)) /\ (forall s, length (X s) = length x) /\
  forall i, (i < m)%nat -> nth i (X 0) 0 = nth i x 0 /\ is_derive (fun s => nth i (X s) 0) 0 (nth i (vel h D a) 0).
Proof.
  intros HM (Hm & [id c k] & Ha & Ex & Lx & Hk). destruct (hm_at _ _ _ _ _ _ _ HM Ha) as (K & E & M). rewrite (vel_at _ _ _ _ _ _ Ha). cbn [l_kind] in *.
  destruct c.
  { exists (fun _ => x). split; [intros s; unfold value_at, hget; rewrite E, M; simpl; rewrite Ex; reflexivity|]. split; [reflexivity|].
    intros i Hi. rewrite nth_nil_R. split; [reflexivity|apply d_const]. }
  assert (VA : forall X, (forall s, kval (K s) = X s) -> forall s, value_at (H s) a = Ok (X s)).
  { intros X HX s. unfold value_at, hget. rewrite E. cbn [obind l_kind]. rewrite HX. reflexivity. }
  destruct k; cbn [additive_part kval ksize] in *; subst; try lia.
  1-2: (destruct M as (X & EK & X0 & LX & DX); exists X; split; [apply VA; intros s; rewrite EK; reflexivity|]; split; [exact LX|];
        intros i Hi; rewrite X0; split; [reflexivity|apply DX; change (car RN) with R in *; lia]).
  1: { destruct M as (X & C & EK & LX & (MP0 & MP) & _). exists X. split; [apply VA; intros s; rewrite EK; reflexivity|].
       split; [intros s; rewrite LX; symmetry; exact Lx|]. intros i Hi. unfold dir3 in MP0. cbn [Nat.add] in MP0.
       pose proof (f_equal vx MP0) as Q0. pose proof (f_equal vy MP0) as Q1. pose proof (f_equal vz MP0) as Q2. cbn [vx vy vz] in Q0, Q1, Q2.
       assert (Hi3 : (i < 3)%nat) by lia. clear Hi. specialize (MP i Hi3). i3 i; (split; [assumption|exact MP]). }
  1: { destruct M as (X & EK & Ex & DX). exists (fun s => [X s]). split; [apply VA; intros s; rewrite EK; reflexivity|]. rewrite Ex. split; [reflexivity|].
       intros i Hi. assert (i = 0)%nat by lia. subst i. split; [reflexivity|exact DX]. }
  destruct M as (X & Y & T & U & EK & Ex & DX & DY & _). exists (fun s => [X s; Y s; T s]). split; [apply VA; intros s; rewrite EK; reflexivity|].
  rewrite Ex. split; [reflexivity|]. intros i Hi. assert (Hi2 : (i < 2)%nat) by lia. destruct i as [|[|i]]; [| |lia]; (split; [reflexivity|assumption]).
Qed.
Lemma there_additive h a m x : sees_additive h a m x -> there h a (length x).
Proof. intros (Hm & v & Ha & Ex & Lx & _). exists v. split; [exact Ha|]. symmetry. exact Lx. Qed.
Lemma value_additive (h : rheap) a m x : sees_additive h a m x -> value_at h a = Ok x.
Proof. intros (Hm & v & Ha & Ex & Lx & _). unfold value_at, hget. rewrite Ha. simpl. rewrite Ex. reflexivity. Qed.

Lemma gprior_value_at (a : addr) prior (w : R) (h : rheap) x : value_at h a = Ok x -> length x = length prior ->
  gprior_res (lib RN) a prior w h = Ok (vscale (N:=RN) w (vsub (N:=RN) x prior)).
Proof.
  intros Hv L. unfold value_at in Hv. unfold gprior_res. destruct (hget h a) as [v| |]; try discriminate. cbn [obind] in *. inversion Hv as [Hx].
  unfold vec_minus. cbn [vval lib]. rewrite Hx. change (car RN) with R in *. rewrite L, Nat.eqb_refl. reflexivity.
Qed.
Lemma gprior_exact id a prior (sigma : R) h x : sees_additive h a (length prior) x -> length x = length prior ->
  (exists v, nth_error h a = Some v /\ l_const v = false) ->
  exact_jacobian (generic_prior (lib RN) id a prior sigma) h [diagm (length prior) (1 / sigma)].
Proof.
  intros S L (v & Ha & Hc). pose proof (there_additive _ _ _ _ S) as T. unfold generic_prior. cbv zeta. rewrite unit_over. set (w := 1 / sigma).
  assert (EB : diagm (length prior) w = blkv h a (diagm (length prior) w)) by (unfold blkv; rewrite Ha, Hc; reflexivity).
  split; [|split]; cbn [f_jac f_vars f_res f_rsize].
  1: (intros J0; rewrite (gprior_jac_value _ _ _ _ _ _ Ha); unfold gprior_blocks; cbn [vconst lib]; rewrite Hc; reflexivity).
  1: (rewrite EB; apply Forall2_cons; [eapply shape_there; [exact T|reflexivity|symmetry; exact L]|apply Forall2_nil]).
  intros H D HM. destruct (read_additive _ _ _ _ _ _ HM S) as (X & EX & LX & DX).
  exists (fun s => vscale (N:=RN) w (vsub (N:=RN) (X s) prior)). split.
  { intros s. split; [apply gprior_value_at; [apply EX|rewrite LX; exact L]|]. rewrite vscale_length, vsub_length, LX, L. apply Nat.min_id. }
  intros i Hi. destruct (DX i Hi) as [_ Di].
  eapply d_ext with (f := fun s => w * (nth i (X s) 0 - nth i prior 0)).
  { intros s. rewrite nth_vscale, nth_vsub; [reflexivity|rewrite LX; exact L|rewrite LX; change (car RN) with R in *; lia]. }
  eapply d_eq; [apply d_scal; apply d_minus; [exact Di|apply d_const]|]. rewrite EB. cbn [response].
  rewrite term_diagm by (try exact Hi; rewrite <- L; exact T). ring.
Qed.
Lemma gbetween_value_at (a b d : addr) (w : R) (h : rheap) xa xb xd n : value_at h a = Ok xa -> value_at h b = Ok xb -> value_at h d = Ok xd ->
  length xa = n -> length xb = n -> length xd = n ->
  gbetween_res (lib RN) a b d w h = Ok (vscale (N:=RN) w (vsub (N:=RN) (vsub (N:=RN) xb xa) xd)).
Proof.
  intros Ha Hb Hd La Lb Ld. unfold value_at, hget in Ha, Hb, Hd.
  destruct (nth_error h a) as [va|] eqn:Ea; [|discriminate]. destruct (nth_error h b) as [vb|] eqn:Eb; [|discriminate]. destruct (nth_error h d) as [vd|] eqn:Ed; [|discriminate].
  cbn [obind] in *. inversion Ha; inversion Hb; inversion Hd; subst xa xb xd.
  rewrite (gbetween_value (lib RN) a b d w h va vb vd n) by assumption. reflexivity.
Qed.
Lemma gbetween_exact id a b d n (sigma : R) h xa xb xd : sees_additive h a n xa -> sees_additive h b n xb -> sees_additive h d n xd ->
  length xa = n -> length xb = n -> length xd = n ->
  exact_jacobian (generic_between (lib RN) id a b d n sigma) h
    [blkv h a (diagm n (- (1 / sigma))); blkv h b (diagm n (1 / sigma)); blkv h d (diagm n (- (1 / sigma)))].
Proof.
  intros Sa Sb Sd La Lb Ld. pose proof (there_additive _ _ _ _ Sa) as Ta. pose proof (there_additive _ _ _ _ Sb) as Tb. pose proof (there_additive _ _ _ _ Sd) as Td.
  change (car RN) with R in *. rewrite La in Ta. rewrite Lb in Tb. rewrite Ld in Td.
  unfold generic_between. cbv zeta. rewrite unit_over. set (w := 1 / sigma). split; [|split]; cbn [f_jac f_vars f_res f_rsize].
  1: (intros J0; destruct Ta as (va & Ha & _); destruct Tb as (vb & Hb & _); destruct Td as (vd & Hd & _); rewrite (gbetween_jac_value _ _ _ _ _ _ _ _ _ _ Ha Hb Hd);
      unfold gbetween_blocks, blkv; rewrite Ha, Hb, Hd; reflexivity).
  1: shapes.
  intros H D HM. destruct (read_additive _ _ _ _ _ _ HM Sa) as (A & EA & LA & DA). destruct (read_additive _ _ _ _ _ _ HM Sb) as (B & EB & LB & DB).
  destruct (read_additive _ _ _ _ _ _ HM Sd) as (C & EC & LC & DC). change (car RN) with R in *.
  exists (fun s => vscale (N:=RN) w (vsub (N:=RN) (vsub (N:=RN) (B s) (A s)) (C s))). split.
  { intros s. split; [apply (gbetween_value_at a b d w (H s) (A s) (B s) (C s) n); auto; [rewrite LA|rewrite LB|rewrite LC]; assumption|].
    rewrite vscale_length, !vsub_length, LA, LB, LC. lia. }
  intros i Hi. destruct (DA i Hi) as [_ Di]. destruct (DB i Hi) as [_ Dj]. destruct (DC i Hi) as [_ Dk].
  eapply d_ext with (f := fun s => w * (nth i (B s) 0 - nth i (A s) 0 - nth i (C s) 0)).
  { intros s. rewrite nth_vscale, !nth_vsub; [reflexivity|rewrite LA, LB; lia|rewrite LB; lia|rewrite vsub_length, LA, LB, LC; lia|rewrite vsub_length, LA, LB; lia]. }
  eapply d_eq; [apply d_scal; apply d_minus; [apply d_minus; [exact Dj|exact Di]|exact Dk]|]. cbn [response].
  rewrite !term_diagm by assumption. ring.
Qed.
Lemma segment_len (i0 n : nat) (x : list R) : (i0 + n <= length x)%nat ->
  segment (N:=RN) i0 n x = Ok (firstn n (skipn i0 x)) /\ length (firstn n (skipn i0 x)) = n /\ forall i, (i < n)%nat -> nth i (firstn n (skipn i0 x)) 0 = nth (i0 + i) x 0.
Proof.
  intros L. unfold segment. change (car RN) with R. rewrite (proj2 (Nat.leb_le _ _) L). split; [reflexivity|]. split.
  1: (rewrite firstn_length, skipn_length; lia).
  intros i Hi. rewrite <- (firstn_skipn i0 x) at 2. rewrite app_nth2; rewrite firstn_length_le by lia; [|lia]. replace (i0 + i - i0)%nat with i by lia.
  rewrite <- (firstn_skipn n (skipn i0 x)) at 2. rewrite app_nth1; [reflexivity|]. rewrite firstn_length, skipn_length. lia.
Qed.
Lemma linvel_value (a b c : addr) n i0 (dt w : R) (h : rheap) xa xb xc : value_at h a = Ok xa -> value_at h b = Ok xb -> value_at h c = Ok xc ->
  (i0 + n <= length xa)%nat -> (i0 + n <= length xb)%nat -> length xc = n ->
  exists r, linvel_res a b c n i0 dt w h = Ok r /\ length r = n /\ forall i, (i < n)%nat -> nth i r 0 = w * (nth (i0 + i) xb 0 - nth (i0 + i) xa 0 - nth i xc 0 * dt).
Proof.
  intros Ha Hb Hc La Lb Lc. destruct (segment_len _ _ _ La) as (Sa & Na & Va). destruct (segment_len _ _ _ Lb) as (Sb & Nb & Vb).
  unfold linvel_res. rewrite Hb. cbn [obind]. change (car RN) with R in *. rewrite Sb. cbn [obind]. rewrite Ha. cbn [obind]. rewrite Sa. cbn [obind]. rewrite Hc. cbn [obind].
  set (sa := firstn n (skipn i0 xa)) in *. set (sb := firstn n (skipn i0 xb)) in *.
  match goal with |- context [vec_minus _ ?m] => set (mc := m) end.
  assert (LV : @length R mc = n) by (unfold mc; etransitivity; [apply map_length|exact Lc]).
  assert (MV : forall i, (i < n)%nat -> @nth R i mc 0 = nth i xc 0 * dt).
  { intros i Hi. rewrite (nth_indep _ 0 (0 * dt)) by (rewrite LV; exact Hi). apply (map_nth (fun x : R => x * dt)). }
  assert (LS : @length R (vsub (N:=RN) sb sa) = n) by (etransitivity; [apply vsub_length|]; rewrite Na, Nb; apply Nat.min_id).
  clearbody mc. unfold vec_minus. change (car RN) with R. rewrite LS, LV, Nat.eqb_refl. cbn [obind]. eexists. split; [reflexivity|].
  split; [etransitivity; [apply vscale_length|]; etransitivity; [apply vsub_length|]; rewrite LS, LV; apply Nat.min_id|].
  intros i Hi. rewrite nth_vscale, nth_vsub by (rewrite ?LS, ?LV; lia). rewrite nth_vsub by (rewrite ?Na, ?Nb; lia). rewrite Va, Vb, MV by exact Hi. reflexivity.
Qed.
Lemma diag_block_sum r c i0 dim (w : R) (f : nat -> R) i : (i < dim)%nat -> (i0 + dim <= c)%nat ->
  rsum c (fun k => mat_at (Mat (N:=RN) r c (fun i j => if ((j =? i0 + i) && (i <? dim))%nat then w else nzero (N:=RN))) i k * f k) = w * f (i0 + i)%nat.
Proof.
  intros Hi Hc. rewrite (rsum_single c (i0 + i)); [|lia|].
  1: (cbn [mat_at]; rewrite Nat.eqb_refl, (proj2 (Nat.ltb_lt _ _) Hi); reflexivity).
  intros k _ Hk. cbn [mat_at]. rewrite (proj2 (Nat.eqb_neq k (i0 + i))) by auto. cbn [andb]. change (nzero (N:=RN)) with (Q2R 0). rewrite q0. ring.
Qed.
Definition vblock (n c i0 : nat) (w : R) : mat RN := Mat (N:=RN) n c (fun i j => if ((j =? i0 + i) && (i <? n))%nat then w else nzero (N:=RN)).
Lemma linvel_exact id a b c n (dt sigma : R) i0 h xa xb xc :
  sees_additive h a (i0 + n) xa -> sees_additive h b (i0 + n) xb -> sees_additive h c n xc -> length xc = n ->
  exact_jacobian (linear_velocity (N:=RN) id a b c n dt sigma i0) h
    [blkv h a (vblock n (length xa) i0 (- (1 / sigma))); blkv h b (vblock n (length xb) i0 (1 / sigma)); blkv h c (diagm n (- (1 / sigma) * dt))].
Proof.
  intros Sa Sb Sc Lc. pose proof (there_additive _ _ _ _ Sa) as Ta. pose proof (there_additive _ _ _ _ Sb) as Tb. pose proof (there_additive _ _ _ _ Sc) as Tc.
  assert (LE : forall a x, sees_additive h a (i0 + n) x -> (i0 + n <= length x)%nat).
  { intros a' x' (_ & v & Hv & Ex & Lx & Hk). rewrite Lx. destruct (l_kind v); cbn [additive_part ksize kval] in *; subst; lia. }
  pose proof (LE _ _ Sa) as La. pose proof (LE _ _ Sb) as Lb. clear LE. change (car RN) with R in *. rewrite Lc in Tc.
  unfold linear_velocity. cbv zeta. rewrite unit_over. set (w := 1 / sigma). split; [|split]; cbn [f_jac f_vars f_res f_rsize].
  { intros J0. unfold linvel_jac. destruct (sized3 J0) as (j0 & j1 & j2 & ->). rewrite (blk_there _ _ _ _ Tc).
    destruct Tc as (vc & Hc & Kc). destruct Ta as (va & Ha & Ka). destruct Tb as (vb & Hb & Kb). unfold hget. rewrite Hc, Ha, Hb. cbn [obind withj]. rewrite Kc, Ka, Kb.
    unfold diag_block. rewrite Nat.leb_refl, (proj2 (Nat.leb_le _ _) La), (proj2 (Nat.leb_le _ _) Lb). cbn [andb].
    unfold blkv, vblock. rewrite Ha, Hb, Hc. destruct (l_const va), (l_const vb); reflexivity. }
  1: shapes.
  intros H D HM. destruct (read_additive _ _ _ _ _ _ HM Sa) as (A & EA & LA & DA). destruct (read_additive _ _ _ _ _ _ HM Sb) as (B & EB & LB & DB).
  destruct (read_additive _ _ _ _ _ _ HM Sc) as (C & EC & LC & DC). change (car RN) with R in *.
  pose (r := fun s => match linvel_res a b c n i0 dt w (H s) with Ok x => x | _ => [] end).
  assert (RV : forall s, linvel_res a b c n i0 dt w (H s) = Ok (r s) /\ length (r s) = n /\
    forall i, (i < n)%nat -> nth i (r s) 0 = w * (nth (i0 + i) (B s) 0 - nth (i0 + i) (A s) 0 - nth i (C s) 0 * dt)).
  { intros s. destruct (linvel_value a b c n i0 dt w (H s) (A s) (B s) (C s)) as (y & Ey & Ly & Vy); auto;
      [rewrite LA; exact La|rewrite LB; exact Lb|rewrite LC; exact Lc|]. unfold r. rewrite Ey. auto. }
  exists r. split; [intros s; split; apply RV|]. intros i Hi.
  eapply d_ext; [intros s; symmetry; apply RV; exact Hi|].
  destruct (DA (i0 + i)%nat ltac:(lia)) as [_ Di]. destruct (DB (i0 + i)%nat ltac:(lia)) as [_ Dj]. destruct (DC i Hi) as [_ Dk].
  eapply d_eq; [apply d_scal; apply d_minus; [apply d_minus; [exact Dj|exact Di]|apply (d_mult (fun s => nth i (C s) 0) (fun _ => dt)); [exact Dk|apply d_const]]|]. cbn [response].
  rewrite (term_there _ _ _ _ _ _ Ta), (term_there _ _ _ _ _ _ Tb), term_diagm by assumption. unfold vblock.
  rewrite (diag_block_sum n (length xa) i0 n (- w) (fun k => nth k (vel h D a) 0) i Hi La), (diag_block_sum n (length xb) i0 n w (fun k => nth k (vel h D b) 0) i Hi Lb). ring.
Qed.
