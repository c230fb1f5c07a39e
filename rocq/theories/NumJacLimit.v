(** Proofs for PropsNumJac: the numerical Jacobian tends to the exact one. *)
From Coq Require Import List Arith ZArith QArith Bool Lia Reals Lra.
From Coquelicot Require Import Coquelicot.
From Verif Require Import Base Sparse Graph Geom Vars SpecGraph ListLemmas RSum Real NumJac SpecTools NumJacFacts NumJacLib NumJacReal.
From Verif Require Import SpecGeom SpecFactor GeomR FactorCalc FactorStep FactorMotion.
Import ListNotations.
Set Bullet Behavior "Strict Subproofs".
Local Open Scope R_scope.

(** symmetric difference quotients converge *)
Lemma symmetric_limit (g : R -> R) l : is_derive g 0 l -> forall d, 0 < d -> exists e0, 0 < e0 /\ forall e, 0 < Rabs e < e0 -> Rabs ((g e - g (- e)) / (2 * e) - l) < d.
Proof.
  intros H d Hd. apply is_derive_Reals in H. destruct (H d Hd) as [e0 He]. exists e0. split; [apply cond_pos|]. intros e (E1 & E2).
  assert (e <> 0) by (intros ->; rewrite Rabs_R0 in E1; lra).
  pose proof (He e H0 E2) as P. assert (H1 : - e <> 0) by lra. pose proof (He (- e) H1 ltac:(rewrite Rabs_Ropp; exact E2)) as M. rewrite !Rplus_0_l in *.
  replace ((g e - g (- e)) / (2 * e) - l) with ((((g e - g 0) / e - l) + ((g (- e) - g 0) / - e - l)) / 2) by (field; auto).
  revert P M. generalize ((g e - g 0) / e - l). generalize ((g (- e) - g 0) / - e - l). intros x y P M.
  apply Rabs_def2 in P. apply Rabs_def2 in M. apply Rabs_def1; lra.
Qed.
Lemma uniform (P : nat -> R -> Prop) n : (forall x, (x < n)%nat -> exists e0, 0 < e0 /\ forall e, 0 < Rabs e < e0 -> P x e) ->
  exists e0, 0 < e0 /\ forall e, 0 < Rabs e < e0 -> forall x, (x < n)%nat -> P x e.
Proof.
  induction n as [|n IH]; intros H; [exists 1; split; [lra|intros; lia]|].
  destruct IH as (e1 & P1 & Q1); [intros; apply H; lia|]. destruct (H n) as (e2 & P2 & Q2); [lia|].
  exists (Rmin e1 e2). split; [apply Rmin_glb_lt; auto|]. intros e (E1 & E2) x Hx. pose proof (Rmin_l e1 e2). pose proof (Rmin_r e1 e2).
  destruct (Nat.eq_dec x n) as [->|]; [apply Q2; lra|apply Q1; [lra|lia]].
Qed.

Definition unit_at (n k : nat) : list R := map (fun i => if (i =? k)%nat then 1 else 0) (seq 0 n).
Lemma unit_length n k : length (unit_at n k) = n. Proof. unfold unit_at. rewrite map_length, seq_length. reflexivity. Qed.
Lemma unit_nth n k c : (c < n)%nat -> nth c (unit_at n k) 0 = if (c =? k)%nat then 1 else 0.
Proof.
  intros H. apply nth_error_nth. unfold unit_at. rewrite nth_error_map, nth_error_seq, (proj2 (Nat.ltb_lt _ _)) by auto. reflexivity.
Qed.
Lemma probe_unit n k (eps : R) : probe (N:=RN) n k eps = map (Rmult eps) (unit_at n k).
Proof.
  unfold probe, unit_at. rewrite map_map. apply map_ext. intros i. destruct (i =? k)%nat; [symmetry; apply Rmult_1_r|]. change (nzero (N:=RN)) with (Q2R 0). rewrite q0. symmetry. apply Rmult_0_r.
Qed.
Lemma probe_unit_neg n k (eps : R) : vneg (N:=RN) (probe (N:=RN) n k eps) = map (Rmult (- eps)) (unit_at n k).
Proof.
  rewrite probe_unit. unfold vneg. rewrite map_map. apply map_ext. intros x. change (- (eps * x) = - eps * x). ring.
Qed.
Lemma along_probe n k (eps : R) dx : along (N:=RN) n k eps dx -> dx = probe (N:=RN) n k eps.
Proof.
  intros (L & H). apply list_ext_nth. intros i. destruct (lt_dec i n) as [Hi|Hi].
  - rewrite (H i Hi). destruct (probe_along (N:=RN) n k eps) as (_ & K). rewrite (K i Hi). reflexivity.
  - rewrite (proj2 (nth_error_None _ _)) by (change (car RN) with R in *; lia). symmetry. apply nth_error_None. rewrite (proj1 (probe_along (N:=RN) n k eps)). lia.
Qed.

(** a variable at rest *)
Lemma nth_repeat0 n i : nth i (repeat 0 n) 0 = 0.
Proof. revert i. induction n; intros [|i]; simpl; auto. Qed.
Lemma dir3_rest off n : dir3 off (repeat 0 n) = V3 (N:=RN) 0 0 0.
Proof. unfold dir3. rewrite !nth_repeat0. reflexivity. Qed.
Lemma rest_derive (g : R -> R) d : (forall s, g s = g 0) -> d = 0 -> is_derive g 0 d.
Proof. intros H ->. apply (is_derive_ext (fun _ => g 0)); [intros; symmetry; apply H|]. apply (is_derive_const (g 0)). Qed.
Lemma at_rest (k : kind RN) : well_formed k -> kind_moves (fun _ => k) k (repeat 0 (ksize k)).
Proof.
  assert (T : forall A, turning (fun _ => A) A (V3 (N:=RN) 0 0 0)).
  { intros A. split; auto. intros i j _ _. apply rest_derive; auto. unfold sum3, crossm. destruct i as [|[|[|i]]]; simpl; ring. }
  assert (M : forall p d, (forall i, coord d i = 0) -> moving (fun _ => p) p d) by (intros p d H; split; auto; intros i _; apply rest_derive; auto).
  assert (X : forall x n, vec_moves (fun _ => x) x (repeat 0 n)) by (intros x n; split; auto; split; auto; intros i _; apply rest_derive; auto; apply nth_repeat0).
  assert (Z : forall i, coord (V3 (N:=RN) 0 0 0) i = 0) by (intros [|[|i]]; reflexivity).
  intros W. destruct k as [x|x|x A|x A|o b lo hi x|n e|x]; cbn [kind_moves well_formed] in *.
  - exists (fun _ => x). auto.
  - exists (fun _ => x). auto.
  - exists (fun _ => x), (fun _ => A). rewrite !dir3_rest. auto.
  - exists (fun _ => x), (fun _ => A). rewrite !dir3_rest. auto.
  - destruct x as [|r [|? ?]]; try discriminate. exists (fun _ => r). split; auto. split; auto. apply rest_derive; auto; apply nth_repeat0.
  - exists (fun _ => n), (fun _ => e). rewrite dir3_rest, nth_repeat0. split; auto. split; auto. split; [apply rest_derive; auto|]. apply M.
    intros i. unfold across, dot. destruct i as [|[|i]]; cbn; ring.
  - destruct x as [|u [|v [|t [|? ?]]]]; try discriminate. exists (fun _ => u), (fun _ => v), (fun _ => t), (fun _ => t). rewrite !nth_repeat0. cbv beta.
    repeat (split; [solve [auto | apply rest_derive; auto]|]). auto.
Qed.

Section Limit.
Variables (f : factor (N:=RN) (V:=lvar RN)) (h : @heap (lvar RN)) (J : list (mat RN)).
Hypothesis EJ : exact_jacobian f h J.
Hypothesis ND : NoDup (f_vars f).
Hypothesis WF : forall a v, nth_error h a = Some v -> well_formed (l_kind v).
Hypothesis RG : each_variable (lib RN) f h (fun v => regular (l_kind v) /\ returns (lib RN) v).

Definition only (a : addr) (d : list R) (b : addr) : list R :=
  if Nat.eq_dec b a then d else match nth_error h b with Some v => repeat 0 (ksize (l_kind v)) | None => [] end.
Lemma one_moves a v d K : nth_error h a = Some v -> l_const v = false -> kind_moves K (l_kind v) d -> hmoves (fun s => lupd a (LVar (l_id v) (l_const v) (K s)) h) h (only a d).
Proof.
  intros Ha Hc HK b w Hb. pose proof (lt_of_nth _ _ _ Ha) as La. unfold only. destruct (Nat.eq_dec b a) as [->|n].
  - assert (w = v) by congruence. subst w. exists K. rewrite Hc. split; auto. intros s. rewrite lupd_nth_same by auto. rewrite <- Hc. destruct v; reflexivity.
  - exists (fun _ => l_kind w). split; [intros s; rewrite lupd_nth_other by auto; rewrite Hb; destruct w; reflexivity|]. rewrite Hb. destruct (l_const w); auto. apply at_rest. eapply WF; eauto.
Qed.
Lemma response_rest a d i vars : ~ In (Some a) vars -> forall Js, response h (only a d) vars Js i = 0.
Proof.
  induction vars as [|[b|] vars IH]; intros NI [|B Js]; cbn [response]; auto. rewrite IH by (intros H; apply NI; right; auto).
  assert (b <> a) by (intros ->; apply NI; left; reflexivity). unfold term, only. destruct (nth_error h b) as [w|]; [|ring]. destruct (l_const w); [ring|]. destruct (Nat.eq_dec b a); [contradiction|].
  rewrite rsum_zero; [ring|]. intros c _. rewrite nth_repeat0. change (car RN) with R. ring.
Qed.
Lemma response_one a v i k vars : NoDup vars -> nth_error h a = Some v -> l_const v = false -> (k < ksize (l_kind v))%nat ->
  forall q Js B, nth_error vars q = Some (Some a) -> nth_error Js q = Some B -> (forall p, In p vars -> p <> None) -> response h (only a (unit_at (ksize (l_kind v)) k)) vars Js i = mat_at B i k.
Proof.
  intros NDv Ha Hc Hk. induction vars as [|p vars IH]; intros q Js B Hq HB NN; [destruct q; discriminate|].
  inversion NDv as [|? ? NI ND']; subst. destruct Js as [|B0 Js]; [destruct q; discriminate|]. destruct q as [|q]; cbn in Hq, HB.
  - injection Hq as ->. injection HB as ->. cbn [response]. rewrite response_rest by auto. unfold term, only. rewrite Ha, Hc. destruct (Nat.eq_dec a a); [|contradiction].
    change (vsize (lib RN) v) with (ksize (l_kind v)). rewrite (rsum_single _ k); auto.
    + rewrite unit_nth, Nat.eqb_refl by auto. change (car RN) with R. ring.
    + intros c Lc Hck. rewrite unit_nth by auto. rewrite (proj2 (Nat.eqb_neq c k)) by auto. change (car RN) with R. ring.
  - destruct p as [b|]; [|exfalso; apply (NN None); [left; reflexivity|reflexivity]]. cbn [response].
    rewrite (IH ND' q Js B Hq HB) by (intros; apply NN; right; auto).
    assert (b <> a) by (intros ->; apply NI; eapply nth_error_In; eauto). unfold term, only. destruct (nth_error h b) as [w|]; [|ring]. destruct (l_const w); [ring|]. destruct (Nat.eq_dec b a); [contradiction|].
    rewrite rsum_zero; [change (car RN) with R; ring|]. intros c _. rewrite nth_repeat0. change (car RN) with R. ring.
Qed.
Lemma lib_vars_there p : In p (f_vars f) -> exists a v, p = Some a /\ nth_error h a = Some v.
Proof.
  intros Hp. destruct EJ as (_ & Sh & _). apply In_nth_error in Hp. destruct Hp as (q & Hq). apply Forall2_nth in Sh. destruct Sh as (L & Sh).
  destruct (nth_error J q) as [M|] eqn:HM.
  - destruct (Sh _ _ _ Hq HM) as (a & v & E & Ha & _). eauto.
  - apply nth_error_None in HM. pose proof (lt_of_nth _ _ _ Hq). exfalso. apply (Nat.lt_irrefl (length J)). eapply Nat.le_lt_trans; [exact HM|]. rewrite <- L. exact H.
Qed.
Lemma column_curve a v k : In (Some a) (f_vars f) -> nth_error h a = Some v -> l_const v = false -> (k < ksize (l_kind v))%nat ->
  exists (Vs : R -> lvar RN) (r : R -> list R), (forall s, vinc (lib RN) v (map (Rmult s) (unit_at (ksize (l_kind v)) k)) = Ok (Vs s)) /\
  (forall s, f_res f (lupd a (Vs s) h) = Ok (r s) /\ length (r s) = f_rsize f) /\
  forall i, (i < f_rsize f)%nat -> is_derive (fun s => nth i (r s) 0) 0 (response h (only a (unit_at (ksize (l_kind v)) k)) (f_vars f) J i).
Proof.
  intros Hin Ha Hc Hk. destruct (RG a v Hin Ha Hc) as (Rg & _).
  destruct (increment_moves (l_kind v) (unit_at (ksize (l_kind v)) k) Rg (unit_length _ _)) as (K & EK & MK).
  destruct EJ as (_ & _ & C). destruct (C _ _ (one_moves a v _ K Ha Hc MK)) as (r & Hr & Dr).
  exists (fun s => LVar (l_id v) (l_const v) (K s)), r. split; auto. intros s. simpl. rewrite EK. reflexivity.
Qed.
Lemma limit_num d : 0 < d -> exists e0, 0 < e0 /\ forall eps, 0 < Rabs eps < e0 ->
  exists Js, num_jac (lib RN) f eps h = (h, Ok Js) /\ entrywise (lib RN) h f (fun x y => Rabs (x - y) < d) Js J.
Proof.
  intros Hd.
  assert (Rt : each_variable (lib RN) f h (returns (lib RN))) by (intros a v A B C; apply (RG a v A B C)).
  assert (NN : forall p, In p (f_vars f) -> p <> None) by (intros p Hp; destruct (lib_vars_there p Hp) as (a & v & -> & _); discriminate).
  assert (RUN : forall eps : R, exists Js, num_jac (lib RN) f eps h = (h, Ok Js)).
  { intros eps. unfold num_jac. assert (R0 : exists r, f_res f h = Ok r).
    { destruct EJ as (_ & _ & C). destruct (C (fun _ => h) (fun a => match nth_error h a with Some v => repeat 0 (ksize (l_kind v)) | None => [] end)) as (r & Hr & _).
      - intros a v Ha. exists (fun _ => l_kind v). split; [intros _; rewrite Ha; destruct v; reflexivity|]. rewrite Ha. destruct (l_const v); auto. apply at_rest. eapply WF; eauto.
      - exists (r 0). apply Hr. }
    destruct R0 as (r & ->). cbn [hthen]. apply num_vars_runs. intros p Hp. destruct (lib_vars_there p Hp) as (a & v & -> & Ha). exists a, v. split; auto. split; auto. intros Hc k Hk.
    destruct (column_curve a v k Hp Ha Hc Hk) as (Vs & rr & HV & HR & _). eexists.
    apply (num_col_runs (lib RN) f a (vsize (lib RN) v) eps k h v (Vs eps) (Vs (- eps)) (rr eps) (rr (- eps))); auto; try apply HR.
    - eapply Rt; eauto.
    - rewrite probe_unit. apply HV.
    - rewrite probe_unit_neg. apply HV. }
  assert (U : exists e0, 0 < e0 /\ forall e, 0 < Rabs e < e0 -> forall q, (q < length (f_vars f))%nat -> forall i, (i < f_rsize f)%nat ->
     forall a v B, nth_error (f_vars f) q = Some (Some a) -> nth_error h a = Some v -> l_const v = false -> nth_error J q = Some B ->
     forall k, (k < ksize (l_kind v))%nat -> forall A, difference_column (lib RN) f h a v e A k -> Rabs (mat_at A i k - mat_at B i k) < d).
  { apply (uniform (fun q e => forall i, (i < f_rsize f)%nat ->
     forall a v B, nth_error (f_vars f) q = Some (Some a) -> nth_error h a = Some v -> l_const v = false -> nth_error J q = Some B ->
     forall k, (k < ksize (l_kind v))%nat -> forall A, difference_column (lib RN) f h a v e A k -> Rabs (mat_at A i k - mat_at B i k) < d)).
    intros q Hq. apply (uniform (fun i e => 
     forall a v B, nth_error (f_vars f) q = Some (Some a) -> nth_error h a = Some v -> l_const v = false -> nth_error J q = Some B ->
     forall k, (k < ksize (l_kind v))%nat -> forall A, difference_column (lib RN) f h a v e A k -> Rabs (mat_at A i k - mat_at B i k) < d)).
    intros i Hi.
    destruct (nth_error (f_vars f) q) as [p|] eqn:Eq; [|apply nth_error_None in Eq; lia].
    destruct (lib_vars_there p (nth_error_In _ _ Eq)) as (a & v & -> & Ha).
    destruct (l_const v) eqn:Hc. { exists 1. split; [lra|]. intros e _ a' v' B' E Ha' Hc'. injection E as <-. assert (v' = v) by congruence. congruence. }
    destruct (nth_error J q) as [B|] eqn:HB. 2: { exists 1. split; [lra|]. intros; discriminate. }
    destruct (uniform (fun k e => forall A, difference_column (lib RN) f h a v e A k -> Rabs (mat_at A i k - mat_at B i k) < d) (ksize (l_kind v))) as (e0 & P0 & Q0).
    2: { exists e0. split; auto. intros e He a' v' B' E Ha' Hc' EB. injection E as <-. injection EB as <-. assert (v' = v) by congruence. subst v'. intros k Hk A HA. exact (Q0 e He k Hk A HA). }
    intros k Hk. pose proof (nth_error_In _ _ Eq) as Hp. destruct (column_curve a v k Hp Ha Hc Hk) as (Vs & rr & HV & HR & DR). specialize (DR i Hi).
    rewrite (response_one a v i k (f_vars f) ND Ha Hc Hk q J B Eq HB NN) in DR.
    destruct (symmetric_limit _ _ DR d Hd) as (e0 & P0 & Q0). exists e0. split; auto. intros e He A (dx & vp & vm & rp & rm & Al & Ip & Im & Rp & Rm & Lp & Lm & Q).
    rewrite (Q i Hi). assert (Edx := along_probe _ _ _ _ Al). subst dx. fold (vneg (N:=RN) (probe (N:=RN) (vsize (lib RN) v) k e)) in Im.
    rewrite probe_unit in Ip. rewrite probe_unit_neg in Im. change (vsize (lib RN) v) with (ksize (l_kind v)) in *. rewrite HV in Ip. rewrite HV in Im. injection Ip as <-. injection Im as <-.
    rewrite (proj1 (HR e)) in Rp. rewrite (proj1 (HR (- e))) in Rm. injection Rp as <-. injection Rm as <-.
    change (nzero (N:=RN)) with (Q2R 0). rewrite q0. change (nlit (n:=RN) 2) with (Q2R 2). replace (Q2R 2) with 2 by (unfold Q2R; simpl; lra). exact (Q0 e He). }
  destruct U as (e0 & P0 & Q0). exists e0. split; auto. intros eps He. destruct (RUN eps) as (Js & E). exists Js. split; auto.
  destruct (num_jac_ok (lib RN) f eps h h Js Rt E) as (_ & _ & Dq).
  intros q a v A B Hq Ha Hc HA HB i k Hi Hk. destruct (Dq _ _ _ Hq HA) as (a' & v0 & E0 & Ha' & Dc). injection E0 as <-. assert (v0 = v) by congruence. subst v0.
  rewrite Hc in Dc. destruct Dc as (_ & _ & Dc). eapply Q0; eauto. eapply lt_of_nth; eauto.
Qed.
End Limit.
