(** A camera pose with a prior on its position, measured against two fixed poses; the same turned by a quarter about the x axis and
    displaced by (10, 20, 30). *)
From Coq Require Import List Arith ZArith QArith Bool Reals Lra Lia Qreals.
From Verif Require Import Base Sparse Graph SpecGraph SpecOpt Geom Vars VarsLemmas FactorsLin FactorsLinFacts FactorsGeo Optimizer OptLemmas Real SpecSolver OptToy Ldlt LdltSolver OptReal LdltCase FactorLib SpecShape FactorSafe SpecSteps RSum OptStepsLib SpecDefined OptDefined OptVerdict Gram OptWork OrderCase PartCase SpecTwin SpecGeom GeomR GeomExp GeomLog RestVars SpecSpace.
Import ListNotations.
Set Bullet Behavior "Strict Subproofs".

Section Case.
Context (p b c : v3 RN) (A : m3 RN) (e x m1 m2 : v3 RN).
Definition sf1 : factor (N:=RN) (V:=lvar RN) := build (LPositionPrior (N:=RN) 10 0%nat x 1%R).
Definition sf2 : factor (N:=RN) (V:=lvar RN) := build (LPositionBetween (N:=RN) 11 0%nat 1%nat 3%nat 1%R true).
Definition sf3 : factor (N:=RN) (V:=lvar RN) := build (LPositionBetween (N:=RN) 12 0%nat 2%nat 4%nat 1%R true).
Definition six (q : v3 RN) : list R := [vx q; vy q; vz q; vx e; vy e; vz e].
Definition pt (q : v3 RN) : v3 RN := V3 (vx q) (vy q) (vz q).
Definition three (q : v3 RN) : list R := [vx q; vy q; vz q].
Definition sops : list (op (N:=RN) (V:=lvar RN)) :=
  [ ONew (LVar 1 false (KPose (N:=RN) (six p) A)); ONew (LVar 2 true (KPose (N:=RN) (six b) A)); ONew (LVar 3 true (KPose (N:=RN) (six c) A)); ONew (LVar 4 true (KGeneric (N:=RN) (three m1))); ONew (LVar 5 true (KGeneric (N:=RN) (three m2)));
    OAddVar (Some 0%nat); OAddVar (Some 1%nat); OAddVar (Some 2%nat); OAddVar (Some 3%nat); OAddVar (Some 4%nat); OAddFactor (Some sf1); OAddFactor (Some sf2); OAddFactor (Some sf3) ].
Definition sheap : @heap (lvar RN) := [LVar 1 false (KPose (N:=RN) (six p) A); LVar 2 true (KPose (N:=RN) (six b) A); LVar 3 true (KPose (N:=RN) (six c) A); LVar 4 true (KGeneric (N:=RN) (three m1)); LVar 5 true (KGeneric (N:=RN) (three m2))].
Notation svs := [0; 1; 2; 3; 4]%nat.
Lemma s_used : Forall (fun f => exists lf, f = build lf /\ well_used sheap lf /\ ~ may_refuse lf) [sf1; sf2; sf3].
Proof.
  apply Forall_cons; [|apply Forall_cons; [|apply Forall_cons; [|apply Forall_nil]]];
    [exists (LPositionPrior (N:=RN) 10 0%nat x 1%R)|exists (LPositionBetween (N:=RN) 11 0%nat 1%nat 3%nat 1%R true)|exists (LPositionBetween (N:=RN) 12 0%nat 2%nat 4%nat 1%R true)];
    (split; [reflexivity|]); (split; [|exact (fun H => H)]); cbn [well_used]; unfold var_at, of_size;
    repeat split; (eexists; split; [reflexivity|try (split; reflexivity); try reflexivity; try (cbn; auto)]).
Qed.
Lemma s_wf : Forall (factor_wf (lib RN) sheap svs) [sf1; sf2; sf3].
Proof.
  assert (K : forall b, In b svs -> b = 0%nat \/ b = 1%nat \/ b = 2%nat \/ b = 3%nat \/ b = 4%nat) by (intros k Hk; cbn in Hk; intuition).
  apply Forall_cons; [|apply Forall_cons; [|apply Forall_cons; [|apply Forall_nil]]]; (split; [cbn; lia|]); (split; [|cbn; repeat constructor; cbn; intuition discriminate]);
    [intros q [<-|[]]|intros q [<-|[<-|[<-|[]]]]|intros q [<-|[<-|[<-|[]]]]]; (eexists _, _; split; [reflexivity|]; split; [reflexivity|]);
    (split; [intros _; split; [cbn; tauto|cbn; lia]|]); intros k Hk; destruct (K k Hk) as [ -> | [ -> | [ -> | [ -> | -> ]]]]; cbn; intros; congruence.
Qed.
Definition sstart (SV : solver RN (ldlt RN)) : lstate := start (lib RN) SV env0 empty_ldlt (lset GaussNewton 1) sops.
Lemma sstart_hist SV : ohist SV sops (sstart SV).
Proof.
  unfold ohist. cbn zeta. split; [unfold on_ops, sstart; apply start_finalized; rc; reflexivity|]. change (get_all_variables (p_graph (sstart SV))) with svs. change (get_all_factors (p_graph (sstart SV))) with [sf1; sf2; sf3]. change (p_heap (sstart SV)) with sheap.
  split; [repeat (split; [discriminate|]); exact I|]. pose proof s_used as U. inversion U as [|? ? (f1 & U1 & U1' & _) V1]; subst. inversion V1 as [|? ? (f2 & U2 & U2' & _) V2]; subst. inversion V2 as [|? ? (f3 & U3 & U3' & _) V3]; subst.
  split; [|split; [exact s_wf|exists sf1, 0%nat, (LVar 1 false (KPose (N:=RN) (six p) A)); cbn; auto]].
  do 10 (split; [first [exact I|reflexivity]|]). split; [exists f1; split; [exact U1|exact U1']|]. split; [exists f2; split; [exact U2|exact U2']|]. split; [exists f3; split; [exact U3|exact U3']|exact I].
Qed.
(** I 0; -A -[d1]; -A -[d2] *)
Definition sjac (d1 d2 : v3 RN) : mat RN := Mat (N:=RN) 9 6 (fun i j =>
  if (i <? 3)%nat then mat_at (mat36 (N:=RN) (m3diag ow) m3zero) i j
  else if (i <? 6)%nat then mat_at (mat36 (N:=RN) (m3scale (nneg (n:=RN) ow) A) (m3scale (nneg (n:=RN) ow) (skew d1))) (i - 3) j
  else mat_at (mat36 (N:=RN) (m3scale (nneg (n:=RN) ow) A) (m3scale (nneg (n:=RN) ow) (skew d2))) (i - 6) j).
Lemma sjacobian : jacobian_at (lib RN) sheap svs [sf1; sf2; sf3] (sjac (m3v A (v3sub (pt b) (pt p))) (m3v A (v3sub (pt c) (pt p)))).
Proof.
  exists [[mat36 (N:=RN) (m3diag ow) m3zero]; [mat36 (N:=RN) (m3scale (nneg (n:=RN) ow) A) (m3scale (nneg (n:=RN) ow) (skew (m3v A (v3sub (pt b) (pt p))))); mempty; mempty]; [mat36 (N:=RN) (m3scale (nneg (n:=RN) ow) A) (m3scale (nneg (n:=RN) ow) (skew (m3v A (v3sub (pt c) (pt p))))); mempty; mempty]].
  split; [constructor; [reflexivity|constructor; [reflexivity|constructor; [reflexivity|constructor]]]|].
  split; [reflexivity|]. split; [reflexivity|]. intros k f js m a r i Hk Hj Hm Hr Hc.
  destruct k as [|[|[|k]]]; [| | |destruct k; discriminate Hk]; injection Hk as <-; injection Hj as <-; cbn in Hr, Hm;
    (destruct m as [|[|[|[|[|m]]]]]; cbn in Hm; [..|destruct m; discriminate Hm]; try discriminate Hm; injection Hm as <-; cbn in Hc; try lia; destruct r as [|[|[|r]]]; try lia; reflexivity).
Qed.
Lemma s_run SV : factorising_solver SV -> sized_solver SV -> ~ ill_posed 0 (sjac (m3v A (v3sub (pt b) (pt p))) (m3v A (v3sub (pt c) (pt p)))) -> exists p', optimize (lib RN) SV EV0 (sstart SV) = (p', Ok tt) /\ p_caught p' = false /\ ~ failure (ss_status (p_cur p')).
Proof.
  intros HF HZ HI. apply (o_run SV sops (sstart SV) (sjac (m3v A (v3sub (pt b) (pt p))) (m3v A (v3sub (pt c) (pt p)))) HF HZ (sstart_hist SV) eq_refl eq_refl eq_refl); [|exact sjacobian|exact HI].
  change (get_all_factors (p_graph (sstart SV))) with [sf1; sf2; sf3]. change (p_heap (sstart SV)) with sheap. exact s_used.
Qed.
(** the residual at the start *)
Definition sres : list R := v3list (v3scale (N:=RN) ow (v3sub (pt p) x)) ++ v3list (v3scale (N:=RN) ow (v3sub (m3v A (v3sub (pt b) (pt p))) (pt m1))) ++ v3list (v3scale (N:=RN) ow (v3sub (m3v A (v3sub (pt c) (pt p))) (pt m2))).
Lemma s_stacked r : stacked sheap [sf1; sf2; sf3] r -> r = sres.
Proof.
  intros (rs & F & ->).  inversion F as [|? r1 ? rs1 (E1 & _) F1]; subst. inversion F1 as [|? r2 ? rs2 (E2 & _) F2]; subst. inversion F2 as [|? r3 ? rs3 (E3 & _) F3]; subst. inversion F3; subst.
  assert (G : forall (u v : list R), @Ok (list R) u = Ok v -> v = u) by (intros u v Z; injection Z as ->; reflexivity). cbn [concat]. rewrite app_nil_r. unfold sres. apply f_equal2; [exact (G _ _ E1)|]. apply f_equal2; [exact (G _ _ E2)|exact (G _ _ E3)].
Qed.
Lemma s_usual rate : (forall y, damped_solution 0 (sjac (m3v A (v3sub (pt b) (pt p))) (m3v A (v3sub (pt c) (pt p)))) sres y -> nth 3 y 0%R = 0%R /\ nth 4 y 0%R = 0%R /\ nth 5 y 0%R = 0%R) ->
  (/ 100000 <= acos ((ent A 0 0 + ent A 1 1 + ent A 2 2 - 1) / 2))%R -> usual_steps (lib RN) exact_turn svs [sf1; sf2; sf3] rate 1 sheap.
Proof.
  intros Z F j h Hj M. assert (j = 0%nat) by lia. subst j. inversion M; subst. clear M. intros r J y X1 X2 X3 k a v Hk Hv Hc. apply s_stacked in X1. subst r.
  destruct (jacobian_unique (lib RN) _ _ _ _ _ X2 sjacobian) as (U1 & U2 & U3). assert (X4 : damped_solution 0 (sjac (m3v A (v3sub (pt b) (pt p))) (m3v A (v3sub (pt c) (pt p)))) sres y).
  { destruct X3 as (L & X3). split; [rewrite <- U2; exact L|]. intros i Hi. rewrite <- U2 in Hi. pose proof (X3 i Hi) as X. rewrite <- U2, <- U1. rewrite (rsum_ext (mcols J) _ (fun j => rsum (mrows J) (fun k0 => mat_at J k0 i * mat_at J k0 j) * nth j y 0)%R); [rewrite X; f_equal; apply rsum_ext; intros q Hq; rewrite U3 by lia; reflexivity|].
    intros q Hq. f_equal. apply rsum_ext. intros s Hs. rewrite !U3 by lia. reflexivity. }
  destruct k as [|[|[|[|[|k]]]]]; cbn in Hk; [| | | | |destruct k; discriminate]; injection Hk as <-; cbn in Hv; injection Hv as <-; try discriminate Hc.
  destruct (Z y X4) as (Z3 & Z4 & Z5). pose proof (proj1 X4) as L. cbn in L. destruct y as [|y0 [|y1 [|y2 [|y3 [|y4 [|y5 [|? ?]]]]]]]; try discriminate L. cbn [nth] in Z3, Z4, Z5. subst y3 y4 y5.
  unfold exact_turn. cbn [l_kind]. change (slice (N:=RN) (col_start (lib RN) sheap svs 0) (vsize (lib RN) {| l_id := 1; l_const := false; l_kind := KPose (N:=RN) (six p) A |}) (map (fun y => (y * rate)%R) [y0; y1; y2; 0; 0; 0]%R)) with [y0 * rate; y1 * rate; y2 * rate; 0 * rate; 0 * rate; 0 * rate]%R. cbn [nth]. rewrite Rmult_0_l.
  split; [left; reflexivity|]. intros B HB. right. rewrite exp_zeros in HB. apply product_mul in HB. rewrite m3mul_id_l in HB. subst B. exact F.
Qed.
End Case.

(** the numbers *)
Local Open Scope R_scope.
Definition quarter : m3 RN := M3 (N:=RN) 1 0 0 0 0 (-1) 0 1 0.
Definition shift3 : v3 RN := V3 (N:=RN) 10 20 30.
Definition A1 : m3 RN := M3 (N:=RN) 0 (-1) 0 1 0 0 0 0 1.
Definition A2 : m3 RN := M3 (N:=RN) 0 0 (-1) 1 0 0 0 (-1) 0.
Definition sro : addr -> role3 := fun a => if (a <=? 2)%nat then Place else Still.
Lemma quarter_rotation : rotation quarter.
Proof. split; [intros i j Hi Hj; destruct i as [|[|[|i]]], j as [|[|[|j]]]; try lia; unfold sum3; cbn; ring|unfold det; cbn; ring]. Qed.
Lemma A1_rotation : rotation A1.
Proof. split; [intros i j Hi Hj; destruct i as [|[|[|i]]], j as [|[|[|j]]]; try lia; unfold sum3; cbn; ring|unfold det; cbn; ring]. Qed.
Lemma A2_rotation : rotation A2.
Proof. split; [intros i j Hi Hj; destruct i as [|[|[|i]]], j as [|[|[|j]]]; try lia; unfold sum3; cbn; ring|unfold det; cbn; ring]. Qed.
Lemma A_to : attitude_to quarter A1 A2.
Proof. split; [exact A1_rotation|]. split; [exact A2_rotation|]. intros i j Hi Hj; destruct i as [|[|[|i]]], j as [|[|[|j]]]; try lia; unfold sum3; cbn; ring. Qed.
Lemma far_right x : -1 <= x <= 0 -> / 100000 <= acos x.
Proof.
  intros (X1 & X2). apply Rnot_lt_le. intros X. pose proof (acos_bound x) as (B1 & B2). pose proof PI2_3_2 as P. pose proof PI_4. assert (C : cos (acos x) = x) by (apply cos_acos; lra).
  assert (0 < cos (acos x)) by (apply cos_gt_0; lra). lra.
Qed.
Lemma A1_far : / 100000 <= acos ((ent A1 0 0 + ent A1 1 1 + ent A1 2 2 - 1) / 2).
Proof. apply far_right. cbn. lra. Qed.
Lemma A2_far : / 100000 <= acos ((ent A2 0 0 + ent A2 1 1 + ent A2 2 2 - 1) / 2).
Proof. apply far_right. cbn. lra. Qed.
Definition d1 : v3 RN := V3 (N:=RN) 0 2 0.
Definition d2 : v3 RN := V3 (N:=RN) 0 0 1.
Definition v_ (x y z : R) : v3 RN := V3 (N:=RN) x y z.
Ltac vals := cbn -[ow Rmult Rplus Ropp Rminus]; rewrite ?ow1, ?q0, ?q1.
Ltac sq t := let H := fresh in pose proof (Rle_0_sqr t) as H; unfold Rsqr in H.
Ltac posed hints := intros (y & i & L & Hi & X1 & X2); cbn in Hi, L; destruct y as [|u0 [|u1 [|u2 [|v0 [|v1 [|v2 [|? ?]]]]]]]; try discriminate L; rewrite damped_zero in X2;
  match type of X2 with (?I < _ \/ _) => assert (K : 1/4 <= I);
    [unfold image_sq; vals; destruct i as [|[|[|[|[|[|i]]]]]]; [| | | | | |lia]; cbn in X1; hints constr:(u0) constr:(u1) constr:(u2) constr:(v0) constr:(v1) constr:(v2); subst; lra|] end;
  destruct X2 as [X2|(k & Hk & X2)]; [lra|];
  match type of X2 with (_ < ?C + _) => assert (C <= 10) by (unfold column_sq; destruct k as [|[|[|[|[|[|k]]]]]]; [| | | | | |cbn in Hk; lia]; vals; lra) end; lra.
Ltac near u := sq u; sq (u - 1); sq (u + 1); sq (u - 1/2); sq (u + 1/2).
Ltac hints1 u0 u1 u2 v0 v1 v2 := near u0; near u1; near u2; sq (u1 - 2 * v2); sq (u2 - 2 * v0); sq (u1 + v1); sq (u0 + v0).
Ltac hints2 u0 u1 u2 v0 v1 v2 := near u0; near u1; near u2; sq (u2 - 2 * v2); sq (u1 + 2 * v0); sq (u2 + v1); sq (u0 + v0).
Lemma posed1 : ~ ill_posed 0 (sjac A1 d1 d2).
Proof. posed hints1. Qed.
Lemma posed2 : ~ ill_posed 0 (sjac A2 d1 d2).
Proof. posed hints2. Qed.
Definition before3 := sstart (v_ 7 1 4) (v_ 9 1 4) (v_ 7 1 5) A1 (log_so3 A1) (v_ 3 2 1) (v_ 1 6 3) (v_ 1 4 4).
Definition after3 := sstart (v_ 17 16 31) (v_ 19 16 31) (v_ 17 15 31) A2 (log_so3 A2) (v_ 13 19 32) (v_ 1 6 3) (v_ 1 4 4).
Definition heap3 := sheap (v_ 7 1 4) (v_ 9 1 4) (v_ 7 1 5) A1 (log_so3 A1) (v_ 1 6 3) (v_ 1 4 4).
Definition heap3' := sheap (v_ 17 16 31) (v_ 19 16 31) (v_ 17 15 31) A2 (log_so3 A2) (v_ 1 6 3) (v_ 1 4 4).
Lemma seen : m3v A1 (v3sub (pt (v_ 9 1 4)) (pt (v_ 7 1 4))) = d1 /\ m3v A1 (v3sub (pt (v_ 7 1 5)) (pt (v_ 7 1 4))) = d2 /\
  m3v A2 (v3sub (pt (v_ 19 16 31)) (pt (v_ 17 16 31))) = d1 /\ m3v A2 (v3sub (pt (v_ 17 15 31)) (pt (v_ 17 16 31))) = d2.
Proof. unfold v_, pt, A1, A2, d1, d2. gx. split; [|split; [|split]]; f_equal; lra. Qed.
Ltac solved := intros y (L & E); cbn in L; destruct y as [|u0 [|u1 [|u2 [|v0 [|v1 [|v2 [|? ?]]]]]]]; try discriminate L; cbn [nth];
  pose proof (E 0%nat ltac:(cbn; lia)) as E0; pose proof (E 1%nat ltac:(cbn; lia)) as E1; pose proof (E 2%nat ltac:(cbn; lia)) as E2; pose proof (E 3%nat ltac:(cbn; lia)) as E3; pose proof (E 4%nat ltac:(cbn; lia)) as E4; pose proof (E 5%nat ltac:(cbn; lia)) as E5; clear E;
  cbn -[ow Rmult Rplus Ropp Rminus] in E0, E1, E2, E3, E4, E5; rewrite ?ow1, ?q0, ?q1 in E0, E1, E2, E3, E4, E5; ring_simplify in E0; ring_simplify in E1; ring_simplify in E2; ring_simplify in E3; ring_simplify in E4; ring_simplify in E5; repeat split; lra.
Lemma solved1 : forall y, damped_solution 0 (sjac A1 d1 d2) (sres (v_ 7 1 4) (v_ 9 1 4) (v_ 7 1 5) A1 (v_ 3 2 1) (v_ 1 6 3) (v_ 1 4 4)) y -> nth 3 y 0 = 0 /\ nth 4 y 0 = 0 /\ nth 5 y 0 = 0.
Proof. solved. Qed.
Lemma solved2 : forall y, damped_solution 0 (sjac A2 d1 d2) (sres (v_ 17 16 31) (v_ 19 16 31) (v_ 17 15 31) A2 (v_ 13 19 32) (v_ 1 6 3) (v_ 1 4 4)) y -> nth 3 y 0 = 0 /\ nth 4 y 0 = 0 /\ nth 5 y 0 = 0.
Proof. solved. Qed.
Lemma s_heaps : heaps (reframed3_var quarter shift3 sro) heap3 heap3'.
Proof.
  intros a. destruct a as [|[|[|[|[|a]]]]]; cbn [heap3 heap3' sheap nth_error]; [| | | | |destruct a; exact I]; (split; [reflexivity|]); (split; [reflexivity|]); cbn [sro Nat.leb l_kind]; [| | |reflexivity|reflexivity].
  all: split; [reflexivity|]; split; [reflexivity|]; split; [|exact A_to]; intros i Hi; destruct i as [|[|[|i]]]; try lia; unfold sum3; cbn -[Rmult Rplus Ropp Rminus IZR]; ring.
Qed.
Lemma s_measured : Forall2 (same_in_space quarter shift3 sro) [sf1 (v_ 3 2 1); sf2; sf3] [sf1 (v_ 13 19 32); sf2; sf3].
Proof.
  constructor; [|constructor; [|constructor; [|constructor]]]; (eexists _, _; split; [reflexivity|]; split; [reflexivity|]; right).
  - split; [reflexivity|]. split; [reflexivity|]. intros i Hi; destruct i as [|[|[|i]]]; try lia; unfold sum3; cbn -[Rmult Rplus Ropp Rminus IZR]; ring.
  - split; [reflexivity|]. repeat split.
  - split; [reflexivity|]. repeat split.
Qed.
Lemma before3_run SV : factorising_solver SV -> sized_solver SV -> exists p', optimize (lib RN) SV EV0 (before3 SV) = (p', Ok tt) /\ p_caught p' = false /\ ~ failure (ss_status (p_cur p')).
Proof. intros HF HZ. apply s_run; [exact HF|exact HZ|]. destruct seen as (-> & -> & _). exact posed1. Qed.
Lemma after3_run SV : factorising_solver SV -> sized_solver SV -> exists p', optimize (lib RN) SV EV0 (after3 SV) = (p', Ok tt) /\ p_caught p' = false /\ ~ failure (ss_status (p_cur p')).
Proof. intros HF HZ. apply s_run; [exact HF|exact HZ|]. destruct seen as (_ & _ & -> & ->). exact posed2. Qed.
Lemma before3_usual rate : usual_steps (lib RN) exact_turn [0; 1; 2; 3; 4]%nat [sf1 (v_ 3 2 1); sf2; sf3] rate 1 heap3.
Proof. apply s_usual; [|exact A1_far]. destruct seen as (-> & -> & _). exact solved1. Qed.
Lemma after3_usual rate : usual_steps (lib RN) exact_turn [0; 1; 2; 3; 4]%nat [sf1 (v_ 13 19 32); sf2; sf3] rate 1 heap3'.
Proof. apply s_usual; [|exact A2_far]. destruct seen as (_ & _ & -> & ->). exact solved2. Qed.
(** a rotation by a millionth about the first axis, before and after the quarter turn *)
Definition ex : v3 RN := V3 (N:=RN) 1 0 0.
Definition tiny : m3 RN := aa_matrix (/ 1000000) ex.
Definition tiny' : m3 RN := aa_matrix (/ 1000000 - PI / 2) ex.
Lemma ex_unit : length2 ex = 1.
Proof. unfold ex. gx. ring. Qed.
Lemma aa_ex t : aa_matrix t ex = M3 (N:=RN) 1 0 0 0 (cos t) (- sin t) 0 (sin t) (cos t).
Proof. unfold ex. gx. f_equal; ring. Qed.
Lemma aa_less s t : m3mul (aa_matrix s ex) (m3t (aa_matrix t ex)) = aa_matrix (s - t) ex.
Proof. rewrite !aa_ex, cos_minus, sin_minus. gx. f_equal; ring. Qed.
Lemma tiny_to : attitude_to quarter tiny tiny'.
Proof.
  split; [apply aa_rotation, ex_unit|]. split; [apply aa_rotation, ex_unit|]. unfold tiny, tiny'. rewrite !aa_ex, cos_minus, sin_minus, cos_PI2, sin_PI2.
  intros i j Hi Hj. unfold quarter. destruct i as [|[|[|i]]]; [| | |lia]; (destruct j as [|[|[|j]]]; [| | |lia]); unfold sum3; cbn -[Rmult Rplus Ropp Rminus IZR sin cos Rinv]; ring.
Qed.
Lemma tiny_log : log_so3 (m3mul tiny (m3t (exp_so3 (log_so3 tiny)))) = v3scale (sin (/ 1000000 - sin (/ 1000000))) ex /\ 0 < sin (/ 1000000 - sin (/ 1000000)).
Proof.
  pose proof pi_bounds as Pb. destruct (sin_cubic (/ 1000000) ltac:(lra)) as (S1 & S2).
  assert (S3 : sin (/ 1000000) < / 1000000) by (apply sin_lt_x; lra).
  unfold tiny. rewrite (log_aa (/ 1000000) ex ex_unit) by lra. destruct (Rlt_dec (/ 1000000) (/ 100000)) as [H|H]; [|lra].
  assert (Lt : len (v3scale (sin (/ 1000000)) ex) = sin (/ 1000000)) by (rewrite (len_scale _ _ ex_unit); apply Rabs_pos_eq; lra).
  rewrite exp_large by (rewrite Lt; lra). rewrite Lt, div_scale by lra. rewrite aa_less.
  rewrite (log_aa _ ex ex_unit) by lra. destruct (Rlt_dec (/ 1000000 - sin (/ 1000000)) (/ 100000)) as [H'|H']; [|lra]. split; [reflexivity|]. apply sin_gt_0; lra.
Qed.
Lemma tiny_log' : log_so3 (m3mul tiny' (m3t (exp_so3 (log_so3 tiny')))) = v3zero.
Proof.
  pose proof pi_bounds as Pb. rewrite exp_of_log; [|apply aa_rotation, ex_unit|].
  - unfold tiny'. rewrite aa_less, Rminus_diag_eq by reflexivity. rewrite (log_aa 0 ex ex_unit) by lra. destruct (Rlt_dec 0 (/ 100000)) as [H|H]; [|lra]. rewrite sin_0. unfold ex. gx. f_equal; ring.
  - right. unfold tiny'. rewrite (aa_trace _ _ ex_unit), cos_minus, cos_PI2, sin_PI2.
    replace ((1 + 2 * (cos (/ 1000000) * 0 + sin (/ 1000000) * 1) - 1) / 2) with (sin (/ 1000000)) by field. rewrite <- cos_shift, acos_cos by lra. lra.
Qed.
Definition prior3 (x : m3 RN) := build (LOrientationPrior (N:=RN) 10 0%nat x 1).
Lemma small_prior : heaps (reframed3_var quarter v3zero sro) [LVar (N:=RN) 1 false (KPose (v3list v3zero ++ v3list (log_so3 tiny)) tiny)] [LVar (N:=RN) 1 false (KPose (v3list v3zero ++ v3list (log_so3 tiny')) tiny')] /\
  exists r r', f_res_ref (prior3 tiny) [LVar (N:=RN) 1 false (KPose (v3list v3zero ++ v3list (log_so3 tiny)) tiny)] = Ok r /\
    f_res_ref (prior3 tiny') [LVar (N:=RN) 1 false (KPose (v3list v3zero ++ v3list (log_so3 tiny')) tiny')] = Ok r' /\ 0 < sqnorm (N:=RN) r /\ sqnorm (N:=RN) r' = 0.
Proof.
  split.
  - intros a. destruct a as [|a]; cbn [nth_error]; [|destruct a; exact I]. split; [reflexivity|]. split; [reflexivity|]. cbn [sro Nat.leb l_kind]. split; [reflexivity|]. split; [reflexivity|]. split; [|exact tiny_to].
    intros i Hi. destruct i as [|[|[|i]]]; try lia; unfold sum3; cbn -[Rmult Rplus Ropp Rminus IZR log_so3 tiny tiny']; unfold nzero; cbn -[Rmult Rplus Ropp Rminus IZR log_so3 tiny tiny']; rewrite ?q0; ring.
  - destruct tiny_log as (L & Ls). eexists _, _. split; [reflexivity|]. split; [reflexivity|].
    cbn [snd]. unfold oripri_err. rewrite L, tiny_log'. set (z := sin _) in *. clearbody z. split.
    + unfold ex. cbn -[Rmult Rplus Rdiv Q2R IZR]. unfold nunit. cbn -[Rmult Rplus Rdiv Q2R IZR]. rewrite ?q0, ?q1. nra.
    + cbn -[Rmult Rplus Rdiv Q2R IZR]. unfold nunit, nzero. cbn -[Rmult Rplus Rdiv Q2R IZR]. rewrite ?q0, ?q1. lra.
Qed.
