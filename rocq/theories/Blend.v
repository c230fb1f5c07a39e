(** Gauss-Newton on a weighted mean of two linear problems. *)
From Coq Require Import List Arith ZArith QArith Bool Reals Lra Lia.
From Verif Require Import Base Sparse Graph SpecGraph SpecOpt ListLemmas GraphLayout GraphFin GraphBasic GraphVec Optimizer OptLemmas OptWork OptRun OptMore OptFacts Real RSum SpecSolver SpecSteps OptSteps OptLinear OptOrder OptOrderRun OptVerdict MarginalRun CovRun Info SpecContract Contract ContractRun SpecNearer Change InfoRun ResumeRun.
From Verif Require Import Geom Vars VarsLemmas FactorsLin FactorsLinFacts FactorsGeo FactorLib SpecShape FactorSafe OptStepsLib ContractLib Forget SpecBlend.
Import ListNotations.
Local Open Scope nat_scope.
Set Bullet Behavior "Strict Subproofs".

Notation lheap := (@heap (lvar RN)).
Lemma mixed_app t x1 y1 z1 x2 y2 z2 : mixed t x1 y1 z1 -> mixed t x2 y2 z2 -> mixed t (x1 ++ x2) (y1 ++ y2) (z1 ++ z2).
Proof.
  intros (A1 & A2 & A3) (B1 & B2 & B3). split; [rewrite !app_length; lia|]. split; [rewrite !app_length; lia|]. intros c Hc. rewrite app_length in Hc.
  destruct (Nat.lt_ge_cases c (length x1)) as [L|L]; [rewrite !app_nth1 by lia; auto|]. rewrite !app_nth2 by lia. rewrite A1, A2. apply B3. lia.
Qed.

(** ** a pair of graphs of the same make *)
Definition alike (h h' : lheap) : Prop := forall a u, nth_error h a = Some u -> exists v, nth_error h' a = Some v /\ l_const v = l_const u /\ ksize (l_kind v) = ksize (l_kind u).
Definition similar (f f' : lib_factor RN) : Prop := exists t g, mixed_factors t f f' g \/ mixed_factors t f g f'.
Lemma mixed_alike t h1 h2 h3 : mixed_heaps t h1 h2 h3 -> alike h1 h2 /\ alike h1 h3.
Proof.
  intros (L2 & L3 & M). split; intros a u Hu; assert (La : a < length h1) by (apply nth_error_Some; congruence);
    (destruct (nth_error h2 a) as [v|] eqn:Ev; [|apply nth_error_None in Ev; lia]); (destruct (nth_error h3 a) as [w|] eqn:Ew; [|apply nth_error_None in Ew; lia]);
    destruct (M a u v w Hu Ev Ew) as ((C1 & C2) & (S1 & S2) & _); eauto.
Qed.
Lemma alike_width h h' a : alike h h' -> a < length h -> width (lib RN) h' a = width (lib RN) h a.
Proof.
  intros A L. unfold width. destruct (nth_error h a) as [u|] eqn:Eu; [|apply nth_error_None in Eu; lia]. destruct (A a u Eu) as (v & -> & C & Z). cbn [vconst vsize lib]. rewrite C, Z. reflexivity.
Qed.
Lemma similar_make h h' f f' : alike h h' -> similar f f' -> well_used h f ->
  f_rsize (build f') = f_rsize (build f) /\ f_vars (build f') = f_vars (build f) /\ f_jac (build f') h' [] = f_jac (build f) h [].
Proof.
  intros G S U.
  assert (X : match f, f' with
    | LGenericPrior _ a1 z1 s1, LGenericPrior _ a2 z2 s2 => (a2, s2) = (a1, s1) /\ length z2 = length z1
    | LGenericBetween _ a1 b1 d1 n1 s1, LGenericBetween _ a2 b2 d2 n2 s2 => (a2, b2, d2, n2, s2) = (a1, b1, d1, n1, s1)
    | LLinearVelocity _ a1 b1 c1 n1 dt1 s1 i1, LLinearVelocity _ a2 b2 c2 n2 dt2 s2 i2 => (a2, b2, c2, n2, dt2, s2, i2) = (a1, b1, c1, n1, dt1, s1, i1)
    | _, _ => False end).
  { destruct S as (t & g & [M|M]); destruct f, f', g; cbn [mixed_factors] in M; try contradiction; unfold mixed in M; tauto. }
  clear S. destruct f, f'; try contradiction; cbn [well_used] in U; cbn [build].
  - destruct X as (X & Lz). injection X as -> ->. destruct U as (v & Hv & _ & _). destruct (G _ v Hv) as (v' & Hv' & Cv & _). cbn [f_jac f_rsize f_vars generic_prior].
    split; [exact Lz|]. split; [reflexivity|]. rewrite (gprior_jac_value _ _ _ _ _ _ Hv), (gprior_jac_value _ _ _ _ _ _ Hv'). unfold gprior_blocks. cbn [vconst lib]. rewrite Cv. 
    replace (@length (car RN) prior0) with (@length (car RN) prior) by (symmetry; exact Lz). reflexivity.
  - injection X as -> -> -> -> ->. destruct U as ((va & Ha & _) & (vb & Hb & _) & (vd & Hd & _)). destruct (G _ va Ha) as (va' & Ha' & Ca & _). destruct (G _ vb Hb) as (vb' & Hb' & Cb & _). destruct (G _ vd Hd) as (vd' & Hd' & Cd & _).
    split; [reflexivity|]. split; [reflexivity|].
    cbn [f_jac generic_between]. rewrite (gbetween_jac_value _ _ _ _ _ _ _ _ _ _ Ha Hb Hd), (gbetween_jac_value _ _ _ _ _ _ _ _ _ _ Ha' Hb' Hd'). unfold gbetween_blocks. cbn [vconst lib]. rewrite Ca, Cb, Cd. reflexivity.
  - injection X as -> -> -> -> -> -> ->. destruct U as ((va & Ha & _ & Sa) & (vb & Hb & _ & Sb) & (vc & Hc & _ & Sc)). destruct (G _ va Ha) as (va' & Ha' & Ca & Za). destruct (G _ vb Hb) as (vb' & Hb' & Cb & Zb). destruct (G _ vc Hc) as (vc' & Hc' & Cc & Zc).
    split; [reflexivity|]. split; [reflexivity|].
    unfold of_size in Sc. cbn [f_jac linear_velocity]. rewrite (vel_jac_value _ _ _ _ _ _ _ h va vb vc Ha Hb Hc Sa Sb Sc), (vel_jac_value _ _ _ _ _ _ _ h' va' vb' vc' Ha' Hb' Hc') by congruence || lia.
    unfold vel_blocks, vel_part. rewrite Ca, Cb, Cc, Za, Zb. reflexivity.
Qed.
Lemma similar_jacobian h h' vs fs fs' J : alike h h' -> Forall (fun a => a < length h) vs -> Forall2 similar fs fs' -> Forall (well_used h) fs ->
  jacobian_at (lib RN) h vs (map build fs) J -> jacobian_at (lib RN) h' vs (map build fs') J.
Proof.
  intros G Hl S U (jss & F & (A1 & A2 & A3)).
  assert (Mw : map (width (lib RN) h') vs = map (width (lib RN) h) vs) by (apply map_ext_in; intros a Ha; rewrite Forall_forall in Hl; apply alike_width; auto).
  assert (Mr : map f_rsize (map build fs') = map f_rsize (map build fs)).
  { clear -G S U. induction S as [|f f' fs fs' Sf S IH]; [reflexivity|]. inversion U; subst. cbn [map]. f_equal; [apply (similar_make h h' f f'); assumption|auto]. }
  exists jss. split.
  - clear -G S U F. revert jss F. induction S as [|f f' fs fs' Sf S IH]; intros jss F; inversion F; subst; [constructor|]. inversion U; subst. cbn [map]. constructor; [|auto].
    destruct (similar_make h h' f f' G Sf) as (_ & _ & ->); assumption.
  - split; [unfold total_rows in *; rewrite Mr; exact A1|]. split; [unfold total_cols in *; rewrite Mw; exact A2|].
    intros k f' js m a r c Hk Hj Hm Hr Hc. rewrite nth_error_map in Hk. destruct (nth_error fs' k) as [g'|] eqn:Eg'; [|discriminate]. cbn [option_map] in Hk. injection Hk as <-.
    assert (Q : exists g, nth_error fs k = Some g /\ similar g g' /\ well_used h g).
    { clear -S U Eg'. revert k Eg'. induction S as [|f f' fs fs' Sf S IH]; intros [|k] E; cbn in E; try discriminate; inversion U; subst; [injection E as <-; exists f; repeat split; assumption|]. apply IH; assumption. }
    destruct Q as (g & Eg & Sg & Ug). destruct (similar_make h h' g g' G Sg Ug) as (R1 & R2 & _). rewrite R1 in Hr. rewrite R2.
    unfold row_start, col_start in *. rewrite Mr, Mw. apply A3; auto; [rewrite nth_error_map, Eg; reflexivity|]. rewrite <- (alike_width h h') by (auto; rewrite Forall_forall in Hl; apply Hl; eapply nth_error_In; eauto). exact Hc.
Qed.

(** ** residuals *)
Lemma mixed_residual t h1 h2 h3 f1 f2 f3 (x y z : list R) : mixed_heaps t h1 h2 h3 -> mixed_factors t f1 f2 f3 -> well_used h1 f1 -> well_used h2 f2 -> well_used h3 f3 ->
  f_res_ref (build f1) h1 = Ok x -> f_res_ref (build f2) h2 = Ok y -> f_res_ref (build f3) h3 = Ok z -> mixed t x y z.
Proof.
  intros (_ & _ & M) F U1 U2 U3 E1 E2 E3. destruct f1, f2, f3; cbn [mixed_factors] in F; try contradiction; cbn [well_used] in *; cbn [build] in *.
  - destruct F as (X & Y & (Z1 & Z2 & Z3)). injection X as -> ->. injection Y as -> ->. destruct U1 as (u & Hu & Su & Lu). destruct U2 as (v & Hv & Sv & Lv). destruct U3 as (w & Hw & Sw & Lw).
    destruct (M _ _ _ _ Hu Hv Hw) as (_ & _ & (V1 & V2 & V3)). unfold in_shape, of_size in *. cbn [f_res_ref generic_prior] in *.
    change (gprior_ref (lib RN)) with (gprior_res (lib RN)) in *. rewrite one_over in *. change (car RN) with R in *.
    rewrite (gprior_value (lib RN) _ _ _ _ _ Hu) in E1 by exact (eq_trans Su Lu). rewrite (gprior_value (lib RN) _ _ _ _ _ Hv) in E2 by exact (eq_trans Sv Lv). rewrite (gprior_value (lib RN) _ _ _ _ _ Hw) in E3 by exact (eq_trans Sw Lw).
    injection E1 as <-. injection E2 as <-. injection E3 as <-. cbn [vval lib]. unfold mixed. rewrite !vscale_length, !vsub_length.
    change (car RN) with R in *. split; [lia|]. split; [lia|]. intros c Hc. rewrite !nth_vscale, !nth_vsub by lia. rewrite V3, Z3 by lia. ring.
  - destruct F as (X & Y). injection X as -> -> -> -> ->. injection Y as -> -> -> -> ->.
    destruct U1 as ((ua & Ha & Sa & La) & (ub & Hb & Sb & Lb) & (ud & Hd & Sd & Ld)). destruct U2 as ((va & Ha' & Sa' & La') & (vb & Hb' & Sb' & Lb') & (vd & Hd' & Sd' & Ld')). destruct U3 as ((wa & Ha2 & Sa2 & La2) & (wb & Hb2 & Sb2 & Lb2) & (wd & Hd2 & Sd2 & Ld2)).
    destruct (M _ _ _ _ Ha Ha' Ha2) as (_ & _ & (A1 & A2 & A3)). destruct (M _ _ _ _ Hb Hb' Hb2) as (_ & _ & (B1 & B2 & B3)). destruct (M _ _ _ _ Hd Hd' Hd2) as (_ & _ & (D1 & D2 & D3)).
    unfold in_shape, of_size in *. cbn [f_res_ref generic_between] in *. change (gbetween_ref (lib RN)) with (gbetween_res (lib RN)) in *. rewrite one_over in *. change (car RN) with R in *.
    rewrite (gbetween_value (lib RN) _ _ _ _ _ _ _ _ _ Ha Hb Hd (eq_trans Sa La) (eq_trans Sb Lb) (eq_trans Sd Ld)) in E1.
    rewrite (gbetween_value (lib RN) _ _ _ _ _ _ _ _ _ Ha' Hb' Hd' (eq_trans Sa' La') (eq_trans Sb' Lb') (eq_trans Sd' Ld')) in E2.
    rewrite (gbetween_value (lib RN) _ _ _ _ _ _ _ _ _ Ha2 Hb2 Hd2 (eq_trans Sa2 La2) (eq_trans Sb2 Lb2) (eq_trans Sd2 Ld2)) in E3.
    injection E1 as <-. injection E2 as <-. injection E3 as <-. cbn [vval lib]. unfold mixed. rewrite !vscale_length, !vsub_length.
    change (car RN) with R in *. split; [lia|]. split; [lia|]. intros c Hc. rewrite !nth_vscale. rewrite !nth_vsub by (rewrite ?vsub_length; lia). rewrite A3, B3, D3 by lia. ring.
  - destruct F as (X & Y). injection X as -> -> -> -> -> -> ->. injection Y as -> -> -> -> -> -> ->.
    destruct U1 as ((ua & Ha & Sa & La) & (ub & Hb & Sb & Lb) & (ud & Hd & Sd & Ld)). destruct U2 as ((va & Ha' & Sa' & La') & (vb & Hb' & Sb' & Lb') & (vd & Hd' & Sd' & Ld')). destruct U3 as ((wa & Ha2 & Sa2 & La2) & (wb & Hb2 & Sb2 & Lb2) & (wd & Hd2 & Sd2 & Ld2)).
    destruct (M _ _ _ _ Ha Ha' Ha2) as (_ & _ & (A1 & A2 & A3)). destruct (M _ _ _ _ Hb Hb' Hb2) as (_ & _ & (B1 & B2 & B3)). destruct (M _ _ _ _ Hd Hd' Hd2) as (_ & _ & (D1 & D2 & D3)).
    unfold in_shape, of_size in *. cbn [f_res_ref linear_velocity] in *.
    destruct (vel_value _ _ _ n i0 dt (nunit (N:=RN) / sigma)%R h1 ua ub ud Ha Hb Hd) as (x' & X1 & X2 & X3); [lia..|].
    destruct (vel_value _ _ _ n i0 dt (nunit (N:=RN) / sigma)%R h2 va vb vd Ha' Hb' Hd') as (y' & Y1 & Y2 & Y3); [lia..|].
    destruct (vel_value _ _ _ n i0 dt (nunit (N:=RN) / sigma)%R h3 wa wb wd Ha2 Hb2 Hd2) as (z' & Z1 & Z2 & Z3); [lia..|].
    assert (x' = x) by (cut (Ok x' = Ok x); [congruence|]; rewrite <- X1; exact E1). assert (y' = y) by (cut (Ok y' = Ok y); [congruence|]; rewrite <- Y1; exact E2). assert (z' = z) by (cut (Ok z' = Ok z); [congruence|]; rewrite <- Z1; exact E3). subst x' y' z'.
    change (car RN) with R in *. split; [lia|]. split; [lia|]. intros k Hk. rewrite X3, Y3, Z3 by lia. rewrite A3, B3, D3 by lia. ring.
Qed.
Lemma mixed_stacked t h1 h2 h3 fs1 fs2 fs3 (r1 r2 r3 : list R) : mixed_heaps t h1 h2 h3 -> all3 (mixed_factors t) fs1 fs2 fs3 -> Forall (well_used h1) fs1 -> Forall (well_used h2) fs2 -> Forall (well_used h3) fs3 ->
  stacked h1 (map build fs1) r1 -> stacked h2 (map build fs2) r2 -> stacked h3 (map build fs3) r3 -> mixed t r1 r2 r3.
Proof.
  intros M F U1 U2 U3 (l1 & S1 & ->) (l2 & S2 & ->) (l3 & S3 & ->). revert l1 l2 l3 S1 S2 S3 U1 U2 U3.
  induction F as [|f1 f2 f3 fs1 fs2 fs3 Ff F IH]; intros l1 l2 l3 S1 S2 S3 U1 U2 U3; inversion S1; inversion S2; inversion S3; subst; [cbn; split; [reflexivity|]; split; [reflexivity|]; cbn; intros; lia|].
  inversion U1; inversion U2; inversion U3; subst. cbn [concat]. apply mixed_app; [|auto].
  repeat match goal with H : _ /\ length _ = _ |- _ => destruct H as (H & _) end. eapply mixed_residual; eauto.
Qed.

(** ** one run *)
Section One.
Context {S : Type} (SV : solver RN S) (EV : nat -> env (N:=RN) (V:=lvar RN)) (HE : forall n, env_ok (EV n)) (HF : factorising_solver SV).
Lemma run_goal l1 l2 h1 g1 (p p' : pstate (N:=RN) (V:=lvar RN) (S:=S)) fs :
  finalized_history (lib RN) l1 l2 h1 (p_heap p) g1 (p_graph p) -> unfinalized (lib RN) ([], empty_graph) l1 -> careful ([], empty_graph) l1 -> careful (h1, g1) l2 ->
  let vs := get_all_variables (p_graph p) in get_all_factors (p_graph p) = map build fs ->
  Forall (factor_wf (lib RN) (p_heap p) vs) (map build fs) -> some_active (lib RN) (p_heap p) (map build fs) ->
  Forall linear_class fs -> Forall (well_used (p_heap p)) fs -> plain (p_heap p) vs ->
  st_method (p_set p) = GaussNewton -> optimize (lib RN) SV EV p = (p', Ok tt) -> p_caught p' = false ->
  Forall (fun a => a < length (p_heap p)) vs /\
  reach (lib RN) (p_heap p) vs (p_heap p') /\ (ss_iter (p_cur p') = 0 -> p_heap p' = p_heap p) /\
  (0 < ss_iter (p_cur p') -> exists J r x, jacobian_at (lib RN) (p_heap p) vs (map build fs) J /\ stacked (p_heap p) (map build fs) r /\ (forall z, ~ unobservable J z) /\ damped_solution 0 J r x /\
    forall j, j < mcols J -> Contract.d (lib RN) (p_heap p) vs (p_heap p') j = ((1 - (1 - st_rate (p_set p)) ^ ss_iter (p_cur p')) * nth j x 0)%R).
Proof.
  intros A B C1 C2 vs Ef W Ac Lc Wu Pl Hm E Hc. destruct (lib_history _ _ _ _ _ _ A C1 C2) as (G1 & G2). destruct (sound_history _ _ _ _ _ _ A C1 C2) as (Sh & _). cbn [fst] in Sh. rewrite Ef in G1, G2.
  assert (Vp : vector_problem (p_heap p) vs (map build fs)).
  { split; [exact Pl|]. intros f Hf. apply in_map_iff in Hf. destruct Hf as (lf & <- & Hf). rewrite Forall_forall in Lc, Wu. exists lf. auto. }
  pose proof (vector_linear _ _ _ Sh W G2 Vp) as L.
  destruct (finalized_facts (lib RN) lib_ok _ _ _ _ _ _ A) as (_ & Hf & _). assert (Nd : NoDup vs) by exact (vars_nodup (lib RN) _ _ Hf).
  pose proof (ri_live _ _ _ (fin_reg _ _ _ Hf)) as Hl. change (Forall (fun a => a < length (p_heap p)) vs) in Hl.
  assert (M : moves (OptPart.firm (lib RN) (st_rate (p_set p)) vs (map build fs)) (ss_iter (p_cur p')) (p_heap p) (p_heap p')).
  { rewrite <- Ef. apply (gn_firm (lib RN) SV EV lib_ok HE HF l1 l2 h1 g1 p p' A B); rewrite ?Ef; auto. }
  assert (R0 : reach (lib RN) (p_heap p) vs (p_heap p)) by (apply reach_refl; exact (proj1 (proj2 L _ (revalued_refl (lib RN) _)))).
  split; [exact Hl|]. destruct (ss_iter (p_cur p')) as [|k] eqn:Ek.
  - assert (X1 : p_heap p' = p_heap p) by (inversion M; congruence). rewrite X1. split; [exact R0|]. split; [reflexivity|lia].
  - destruct (moves_first _ _ _ _ M) as (b & s & s1 & r & J & x & r2 & Hr & HJ & Hu & Hx & _).
    destruct (run_from (lib RN) lib_ok (p_heap p) vs (map build fs) _ Nd Hl W L J r x HJ Hr Hu Hx _ _ _ R0 M) as (Rp & Qp). split; [exact Rp|]. split; [lia|]. intros _. exists J, r, x.
    do 4 (split; [assumption|]). intros j Hj. specialize (Qp j Hj). pose proof HJ as (jss & _ & (_ & Jc & _)).
    assert (Z : Contract.d (lib RN) (p_heap p) vs (p_heap p) j = 0%R).
    { rewrite Jc in Hj. destruct (index_of (lib RN) (p_heap p) vs j Hj) as (m & a & v & c & I1 & I2 & I3 & I4 & ->). rewrite (d_at (lib RN) (p_heap p) vs (p_heap p) m a v v c R0 I1 I2 I2 I3 I4). ring. }
    rewrite Z in Qp. lra.
Qed.
End One.

(** ** the mean of two solutions *)
Lemma damped_same (J J' : mat RN) r x : mrows J = mrows J' -> mcols J = mcols J' -> (forall i j, i < mrows J -> j < mcols J -> mat_at J i j = mat_at J' i j) -> damped_solution 0 J r x -> damped_solution 0 J' r x.
Proof.
  intros E1 E2 E3 (D1 & D2). split; [lia|]. intros i Hi. rewrite <- E2, <- E1. rewrite <- E2 in Hi.
  rewrite (rsum_ext _ _ (fun j => rsum (mrows J) (fun k => mat_at J k i * mat_at J k j) * nth j x 0)%R).
  - rewrite (D2 i Hi). f_equal. apply rsum_ext. intros k Hk. rewrite E3 by auto. reflexivity.
  - intros j Hj. f_equal. apply rsum_ext. intros k Hk. rewrite !E3 by auto. reflexivity.
Qed.
Lemma mixed_solution t (J : mat RN) (r1 r2 r3 x1 x2 x3 : list R) : mrows J <= length r1 -> mixed t r1 r2 r3 -> (forall z, ~ unobservable J z) ->
  damped_solution 0 J r1 x1 -> damped_solution 0 J r2 x2 -> damped_solution 0 J r3 x3 -> forall j, j < mcols J -> (nth j x3 0 = (1 - t) * nth j x1 0 + t * nth j x2 0)%R.
Proof.
  intros Lr (_ & _ & M) Hu (A1 & A2) (B1 & B2) D3.
  assert (Nt : forall j, j < mcols J -> nth j (map (fun j => (1 - t) * nth j x1 0 + t * nth j x2 0)%R (seq 0 (mcols J))) 0%R = ((1 - t) * nth j x1 0 + t * nth j x2 0)%R).
  { intros j Hj. apply nth_error_nth. rewrite nth_error_map, nth_error_seq, (proj2 (Nat.ltb_lt _ _) Hj). reflexivity. }
  assert (D : damped_solution 0 J r3 (map (fun j => (1 - t) * nth j x1 0 + t * nth j x2 0)%R (seq 0 (mcols J)))).
  { split; [rewrite map_length, seq_length; reflexivity|]. intros i Hi. rewrite Nt by exact Hi. specialize (A2 i Hi). specialize (B2 i Hi).
    rewrite (rsum_ext _ _ (fun j => (1 - t) * (rsum (mrows J) (fun k => mat_at J k i * mat_at J k j) * nth j x1 0) + t * (rsum (mrows J) (fun k => mat_at J k i * mat_at J k j) * nth j x2 0))%R).
    2: { intros j Hj. rewrite Nt by exact Hj. ring. }
    rewrite (rsum_ext (mrows J) (fun k => mat_at J k i * nth k r3 0)%R (fun k => (1 - t) * (mat_at J k i * nth k r1 0) + t * (mat_at J k i * nth k r2 0))%R) by (intros k Hk; rewrite M by lia; ring).
    rewrite !rsum_plus, !rsum_scal.
    replace (rsum (mcols J) (fun j => rsum (mrows J) (fun k => mat_at J k i * mat_at J k j) * nth j x1 0))%R with (- rsum (mrows J) (fun k => mat_at J k i * nth k r1 0))%R by lra.
    replace (rsum (mcols J) (fun j => rsum (mrows J) (fun k => mat_at J k i * mat_at J k j) * nth j x2 0))%R with (- rsum (mrows J) (fun k => mat_at J k i * nth k r2 0))%R by lra. ring. }
  intros j Hj. rewrite (damped_unique 0 J r3 _ _ (Rle_refl 0) Hu D3 D). exact (Nt j Hj).
Qed.
Lemma all3_similar t l m n : all3 (mixed_factors t) l m n -> Forall2 similar l m /\ Forall2 similar l n /\ Forall linear_class l /\ Forall linear_class m /\ Forall linear_class n.
Proof.
  induction 1 as [|x y z l m n P F (I1 & I2 & I3 & I4 & I5)]; [repeat split; constructor|].
  split; [apply Forall2_cons; [exists t, z; left; exact P|exact I1]|]. split; [apply Forall2_cons; [exists t, y; right; exact P|exact I2]|].
  destruct x, y, z; cbn [mixed_factors] in P; try contradiction; repeat split; (apply Forall_cons; [exact I|assumption]).
Qed.

Lemma mean_of (u u' v v' w w' k x y t : R) : (u' - u = k * x -> v' - v = k * y -> w' - w = k * ((1 - t) * x + t * y) -> w = (1 - t) * u + t * v -> w' = (1 - t) * u' + t * v')%R.
Proof. intros A B C D. replace w' with (w + k * ((1 - t) * x + t * y))%R by lra. replace u' with (u + k * x)%R by lra. replace v' with (v + k * y)%R by lra. rewrite D. ring. Qed.
Section Three.
Context {S1 S2 S3 : Type} (SV1 : solver RN S1) (SV2 : solver RN S2) (SV3 : solver RN S3) (EV1 EV2 EV3 : nat -> env (N:=RN) (V:=lvar RN)).
Hypothesis HE1 : forall n, env_ok (EV1 n).
Hypothesis HE2 : forall n, env_ok (EV2 n).
Hypothesis HE3 : forall n, env_ok (EV3 n).
Hypothesis HF1 : factorising_solver SV1.
Hypothesis HF2 : factorising_solver SV2.
Hypothesis HF3 : factorising_solver SV3.
Lemma superposed t a1 b1 c1 d1 a2 b2 c2 d2 a3 b3 c3 d3 (p p' : pstate (N:=RN) (V:=lvar RN) (S:=S1)) (q q' : pstate (N:=RN) (V:=lvar RN) (S:=S2)) (s s' : pstate (N:=RN) (V:=lvar RN) (S:=S3)) fs1 fs2 fs3 :
  finalized_history (lib RN) a1 b1 c1 (p_heap p) d1 (p_graph p) -> unfinalized (lib RN) ([], empty_graph) a1 -> careful ([], empty_graph) a1 -> careful (c1, d1) b1 ->
  finalized_history (lib RN) a2 b2 c2 (p_heap q) d2 (p_graph q) -> unfinalized (lib RN) ([], empty_graph) a2 -> careful ([], empty_graph) a2 -> careful (c2, d2) b2 ->
  finalized_history (lib RN) a3 b3 c3 (p_heap s) d3 (p_graph s) -> unfinalized (lib RN) ([], empty_graph) a3 -> careful ([], empty_graph) a3 -> careful (c3, d3) b3 ->
  let vs := get_all_variables (p_graph p) in
  get_all_variables (p_graph q) = vs -> get_all_variables (p_graph s) = vs ->
  get_all_factors (p_graph p) = map build fs1 -> get_all_factors (p_graph q) = map build fs2 -> get_all_factors (p_graph s) = map build fs3 ->
  all3 (mixed_factors t) fs1 fs2 fs3 -> mixed_heaps t (p_heap p) (p_heap q) (p_heap s) ->
  Forall (well_used (p_heap p)) fs1 -> Forall (well_used (p_heap q)) fs2 -> Forall (well_used (p_heap s)) fs3 ->
  plain (p_heap p) vs -> plain (p_heap q) vs -> plain (p_heap s) vs ->
  Forall (factor_wf (lib RN) (p_heap p) vs) (map build fs1) -> some_active (lib RN) (p_heap p) (map build fs1) ->
  Forall (factor_wf (lib RN) (p_heap q) vs) (map build fs2) -> some_active (lib RN) (p_heap q) (map build fs2) ->
  Forall (factor_wf (lib RN) (p_heap s) vs) (map build fs3) -> some_active (lib RN) (p_heap s) (map build fs3) ->
  st_method (p_set p) = GaussNewton -> st_method (p_set q) = GaussNewton -> st_method (p_set s) = GaussNewton -> st_rate (p_set q) = st_rate (p_set p) -> st_rate (p_set s) = st_rate (p_set p) ->
  optimize (lib RN) SV1 EV1 p = (p', Ok tt) -> optimize (lib RN) SV2 EV2 q = (q', Ok tt) -> optimize (lib RN) SV3 EV3 s = (s', Ok tt) -> p_caught p' = false -> p_caught q' = false -> p_caught s' = false ->
  ss_iter (p_cur q') = ss_iter (p_cur p') /\ ss_iter (p_cur s') = ss_iter (p_cur p') \/
    st_rate (p_set p) = 1%R /\ 0 < ss_iter (p_cur p') /\ 0 < ss_iter (p_cur q') /\ 0 < ss_iter (p_cur s') ->
  mixed_heaps t (p_heap p') (p_heap q') (p_heap s').
Proof.
  intros A1 B1 C1 D1 A2 B2 C2 D2 A3 B3 C3 D3 vs Ev2 Ev3 Ef1 Ef2 Ef3 F M U1 U2 U3 P1 P2 P3 W1 X1 W2 X2 W3 X3 Hm1 Hm2 Hm3 Er2 Er3 E1 E2 E3 Hc1 Hc2 Hc3 Hk.
  destruct (all3_similar t _ _ _ F) as (Si2 & Si3 & L1 & L2 & L3). destruct (mixed_alike t _ _ _ M) as (Al2 & Al3).
  destruct (run_goal SV1 EV1 HE1 HF1 _ _ _ _ p p' fs1 A1 B1 C1 D1 Ef1 W1 X1 L1 U1 P1 Hm1 E1 Hc1) as (Hl & R1 & Z1 & G1). fold vs in Hl, R1, Z1, G1.
  rewrite <- Ev2 in W2, P2. rewrite <- Ev3 in W3, P3.
  destruct (run_goal SV2 EV2 HE2 HF2 _ _ _ _ q q' fs2 A2 B2 C2 D2 Ef2 W2 X2 L2 U2 P2 Hm2 E2 Hc2) as (Hl2 & R2 & Z2 & G2). rewrite Ev2, Er2 in *.
  destruct (run_goal SV3 EV3 HE3 HF3 _ _ _ _ s s' fs3 A3 B3 C3 D3 Ef3 W3 X3 L3 U3 P3 Hm3 E3 Hc3) as (Hl3 & R3 & Z3 & G3). rewrite Ev3, Er3 in *.
  destruct (Nat.eq_dec (ss_iter (p_cur p')) 0) as [K|K].
  { destruct Hk as [(K2 & K3)|(_ & K2 & _)]; [|lia]. rewrite Z1, Z2, Z3 by lia. exact M. }
  assert (Kp : 0 < ss_iter (p_cur p')) by lia. assert (Kq : 0 < ss_iter (p_cur q')) by (destruct Hk as [(K2 & K3)|(_ & _ & K2 & _)]; lia). assert (Ks : 0 < ss_iter (p_cur s')) by (destruct Hk as [(K2 & K3)|(_ & _ & _ & K2)]; lia).
  destruct (G1 Kp) as (J & r1 & x1 & J1 & Sr1 & Hu & D1' & Q1). destruct (G2 Kq) as (J2 & r2 & x2 & J2' & Sr2 & _ & D2' & Q2). destruct (G3 Ks) as (J3 & r3 & x3 & J3' & Sr3 & _ & D3' & Q3). clear G1 G2 G3.
  destruct (jacobian_unique (lib RN) _ _ _ _ _ J2' (similar_jacobian _ _ vs _ _ J Al2 Hl Si2 U1 J1)) as (Y1 & Y2 & Y3).
  destruct (jacobian_unique (lib RN) _ _ _ _ _ J3' (similar_jacobian _ _ vs _ _ J Al3 Hl Si3 U1 J1)) as (V1 & V2 & V3).
  pose proof (damped_same _ _ _ _ Y1 Y2 Y3 D2') as Dq. pose proof (damped_same _ _ _ _ V1 V2 V3 D3') as Ds.
  assert (Sx : forall j, j < mcols J -> (nth j x3 0 = (1 - t) * nth j x1 0 + t * nth j x2 0)%R).
  { apply (mixed_solution t J r1 r2 r3); auto.
    - destruct J1 as (jss & _ & (Jr & _)). rewrite Jr. destruct Sr1 as (rs & Sr & ->). clear -Sr. revert rs Sr. generalize (map build fs1). intros gs rs Sr. induction Sr as [|f x gs rs (_ & L) Sr IH]; [apply Nat.le_refl|]. cbn [concat]. rewrite app_length. unfold total_rows in *. cbn [map]. change (list_sum (f_rsize f :: map f_rsize gs)) with (f_rsize f + list_sum (map f_rsize gs)). change (car RN) with R in *. lia.
    - exact (mixed_stacked t _ _ _ _ _ _ _ _ _ M F U1 U2 U3 Sr1 Sr2 Sr3). }
  set (k1 := (1 - (1 - st_rate (p_set p)) ^ ss_iter (p_cur p'))%R) in *.
  assert (K2 : (1 - (1 - st_rate (p_set p)) ^ ss_iter (p_cur q'))%R = k1).
  { unfold k1. destruct Hk as [(-> & _)|(-> & _)]; [reflexivity|]. destruct (ss_iter (p_cur q')), (ss_iter (p_cur p')); try lia. simpl. ring. }
  assert (K3 : (1 - (1 - st_rate (p_set p)) ^ ss_iter (p_cur s'))%R = k1).
  { unfold k1. destruct Hk as [(_ & ->)|(-> & _)]; [reflexivity|]. destruct (ss_iter (p_cur s')), (ss_iter (p_cur p')); try lia. simpl. ring. }
  rewrite K2 in Q2. rewrite K3 in Q3. rewrite Y2 in Q2. rewrite V2 in Q3. pose proof M as (Lh2 & Lh3 & Mh).
  destruct R1 as (Rv1 & (Ra1 & Rb1)). destruct R2 as (Rv2 & (Ra2 & Rb2)). destruct R3 as (Rv3 & (Ra3 & Rb3)).
  split; [congruence|]. split; [congruence|]. intros a u' v' w' Hu' Hv' Hw'.
  assert (La : a < length (p_heap p)) by (rewrite <- Ra1; apply nth_error_Some; congruence).
  destruct (nth_error (p_heap p) a) as [u|] eqn:Eu; [|apply nth_error_None in Eu; lia]. destruct (nth_error (p_heap q) a) as [v|] eqn:Ev; [|apply nth_error_None in Ev; lia]. destruct (nth_error (p_heap s) a) as [w|] eqn:Ew; [|apply nth_error_None in Ew; lia].
  destruct (Rb1 a u Eu) as (u1 & H1 & _ & Su & Cu & Ku & Nu). destruct (Rb2 a v Ev) as (v1 & H2 & _ & Sv & Cv & Kv & Nv). destruct (Rb3 a w Ew) as (w1 & H3 & _ & Sw & Cw & Kw & Nw).
  assert (u1 = u') by congruence. assert (v1 = v') by congruence. assert (w1 = w') by congruence. subst u1 v1 w1.
  destruct (Mh a u v w Eu Ev Ew) as ((Cc1 & Cc2) & (Sz1 & Sz2) & Mx). cbn [vconst vsize vval lib] in *.
  split; [split; congruence|]. split; [split; congruence|].
  destruct (l_const u) eqn:Cst; [rewrite (Ku (or_introl eq_refl)), (Kv (or_introl Cc1)), (Kw (or_introl Cc2)); exact Mx|].
  destruct (in_dec Nat.eq_dec a vs) as [Ia|Na]; [|rewrite (Ku (or_intror Na)), (Kv (or_intror Na)), (Kw (or_intror Na)); exact Mx].
  specialize (Nu eq_refl Ia). specialize (Nv Cc1 Ia). specialize (Nw Cc2 Ia). change (car RN) with R in *. destruct Mx as (_ & _ & Mx).
  split; [lia|]. split; [lia|]. intros c Hc. rewrite Nu in Hc. destruct (In_nth_error _ _ Ia) as (m & Hm).
  pose proof J1 as (jss & _ & (_ & Jc & _)).
  assert (Hj : col_start (lib RN) (p_heap p) vs m + c < mcols J).
  { rewrite Jc. pose proof (col_start_le (lib RN) (p_heap p) vs m a Hm) as X. unfold width in X at 1. rewrite Eu in X. cbn [vconst vsize lib] in X. rewrite Cst in X. lia. }
  assert (Cs : forall h, alike (p_heap p) h -> col_start (lib RN) h vs m = col_start (lib RN) (p_heap p) vs m).
  { intros h Ah. unfold col_start. do 2 f_equal. apply map_ext_in. intros b Hb. rewrite Forall_forall in Hl. apply alike_width; auto. }
  assert (Hu0 : length (kval (l_kind u)) = ksize (l_kind u)).
  { destruct (sound_history _ _ _ _ _ _ A1 C1 D1) as (Sh & _). exact (Sh a u Eu). }
  specialize (Q1 _ Hj). specialize (Q2 _ Hj). specialize (Q3 _ Hj). rewrite (Sx _ Hj) in Q3.
  rewrite (d_at (lib RN) (p_heap p) vs (p_heap p') m a u u' c (conj Rv1 (conj Ra1 Rb1)) Hm Eu H1 Cst Hc) in Q1.
  rewrite <- (Cs _ Al2) in Q2 at 1. rewrite (d_at (lib RN) (p_heap q) vs (p_heap q') m a v v' c (conj Rv2 (conj Ra2 Rb2)) Hm Ev H2 Cc1) in Q2 by (cbn [vsize lib]; lia).
  rewrite <- (Cs _ Al3) in Q3 at 1. rewrite (d_at (lib RN) (p_heap s) vs (p_heap s') m a w w' c (conj Rv3 (conj Ra3 Rb3)) Hm Ew H3 Cc2) in Q3 by (cbn [vsize lib]; lia).
  cbn [vval lib] in *. change (car RN) with R in *. specialize (Mx c). rewrite Hu0 in Mx. specialize (Mx Hc).
  exact (mean_of _ _ _ _ _ _ _ _ _ _ Q1 Q2 Q3 Mx).
Qed.
End Three.
