(** One Gauss-Newton step on an affine problem, in exact arithmetic. *)
From Coq Require Import List Arith ZArith QArith Bool Lia Permutation Reals Lra.
From Verif Require Import Base Sparse Graph SpecGraph SpecOpt ListLemmas GraphLayout GraphFin GraphBasic GraphVec GraphDense GraphSparse Optimizer OptLemmas OptWork OptLM OptRun OptMore Real RSum SpecSolver Gram OptCov OptExact.
Import ListNotations.
Local Open Scope nat_scope.

(** ** Reindexing sums *)
Lemma Forall2_nth_l {A B} (P : A -> B -> Prop) l l' k x : Forall2 P l l' -> nth_error l k = Some x -> exists y, nth_error l' k = Some y /\ P x y.
Proof.
  intros H. revert k. induction H; intros [|k]; simpl; intros E; try discriminate; [|auto].
  inversion E; subst. eauto.
Qed.
Lemma nth_nth_error (l : list R) i : nth i l 0%R = match nth_error l i with Some x => x | None => 0%R end.
Proof. revert i. induction l; intros [|i]; simpl; auto. Qed.
Lemma filter_nodup_inj {A} (P : A -> bool) l i j x : NoDup (filter P l) -> P x = true ->
  nth_error l i = Some x -> nth_error l j = Some x -> i = j.
Proof.
  intros ND Px. revert i j. induction l as [|y t IH]; intros [|i] [|j]; simpl; intros Hi Hj; try discriminate; auto.
  - inversion Hi; subst y. simpl in ND. rewrite Px in ND. inversion ND; subst. exfalso. apply H1. apply filter_In. split; auto. eapply nth_error_In; eauto.
  - inversion Hj; subst y. simpl in ND. rewrite Px in ND. inversion ND; subst. exfalso. apply H1. apply filter_In. split; auto. eapply nth_error_In; eauto.
  - f_equal. apply IH; auto. simpl in ND. destruct (P y); auto. inversion ND; auto.
Qed.

Section Linear.
Context {V : Type} (VC : vclass RN V).
Notation factor := (factor (N:=RN) (V:=V)).

Definition is_addr (o : option (option addr)) (b : addr) : bool := match o with Some (Some a) => a =? b | _ => false end.
Lemma is_addr_true o b : is_addr o b = true <-> o = Some (Some b).
Proof. destruct o as [[a|]|]; simpl; split; intros H; try discriminate; [apply Nat.eqb_eq in H; subst; auto|]. inversion H. apply Nat.eqb_refl. Qed.

(** a sum over the listed variables is a sum over the graph's variables *)
Lemma reindex (h : @heap V) (vs : list addr) (vars : list (option addr)) (T : nat -> R) : NoDup vs -> nodup_listed VC h vars ->
  (forall q, T q <> 0%R -> exists a, nth_error vars q = Some (Some a) /\ 0 < width VC h a /\ In a vs) ->
  rsum (length vars) T = rsum (length vs) (fun m => match listed_at (nth m vs O) vars with Some q => if 0 <? width VC h (nth m vs O) then T q else 0%R | None => 0%R end).
Proof.
  intros ND NL HT.
  transitivity (rsum (length vars) (fun q => rsum (length vs) (fun m => if is_addr (nth_error vars q) (nth m vs O) then T q else 0%R))).
  - apply rsum_ext. intros q Hq. destruct (Req_dec (T q) 0) as [E|E].
    + rewrite E. symmetry. apply rsum_zero. intros i Hi. destruct (is_addr _ _); auto.
    + destruct (HT q E) as (a & A1 & A2 & A3). apply In_nth_error in A3. destruct A3 as (m & A3).
      assert (Hm : m < length vs) by (apply nth_error_Some; congruence).
      rewrite (rsum_single _ m); auto.
      * rewrite (nth_error_nth _ _ _ A3), A1. simpl. rewrite Nat.eqb_refl. reflexivity.
      * intros m' Hm' Hne. rewrite A1. simpl. destruct (Nat.eqb_spec a (nth m' vs 0)) as [Ea|]; auto. exfalso. apply Hne.
        apply (NoDup_nth_inj vs m' m a); auto. rewrite Ea. apply nth_error_nth'. auto.
  - rewrite rsum_swap. apply rsum_ext. intros m Hm. set (b := nth m vs 0).
    destruct (Nat.ltb_spec 0 (width VC h b)) as [Hw|Hw].
    + destruct (listed_at b vars) as [q0|] eqn:L.
      * apply listed_at_nth in L. assert (Hq0 : q0 < length vars) by (apply nth_error_Some; congruence). rewrite (rsum_single _ q0); auto.
        -- rewrite L. simpl. rewrite Nat.eqb_refl. reflexivity.
        -- intros q Hq Hne. destruct (is_addr (nth_error vars q) b) eqn:I; auto. apply is_addr_true in I. exfalso. apply Hne.
           unfold nodup_listed in NL. eapply filter_nodup_inj; eauto. simpl. destruct (Nat.eqb_spec (width VC h b) 0); auto; lia.
      * apply rsum_zero. intros q Hq. destruct (is_addr (nth_error vars q) b) eqn:I; auto. apply is_addr_true in I.
        exfalso. apply listed_at_none in L. apply L. eapply nth_error_In; eauto.
    + assert (Z : forall q, is_addr (nth_error vars q) b = true -> T q = 0%R).
      { intros q I. apply is_addr_true in I. destruct (Req_dec (T q) 0) as [E|E]; auto. destruct (HT q E) as (a & A1 & A2 & _).
        rewrite A1 in I. inversion I; subst. lia. }
      rewrite rsum_zero; [destruct (listed_at b vars); auto|]. intros q Hq. destruct (is_addr (nth_error vars q) b) eqn:I; auto.
Qed.

(** ** The vector of value differences *)
Definition diff_of (h h' : @heap V) (a : addr) : list R :=
  match nth_error h a, nth_error h' a with
  | Some v, Some v' => if vconst VC v then [] else map (fun c => nth c (vval VC v') 0 - nth c (vval VC v) 0)%R (seq 0 (vsize VC v))
  | _, _ => []
  end.
Definition diffs (h h' : @heap V) (vs : list addr) : list R := concat (map (diff_of h h') vs).

Lemma diff_length h h' vs a : reassigned VC h h' vs -> length (diff_of h h' a) = width VC h a.
Proof.
  intros (_ & Hr). unfold diff_of, width. destruct (nth_error h a) as [v|] eqn:E; auto. destruct (Hr a v E) as (v' & -> & _).
  destruct (vconst VC v); auto. rewrite map_length, seq_length. auto.
Qed.
Lemma diffs_length h h' vs : reassigned VC h h' vs -> length (diffs h h' vs) = total_cols VC h vs.
Proof.
  intros Hr. unfold diffs, total_cols. rewrite concat_length_sum, map_map. f_equal. apply map_ext. intros a. eapply diff_length; eauto.
Qed.
Lemma diffs_nth h h' vs m a v v' c : reassigned VC h h' vs -> nth_error vs m = Some a -> nth_error h a = Some v -> nth_error h' a = Some v' ->
  vconst VC v = false -> c < vsize VC v ->
  nth (col_start VC h vs m + c) (diffs h h' vs) 0%R = (nth c (vval VC v') 0 - nth c (vval VC v) 0)%R.
Proof.
  intros Hr Hm Hv Hv' C Hc. apply nth_error_nth. unfold diffs.
  assert (L : map (@length R) (map (diff_of h h') vs) = map (width VC h) vs) by (rewrite map_map; apply map_ext; intros b; eapply diff_length; eauto).
  unfold col_start. rewrite <- L. fold (psum (map (@length R) (map (diff_of h h') vs)) m).
  rewrite (concat_nth _ m (diff_of h h' a)).
  - unfold diff_of. rewrite Hv, Hv', C. rewrite nth_error_map. rewrite nth_error_seq, (proj2 (Nat.ltb_lt _ _) Hc). reflexivity.
  - rewrite nth_error_map, Hm. reflexivity.
  - rewrite (diff_length h h' vs a Hr). unfold width. rewrite Hv, C. auto.
Qed.

(** ** Residuals at another assignment *)
Lemma row_affine (h h' : @heap V) (vs : list addr) (fs : list factor) jss (J : mat RN) r r' :
  NoDup vs -> Forall (factor_wf VC h vs) fs -> assembled VC h vs fs jss J ->
  Forall2 (fun f js => blocks_ok VC h (f_rsize f) (f_vars f) js /\ affine_at VC h vs f js) fs jss ->
  reassigned VC h h' vs -> stacked h fs r -> stacked h' fs r' ->
  length r = total_rows fs /\ length r' = total_rows fs /\
  forall i, i < total_rows fs ->
    nth i r' 0%R = (nth i r 0 + rsum (total_cols VC h vs) (fun j => mat_at J i j * nth j (diffs h h' vs) 0))%R.
Proof.
  intros ND Hw (J1 & J2 & J3) HA Hr (rs & S1 & ->) (rs' & S1' & ->).
  assert (Ln : forall g (l : list factor) (x : list (list R)), Forall2 (fun f y => f_res_ref f g = Ok y /\ length y = f_rsize f) l x -> map (@length R) x = map f_rsize l).
  { intros g l x F. induction F as [|f y l' x' [_ Hl]]; simpl; auto. f_equal; [exact Hl|auto]. }
  pose proof (Ln _ _ _ S1) as L1. pose proof (Ln _ _ _ S1') as L2.
  split; [|split].
  { etransitivity; [apply concat_length_sum|]. exact (f_equal list_sum L1). }
  { etransitivity; [apply concat_length_sum|]. exact (f_equal list_sum L2). }
  intros i Hi. destruct (psum_cover _ _ Hi) as (k & d & Hk & Hd). rewrite nth_error_map in Hk.
  destruct (nth_error fs k) as [f|] eqn:Ef; [|discriminate]. simpl in Hk. injection Hk as <-.
  set (c := i - psum (map f_rsize fs) k). assert (Ei : i = psum (map f_rsize fs) k + c) by (unfold c; lia).
  assert (Hc : c < f_rsize f) by (unfold c; lia).
  destruct (Forall2_nth_l _ _ _ _ _ S1 Ef) as (y & Ey & Y1 & Y2). destruct (Forall2_nth_l _ _ _ _ _ S1' Ef) as (y' & Ey' & Y1' & Y2').
  destruct (Forall2_nth_l _ _ _ _ _ HA Ef) as (js & Ej & B1 & B2).
  destruct (B2 h' Hr) as (z & z' & Z1 & Z2 & Z3 & Z4 & Z5). assert (z = y) by congruence. assert (z' = y') by congruence. subst z z'.
  assert (E1 : nth i (concat rs) 0%R = nth c y 0%R).
  { etransitivity; [apply nth_nth_error|]. rewrite Ei, <- L1, nth_nth_error. pose proof (concat_nth rs k y c Ey) as X. rewrite Y2 in X. specialize (X Hc). exact (f_equal (fun o => match o with Some x => x | None => 0%R end) X). }
  assert (E2 : nth i (concat rs') 0%R = nth c y' 0%R).
  { etransitivity; [apply nth_nth_error|]. rewrite Ei, <- L2, nth_nth_error. pose proof (concat_nth rs' k y' c Ey') as X. rewrite Y2' in X. specialize (X Hc). exact (f_equal (fun o => match o with Some x => x | None => 0%R end) X). }
  rewrite E1, E2, Z5 by auto. f_equal.
  pose proof (proj1 (Forall_forall _ _) Hw f (nth_error_In _ _ Ef)) as Hwf. destruct (wf_listed VC h vs f Hwf) as (W1 & W2 & W3).
  rewrite (reindex h vs (f_vars f) (block_term VC h h' (f_vars f) js c) ND W2).
  - unfold total_cols. rewrite rsum_blocks, map_length. apply rsum_ext. intros m Hm. set (a := nth m vs O).
    assert (Em : nth_error vs m = Some a) by (apply nth_error_nth'; auto).
    rewrite (nth_indep _ 0 (width VC h O)) by (rewrite map_length; auto). rewrite map_nth. fold a.
    change (list_sum (firstn m (map (width VC h) vs))) with (col_start VC h vs m).
    assert (X : forall c0, c0 < width VC h a -> (mat_at J i (col_start VC h vs m + c0) = match listed_at a (f_vars f) with
      | Some q => match nth_error js q with Some B => mat_at B c c0 | None => 0 end | None => 0 end)%R).
    { intros c0 Hc0. rewrite Ei. change (psum (map f_rsize fs) k) with (row_start fs k). rewrite (J3 k f js m a c c0) by auto.
      destruct (listed_at a (f_vars f)) as [q|]; [destruct (nth_error js q); auto|]; apply lit_zero. }
    destruct (listed_at a (f_vars f)) as [q|] eqn:Lq.
    + destruct (Nat.ltb_spec 0 (width VC h a)) as [Hpos|Hz]; [|replace (width VC h a) with 0 by lia; reflexivity].
      apply listed_at_nth in Lq. unfold block_term. rewrite Lq. unfold width in *. 
      destruct (nth_error h a) as [v|] eqn:Ev; [|lia]. destruct (vconst VC v) eqn:C; [lia|].
      destruct (proj2 Hr a v Ev) as (v' & Ev' & _). rewrite Ev'.
      assert (Hq : q < length js). { assert (q < length (f_vars f)) by (apply nth_error_Some; congruence). destruct B1; lia. }
      destruct (nth_error js q) as [B|] eqn:EB; [|apply nth_error_None in EB; lia].
      apply rsum_ext. intros c0 Hc0. rewrite X by auto. rewrite (diffs_nth h h' vs m a v v' c0) by auto. reflexivity.
    + symmetry. apply rsum_zero. intros c0 Hc0. rewrite X by auto. lra.
  - intros q Hq. unfold block_term in Hq. destruct (nth_error (f_vars f) q) as [[a|]|] eqn:Eq; try lra. exists a. split; auto.
    destruct (nth_error h a) as [v|] eqn:Ev; try lra. destruct (nth_error h' a) as [v'|]; try lra. destruct (nth_error js q); try lra.
    destruct (vconst VC v) eqn:C; try lra.
    destruct (W1 (Some a) (nth_error_In _ _ Eq)) as (a0 & v0 & A1 & A2 & A3). injection A1 as <-. rewrite Ev in A2. injection A2 as <-.
    destruct (A3 C) as (A4 & A5). split; auto. unfold width. rewrite Ev, C. auto.
Qed.

(** ** Least squares *)
Lemma normal_eq_optimal m n (J : nat -> nat -> R) (r d D : nat -> R) :
  (forall j, j < n -> rsum n (fun k => rsum m (fun i => J i j * J i k) * d k)%R = (- rsum m (fun i => J i j * r i))%R) ->
  (rsum m (fun i => (r i + rsum n (fun j => J i j * d j)) * (r i + rsum n (fun j => J i j * d j))) <=
   rsum m (fun i => (r i + rsum n (fun j => J i j * D j)) * (r i + rsum n (fun j => J i j * D j))))%R.
Proof.
  intros HN. set (u := fun i => (r i + rsum n (fun j => J i j * d j))%R). set (w := fun i => rsum n (fun j => J i j * (D j - d j))%R).
  assert (E : forall i, (r i + rsum n (fun j => J i j * D j) = u i + w i)%R).
  { intros i. unfold u, w. rewrite (rsum_ext n (fun j => J i j * (D j - d j))%R (fun j => J i j * D j - J i j * d j)%R) by (intros; lra). rewrite rsum_minus. lra. }
  rewrite (rsum_ext m (fun i => (r i + rsum n (fun j => J i j * D j)) * (r i + rsum n (fun j => J i j * D j)))%R
             (fun i => (u i * u i + 2 * (u i * w i)) + w i * w i)%R) by (intros i Hi; rewrite E; ring).
  fold u. rewrite !rsum_plus, rsum_scal.
  assert (O : rsum m (fun i => u i * w i)%R = 0%R).
  { rewrite (rsum_ext m _ (fun i => rsum n (fun j => u i * J i j * (D j - d j))%R)).
    2: { intros i Hi. unfold w. rewrite <- rsum_scal. apply rsum_ext. intros; lra. }
    rewrite rsum_swap. apply rsum_zero. intros j Hj. rewrite rsum_scal_r.
    replace (rsum m (fun i => u i * J i j)%R) with 0%R; [lra|].
    transitivity (rsum m (fun i => J i j * r i)%R + rsum n (fun k => rsum m (fun i => J i j * J i k) * d k)%R)%R; [rewrite HN by auto; lra|].
    rewrite (rsum_ext n _ (fun k => rsum m (fun i => J i j * J i k * d k)%R)) by (intros; rewrite rsum_scal_r; auto).
    rewrite rsum_swap, <- rsum_plus. apply rsum_ext. intros i Hi. unfold u.
    rewrite (rsum_ext n _ (fun k => J i j * (J i k * d k))%R) by (intros; lra). rewrite rsum_scal. lra. }
  rewrite O. assert (0 <= rsum m (fun i => w i * w i)%R)%R by (apply rsum_nonneg; intros; apply Rle_0_sqr).
  change (rsum m (fun i => (r i + rsum n (fun j => J i j * d j)) * (r i + rsum n (fun j => J i j * d j))))%R with (rsum m (fun i => u i * u i))%R.
  lra.
Qed.
End Linear.

Section Step.
Context {V : Type} (VC : vclass RN V) {S : Type} (SV : solver RN S).
Notation graph := (graph (N:=RN) (V:=V)).
Notation env := (env (N:=RN) (V:=V)).
Notation pstate := (pstate (N:=RN) (V:=V) (S:=S)).
Notation M := (M (N:=RN) (V:=V) (S:=S)).
Context (EV : nat -> env).
Hypothesis Hok : vclass_ok VC.
Hypothesis HE : forall n, env_ok (EV n).
Ltac bindn H p1 a E := apply bind_ok in H; destruct H as (p1 & a & E & H).

(** what a successful Gauss-Newton step did *)
Lemma gn_step_inv (p p' : pstate) : pfin VC p -> gn_step VC SV EV p = (p', Ok tt) -> ~ failure (ss_status (p_cur p')) ->
  exists r1 g' Mx s2 x h2,
    stacked (p_heap p) (facs p) r1 /\ compute_sparse VC (p_heap p) (p_graph p) = (g', Ok Mx) /\ mrows (sp_dense Mx) = length r1 /\
    sv_solve SV (sv_compute SV (p_solver p) (jtj (sp_dense Mx))) (map (fun y => nmul y (nlit (-1))) (mvmul (mtrans (sp_dense Mx)) r1)) = (s2, x) /\
    sv_ok SV s2 = true /\
    inc_loop VC false (p_heap p) g' (get_all_variables g') (map (fun y => nmul y (st_rate (p_set p))) x) = (h2, Ok tt) /\
    p_heap p' = h2 /\ fin VC (p_heap p) g'.
Proof.
  intros Hf H Hs. unfold gn_step in H.
  bindn H p0 u0 E0. destruct u0. pose proof E0 as F0. apply (residual1_ok VC EV HE) in F0; auto. destruct F0 as (A0 & A1 & A2 & A3 & A4 & A5 & A6).
  assert (As : p_solver p0 = p_solver p) by (unfold m_residual1 in E0; destruct (compute_residual_into _ _ _ _); inversion E0; reflexivity).
  bindn H p1 J Eq1. pose proof Eq1 as F1. apply (sparse_ok VC EV Hok HE) in F1; auto. destruct F1 as (B0 & B1 & B2 & B3 & B4 & B5 & B6).
  unfold m_sparse in Eq1. destruct (compute_sparse VC (p_heap p0) (p_graph p0)) as [g' o] eqn:Es. injection Eq1 as Ep1 Eo.
  destruct o as [Mx|e|u]; simpl in Eo; try discriminate. injection Eo as Eo.
  rewrite A1, A2 in Es.
  assert (Bs : p_solver p1 = p_solver p0 /\ p_graph p1 = g') by (subst p1; auto).
  clear Ep1. bindn H p2 r1 E2. injection E2 as Ep2 Er1. rewrite <- Ep2 in *. clear Ep2.
  bindn H p3 b0 E3. unfold lift in E3. injection E3 as Ep3 Eb. rewrite <- Ep3 in *. clear Ep3. unfold jtr in Eb.
  destruct (Nat.eqb_spec (mrows J) (length r1)) as [El|]; [|discriminate]. injection Eb as Eb.
  bindn H p4 ok E4. unfold m_factorize in E4. injection E4 as Ep4 Eok.
  assert (C4 : p_heap p4 = p_heap p1 /\ p_graph p4 = g' /\ p_set p4 = p_set p1 /\ p_solver p4 = sv_compute SV (p_solver p1) (jtj J)) by (subst p4; destruct Bs; auto).
  clear Ep4. destruct C4 as (C1 & C2 & C3 & C4).
  assert (NF : forall q st, failure st -> m_fail st q = (p', Ok tt) -> False).
  { intros q st Hst Q. inversion Q; subst p'. apply Hs. exact Hst. }
  destruct ok; cbn [negb] in H; [|exfalso; eapply NF; [|exact H]; left; auto].
  bindn H p5 s E5. injection E5 as Ep5 _. rewrite <- Ep5 in *. clear Ep5.
  bindn H p6 mn E6. unfold lift in E6. injection E6 as Ep6 _. rewrite <- Ep6 in *. clear Ep6.
  bindn H p7 mx E7. unfold lift in E7. injection E7 as Ep7 _. rewrite <- Ep7 in *. clear Ep7.
  destruct (nltb mn _); [exfalso; eapply NF; [|exact H]; right; left; auto|].
  destruct (nltb _ _); [exfalso; eapply NF; [|exact H]; right; right; auto|].
  bindn H p8 xo E8. unfold m_solve in E8. destruct (sv_solve SV (p_solver p4) _) as [s2 x] eqn:Ev. injection E8 as Ep8 Exo. subst xo. simpl fst in H. simpl snd in H.
  assert (D8 : p_heap p8 = p_heap p1 /\ p_graph p8 = g' /\ p_set p8 = p_set p1) by (subst p8; simpl; auto). clear Ep8. destruct D8 as (D1 & D2 & D3).
  destruct (sv_ok SV s2) eqn:Eok2; cbn [negb] in H; [|exfalso; eapply NF; [|exact H]; left; auto].
  bindn H p9 st E9. injection E9 as Ep9 Est. rewrite <- Ep9 in *. clear Ep9.
  bindn H p10 u10 E10. destruct u10. unfold m_apply in E10. destruct (inc_loop VC false (p_heap p8) (p_graph p8) (get_all_variables (p_graph p8)) _) as [h2 o] eqn:Ei.
  injection E10 as Ep10 Eo10. subst o.
  bindn H p11 u11 E11. destruct u11.
  assert (H11 : p_heap p11 = h2) by (unfold m_residual2 in E11; destruct (compute_residual_into _ _ _ _); inversion E11; subst p10; auto).
  bindn H p12 r2 E12. injection E12 as Ep12 _. rewrite <- Ep12 in *. clear Ep12. unfold m_record, mupd in H. injection H as Hp'.
  exists r1, g', Mx, s2, x, h2. destruct Bs as (Bs & Bg).
  assert (Er : r1 = p_r1 p0) by congruence.
  split; [rewrite Er; exact A6|]. split; auto. split; [rewrite Eo; exact El|]. rewrite Eo.
  split. { rewrite C4, Bs, As in Ev. rewrite <- Eb in Ev. exact Ev. }
  split; auto. split. { rewrite D1, D2, B1, A1, <- Est, D3, B4, A4 in Ei. exact Ei. }
  split; [rewrite <- Hp'; exact H11|]. unfold pfin in B0. rewrite B1, A1, Bg in B0. exact B0.
Qed.

(** ** C24 *)
Theorem gn_solves_linear l1 l2 h1 g1 (p p' : pstate) jss :
  exact_solver SV ->
  finalized_history VC l1 l2 h1 (p_heap p) g1 (p_graph p) -> unfinalized VC ([], empty_graph) l1 ->
  let vs := get_all_variables (p_graph p) in let fs := get_all_factors (p_graph p) in
  Forall (factor_wf VC (p_heap p) vs) fs -> some_active VC (p_heap p) fs -> Forall buf_indep fs ->
  Forall2 (fun f js => f_jac f (p_heap p) [] = (js, Ok tt) /\ blocks_ok VC (p_heap p) (f_rsize f) (f_vars f) js) fs jss ->
  Forall2 (affine_at VC (p_heap p) vs) fs jss -> each_nonconst VC (p_heap p) vs (additive VC) ->
  st_method (p_set p) = GaussNewton -> st_max_iter (p_set p) = 1 -> st_rate (p_set p) = 1%R ->
  optimize VC SV EV p = (p', Ok tt) -> p_caught p' = false -> ~ failure (ss_status (p_cur p')) ->
  exists r, stacked (p_heap p') fs r /\ ss_chi2 (p_cur p') = sqnorm r /\ reassigned VC (p_heap p) (p_heap p') vs /\
    forall h' r', reassigned VC (p_heap p) h' vs -> stacked h' fs r' -> (sqnorm r <= sqnorm r')%R.
Proof.
  intros (holds & X1 & X2 & X3) HF Hu vs fs Hwf Hact Hbuf Hjac Haff Hadd Hm Hmax Hrate Hopt Hca Hst.
  destruct (finalized_facts VC Hok _ _ _ _ _ _ HF) as (_ & Hfin & _).
  assert (Hdesc := optimize_described_gn VC SV EV Hok HE p p' Hfin Hm Hopt Hca). destruct Hdesc as ((r & Dr1 & Dr2 & Dr3) & _).
  pose proof (optimize_traced VC SV EV HE p p' _ Hopt) as Htr. apply (traced_keeps VC Hok) in Htr; auto. simpl in Htr. destruct Htr as (Hfin' & _ & Hreg & _).
  assert (Hfs' : facs p' = fs) by (unfold facs, fs, get_all_factors; rewrite Hreg; auto). rewrite Hfs' in Dr1.
  exists r. split; auto. split; auto.
  pose proof Hopt as Hopt2. apply optimize_ok in Hopt2. destruct Hopt2 as (Hg & g & r0 & p2 & Cr & L & Ep').
  set (pb := begin_run g r0 p) in *.
  assert (Tb : traced VC (p_heap p, p_graph p) (p_heap p, g)).
  { eapply (traced_one VC (EV (p_tick p)) _ OResidual); simpl; auto. rewrite Cr. reflexivity. }
  pose proof Tb as Tb'. apply (traced_keeps VC Hok) in Tb'; auto. simpl in Tb'. destruct Tb' as (Fb & _ & Rb & _).
  assert (HFb : exists l2b, finalized_history VC l1 l2b h1 (p_heap p) g1 g).
  { destruct HF as (g0 & F1 & F2 & F3 & F4). destruct Tb as (lb & Lb1 & Lb2). exists (l2 ++ lb). exists g0. split; auto. split; auto.
    split; [apply Forall_app; auto|]. rewrite (run_app VC), F4. exact Lb2. }
  destruct HFb as (l2b & HFb).
  rewrite Hmax in L. cbn [opt_loop] in L.
  assert (Hpb : p_heap pb = p_heap p /\ p_graph pb = g /\ p_set pb = p_set p /\ pfin VC pb) by (unfold pfin; auto).
  destruct Hpb as (P1 & P2 & P3 & P4).
  unfold one_step in L. rewrite P3, Hm in L.
  destruct (gn_step VC SV EV pb) as [p3 o] eqn:Eg. 
  assert (Hx : o = Ok tt /\ p_heap p' = p_heap p3 /\ ~ failure (ss_status (p_cur p3))).
  { destruct o as [[]|e|u]; [|exfalso|discriminate].
    - split; auto. destruct (ss_status (p_cur p3)) eqn:Es3; cbn [opt_loop] in L;
      repeat match type of L with (if ?b then _ else _) = _ => destruct b end; inversion L; subst p2; subst p';
      (split; [unfold end_run; match goal with |- context [match ?s with _ => _ end] => destruct s end; reflexivity|]);
      try (intros [?|[?|?]]; discriminate);
      exfalso; apply Hst; unfold end_run; rewrite Es3; simpl; rewrite Es3; unfold failure; auto.
    - unfold m_fail, mupd in L. inversion L; subst p2. subst p'. unfold end_run in Hca. simpl in Hca. discriminate. }
  destruct Hx as (-> & Hh & Hnf).
  destruct (gn_step_inv pb p3 P4 Eg Hnf) as (r1 & g' & Mx & s2 & x & h2 & S1 & S2 & S3 & S4 & S5 & S6 & S7 & S8).
  rewrite P1, P2 in *. rewrite P3, Hrate in S6. unfold facs in S1. rewrite P2 in S1.
  assert (Hvb : get_all_variables g = vs) by (unfold vs, get_all_variables; rewrite Rb; auto).
  assert (Hfb : get_all_factors g = fs) by (unfold fs, get_all_factors; rewrite Rb; auto).
  rewrite Hfb in S1.
  destruct (sparse_eq_dense VC Hok l1 l2b h1 (p_heap p) g1 g (EV 0) jss HFb Hu (HE 0)) as (g'' & Mx' & g3 & Jd & Q1 & Q2 & Q3 & Q4);
    [rewrite Hvb, Hfb; auto|rewrite Hfb; auto|rewrite Hfb; auto|rewrite Hfb; auto|].
  rewrite S2 in Q1. injection Q1 as <- <-. rewrite Hvb, Hfb in Q4. set (J := sp_dense Mx) in *.
  destruct Q4 as (J1 & J2 & J3).
  assert (Rg' : g_reg g' = g_reg g).
  { assert (T : traced VC (p_heap p, g) (p_heap p, g')).
    { eapply (traced_one VC (EV 0) _ OSparse); simpl; auto. rewrite S2. reflexivity. }
    apply (traced_keeps VC Hok) in T; auto. apply T. }
  assert (Hvg : get_all_variables g' = vs) by (rewrite <- Hvb; unfold get_all_variables; rewrite Rg'; auto).
  destruct (X2 _ _ _ _ _ (X1 _ _ (gram_sym J)) S4) as (_ & X4). specialize (X4 S5). destruct X4 as (Y1 & Y2).
  set (dx := map (fun y : RN => nmul y 1%R) x) in *.
  assert (Hlx : length x = total_cols VC (p_heap p) vs) by (rewrite Y1; exact J2).
  assert (Hdx : length dx = num_values g').
  { unfold dx. rewrite map_length, Hlx. unfold num_values. rewrite (fin_lay _ _ _ S8). simpl. change (total_cols VC (p_heap p) vs = total_cols VC (p_heap p) (get_all_variables g')). rewrite Hvg. reflexivity. }
  assert (Hdn : forall j, nth j dx 0%R = nth j x 0%R).
  { intros j. unfold dx. transitivity (nth j (map (fun y : R => (y * 1)%R) x) (0 * 1)%R); [f_equal; lra|]. rewrite (map_nth (fun y : R => (y * 1)%R)). apply Rmult_1_r. }
  assert (Hsl : forall k v, k < length vs -> nth_error (p_heap p) (nth k vs O) = Some v -> vconst VC v = false ->
     length (slice (col_start VC (p_heap p) vs k) (vsize VC v) dx) = vsize VC v /\
     forall c, c < vsize VC v -> nth c (slice (col_start VC (p_heap p) vs k) (vsize VC v) dx) 0%R = nth (col_start VC (p_heap p) vs k + c) x 0%R).
  { intros k v Hk Hv C.
    assert (Hle : col_start VC (p_heap p) vs k + vsize VC v <= total_cols VC (p_heap p) vs).
    { apply (psum_le_total (map (width VC (p_heap p)) vs) k). rewrite nth_error_map, (nth_error_nth' vs O Hk). simpl. f_equal. unfold width. rewrite Hv, C. reflexivity. }
    unfold slice. split.
    - rewrite firstn_length, skipn_length. unfold dx. rewrite map_length. unfold car, RN in *. lia.
    - intros c Hc. rewrite <- Hdn. etransitivity; [apply nth_nth_error|]. rewrite nth_error_firstn_lt by lia. rewrite nth_error_skipn_plus. symmetry. apply nth_nth_error. }
  destruct (inc_loop_spec VC Hok false (p_heap p) (p_heap p) g' [] vs dx S8) as (h2' & I1 & I2); auto.
  { apply hpres_refl. }
  { intros k a v Hk Hv C. simpl. assert (Hkl : k < length vs) by (apply nth_error_Some; congruence).
    assert (Ea : nth k vs O = a) by (apply nth_error_nth; auto). destruct (Hsl k v Hkl) as (Z1 & _); [rewrite Ea; auto|auto|].
    destruct (Hadd a v (nth_error_In _ _ Hk) Hv C) as (_ & Ad). destruct (Ad _ Z1) as (v' & Ev & _). eauto. }
  rewrite Hvg in S6. rewrite S6 in I1. injection I1 as <-. simpl in I2. destruct I2 as (U1 & U2 & U3).
  assert (NDv : NoDup vs) by (rewrite <- Hvg; eapply vars_nodup; exact S8).
  assert (Hre : reassigned VC (p_heap p) h2 vs).
  { split; auto. intros a v Hv. destruct (vconst VC v) eqn:C.
    - exists v. split; [apply U3; auto|]. split; auto. split; auto. split; auto. split; auto. discriminate.
    - destruct (in_dec Nat.eq_dec a vs) as [Hin|Hni].
      + apply In_nth_error in Hin. destruct Hin as (k & Hk). destruct (U2 k a v Hk Hv C) as (v' & V1 & V2). exists v'. split; auto.
        destruct (ok_inc VC Hok _ _ _ V1) as (O1 & O2 & O3). split; auto. split; auto. split; auto; [congruence|]. split.
        * intros [?|Hn]; [discriminate|]. exfalso. apply Hn. eapply nth_error_In; eauto.
        * intros _ _. assert (Hkl : k < length vs) by (apply nth_error_Some; intros X; pose proof (eq_trans (eq_sym Hk) X); discriminate).
          assert (Ea : nth k vs O = a) by (apply nth_error_nth; auto). destruct (Hsl k v Hkl) as (Z1 & _); [rewrite Ea; auto|auto|].
          destruct (Hadd a v (nth_error_In _ _ Hk) Hv C) as (_ & Ad). destruct (Ad _ Z1) as (v2 & Ev & Ew & _).
          rewrite V1 in Ev. injection Ev as <-. exact Ew.
      + exists v. split; [apply U3; auto|]. split; auto. split; auto. split; auto. split; auto. intros _ Hi; contradiction. }
  assert (Hd2 : forall j, j < total_cols VC (p_heap p) vs -> nth j (diffs VC (p_heap p) h2 vs) 0%R = nth j x 0%R).
  { intros j Hj. destruct (psum_cover _ _ Hj) as (k & d & Hk & Hd). rewrite nth_error_map in Hk. destruct (nth_error vs k) as [a|] eqn:Ea; [|discriminate].
    simpl in Hk. injection Hk as <-. change (psum (map (width VC (p_heap p)) vs) k) with (col_start VC (p_heap p) vs k) in Hd.
    unfold width in Hd. destruct (nth_error (p_heap p) a) as [v|] eqn:Ev; [|lia]. destruct (vconst VC v) eqn:C; [lia|].
    assert (Hkl : k < length vs) by (apply nth_error_Some; congruence). assert (En : nth k vs O = a) by (apply nth_error_nth; auto).
    destruct (Hsl k v Hkl) as (Z1 & Z2); [rewrite En; auto|auto|]. destruct (U2 k a v Ea Ev C) as (v' & V1 & V2).
    destruct (Hadd a v (nth_error_In _ _ Ea) Ev C) as (_ & Ad). destruct (Ad _ Z1) as (v2 & E2 & Ew & Ec). rewrite V1 in E2. injection E2 as <-.
    set (c := j - col_start VC (p_heap p) vs k). replace j with (col_start VC (p_heap p) vs k + c) by (unfold c; lia).
    assert (Hc : c < vsize VC v) by (unfold c; lia).
    rewrite (diffs_nth VC (p_heap p) h2 vs k a v v' c) by auto. rewrite Ec by auto. rewrite Z2 by auto. unfold car, RN in *. lra. }
  rewrite Hh, S7 in *. split; auto.
  intros h' r' Hr' Hs'.
  assert (HA : Forall2 (fun f js => blocks_ok VC (p_heap p) (f_rsize f) (f_vars f) js /\ affine_at VC (p_heap p) vs f js) fs jss).
  { clear -Hjac Haff. induction Hjac; inversion Haff; subst; constructor; auto. split; auto. apply H. }
  assert (Asm : assembled VC (p_heap p) vs fs jss J) by (split; auto).
  destruct (row_affine VC (p_heap p) h2 vs fs jss J r1 r NDv Hwf Asm HA Hre S1 Dr1) as (R1 & R2 & R3).
  destruct (row_affine VC (p_heap p) h' vs fs jss J r1 r' NDv Hwf Asm HA Hr' S1 Hs') as (_ & T2 & T3).
  set (m := total_rows fs) in *. set (n := total_cols VC (p_heap p) vs) in *.
  assert (N1 : sqnorm r = rsum m (fun i => (nth i r1 0 + rsum n (fun j => mat_at J i j * nth j x 0)) * (nth i r1 0 + rsum n (fun j => mat_at J i j * nth j x 0)))%R).
  { etransitivity; [apply sqnorm_rsum|]. etransitivity; [exact (f_equal (fun k => rsum k _) R2)|]. apply rsum_ext. intros i Hi.
    assert (Z : nth i r 0%R = (nth i r1 0 + rsum n (fun j => mat_at J i j * nth j x 0))%R).
    { etransitivity; [exact (R3 i Hi)|]. f_equal. apply rsum_ext. intros j Hj. f_equal. apply Hd2. exact Hj. }
    exact (f_equal2 Rmult Z Z). }
  assert (N2 : sqnorm r' = rsum m (fun i => (nth i r1 0 + rsum n (fun j => mat_at J i j * nth j (diffs VC (p_heap p) h' vs) 0)) * (nth i r1 0 + rsum n (fun j => mat_at J i j * nth j (diffs VC (p_heap p) h' vs) 0)))%R).
  { etransitivity; [apply sqnorm_rsum|]. etransitivity; [exact (f_equal (fun k => rsum k _) T2)|]. apply rsum_ext. intros i Hi.
    exact (f_equal2 Rmult (T3 i Hi) (T3 i Hi)). }
  rewrite N1, N2.
  apply (normal_eq_optimal m n (mat_at J) (fun i => nth i r1 0%R) (fun j => nth j x 0%R) (fun j => nth j (diffs VC (p_heap p) h' vs) 0%R)).
  intros j Hj. change (mrows (jtj J)) with (mcols J) in Y2. rewrite J2 in Y2. fold n in Y2. specialize (Y2 j Hj).
  change (mcols (jtj J)) with (mcols J) in Y2. rewrite J2 in Y2. fold n in Y2. rewrite vsum_seq in Y2.
  transitivity (rsum n (fun k => mat_at (jtj J) j k * nth k x 0)%R).
  { apply rsum_ext. intros k Hk. rewrite jtj_at, J1. fold m. reflexivity. }
  etransitivity; [etransitivity; [|exact Y2]|].
  - apply rsum_ext. intros k Hk. exact (f_equal (fun z : R => (mat_at (jtj J) j k * nth k x z)%R) (eq_sym lit_zero)).
  - unfold mvmul. rewrite map_map. change (mrows (mtrans J)) with (mcols J). change (mcols (mtrans J)) with (mrows J). rewrite J1, J2. fold m n.
    etransitivity; [exact (f_equal (fun z : R => nth j (map _ (seq 0 n)) z) lit_zero)|]. etransitivity; [apply nth_nth_error|].
    rewrite nth_error_map, nth_error_seq, (proj2 (Nat.ltb_lt _ _) Hj). cbn [option_map Nat.add].
    rewrite vsum_seq. etransitivity; [exact (f_equal2 Rmult eq_refl (lit_int (-1)))|].
    rewrite (rsum_ext m _ (fun i => mat_at J i j * nth i r1 0)%R); [lra|].
    intros i Hi. exact (f_equal (fun z : R => (mat_at J i j * nth i r1 z)%R) lit_zero).
Qed.
End Step.
