(** Graph functions on twin states. *)
From Coq Require Import List Arith ZArith Bool Lia.
From Verif Require Import Base Sparse Graph Optimizer ListLemmas SpecTwin.
Import ListNotations.

Section TwinGraph.
Context {N : num} {V : Type} (VC : vclass N V) (RV : addr -> V -> V -> Prop) (XR : addr -> list N -> list N -> Prop).
Hypothesis T : twinned VC RV XR.
Notation factor := (factor (N:=N) (V:=V)).
Notation graph := (graph (N:=N) (V:=V)).
Notation env := (env (N:=N) (V:=V)).
Notation heaps := (heaps RV).
Notation reads_alike := (reads_alike (N:=N) RV).
Notation placements := (placements (N:=N) RV).
Notation graphs := (graphs (N:=N) RV).
Notation same_env := (same_env (N:=N) RV).

Lemma alike_refl {A} (x : outcome A) : alike eq x x.
Proof. destruct x; reflexivity. Qed.
Lemma alike_eq {A} (x y : outcome A) : alike eq x y -> x = y.
Proof. destruct x, y; cbn; intros H; try contradiction; congruence. Qed.
Lemma alike_bind {A B} (P : A -> A -> Prop) (Q : B -> B -> Prop) x y f g :
  alike P x y -> (forall a b, P a b -> alike Q (f a) (g b)) -> alike Q (obind x f) (obind y g).
Proof. destruct x, y; cbn; intros H K; try contradiction; auto. Qed.
Lemma hget_pair h h' a : heaps h h' -> alike (RV a) (hget h a) (hget h' a).
Proof. intros H. specialize (H a). unfold hget. destruct (nth_error h a), (nth_error h' a); cbn; auto; contradiction. Qed.
Lemma lupd_pair h h' a v v' : heaps h h' -> RV a v v' -> heaps (lupd a v h) (lupd a v' h').
Proof.
  intros H Hv b. pose proof (H b) as Hb. destruct (Nat.eq_dec a b) as [<-|Nab].
  - destruct (nth_error h a) eqn:E; destruct (nth_error h' a) eqn:E'; try contradiction.
    + rewrite !lupd_nth_same by (apply nth_error_Some; congruence). exact Hv.
    + assert (X : forall (k : @heap V) w, nth_error k a = None -> nth_error (lupd a w k) a = None).
      { intros k w Hk. apply nth_error_None. rewrite lupd_length. apply nth_error_None. exact Hk. }
      rewrite (X _ _ E), (X _ _ E'). exact I.
  - rewrite !lupd_nth_other by auto. exact Hb.
Qed.
Lemma hupd_pair h h' a (f f' : V -> outcome V) : heaps h h' -> (forall v v', RV a v v' -> alike (RV a) (f v) (f' v')) ->
  heaps (fst (hupd h a f)) (fst (hupd h' a f')) /\ snd (hupd h a f) = snd (hupd h' a f').
Proof.
  intros H K. pose proof (hget_pair h h' a H) as G. unfold hupd. destruct (hget h a) as [v|e|u], (hget h' a) as [v'|e'|u']; cbn in G; try contradiction; subst; auto.
  specialize (K v v' G). destruct (f v), (f' v'); cbn in K; try contradiction; subst; cbn; auto. split; auto. apply lupd_pair; auto.
Qed.

Lemma Forall2_length {A B} (P : A -> B -> Prop) l l' : Forall2 P l l' -> length l = length l'.
Proof. induction 1; cbn; congruence. Qed.
(** ** Association lists *)
Lemma lookup_pair {K A} (eqb : K -> K -> bool) (P : A -> A -> Prop) k (m m' : list (K * A)) :
  Forall2 (fun x x' => fst x = fst x' /\ P (snd x) (snd x')) m m' ->
  match alookup eqb k m, alookup eqb k m' with Some a, Some a' => P a a' | None, None => True | _, _ => False end.
Proof.
  induction 1 as [|[k1 a] [k1' a'] m m' (E & Q) _ IH]; cbn in *; [exact I|]. subst k1'. destruct (eqb k k1); auto.
Qed.
Lemma aset_pair {K A} (eqb : K -> K -> bool) (P : A -> A -> Prop) k a a' (m m' : list (K * A)) :
  Forall2 (fun x x' => fst x = fst x' /\ P (snd x) (snd x')) m m' -> P a a' ->
  Forall2 (fun x x' => fst x = fst x' /\ P (snd x) (snd x')) (aset eqb k a m) (aset eqb k a' m').
Proof.
  intros H Ha. unfold aset. apply Forall2_app; [|repeat constructor; auto].
  induction H as [|x x' m m' (E & Q) _ IH]; cbn; [constructor|]. rewrite <- E. destruct (eqb k (fst x)); cbn; auto.
Qed.
Definition fpair (x x' : fplacement (N:=N) (V:=V)) : Prop :=
  fp_rindex x = fp_rindex x' /\ fp_rdim x = fp_rdim x' /\ fp_cols x = fp_cols x' /\ fp_dims x = fp_dims x' /\
  match fp_factor x, fp_factor x' with Some f, Some f' => reads_alike f f' | None, None => True | _, _ => False end.
Lemma placement_iff l l' : Forall2 placements l l' <-> Forall2 (fun x x' => fst x = fst x' /\ fpair (snd x) (snd x')) l l'.
Proof. split; intros H; induction H as [|x x' m m' Q _ IH]; constructor; auto. Qed.

(** ** Adding *)
Ltac gsplit H := destruct H as (Gvm & Gvs & Gfm & Gfs & Gfi & Gvp & Gfp & Gnr & Gnv & Gdc & Gsc).
Lemma graphs_empty : graphs (empty_graph (N:=N) (V:=V)) empty_graph.
Proof. repeat split; constructor. Qed.
Lemma add_variable_pair h h' g g' q : heaps h h' -> graphs g g' ->
  graphs (fst (add_variable VC h g q)) (fst (add_variable VC h' g' q)) /\ snd (add_variable VC h g q) = snd (add_variable VC h' g' q).
Proof.
  intros H G. unfold add_variable. destruct q as [a|]; [|auto]. pose proof (hget_pair h h' a H) as Ha.
  destruct (hget h a) as [v|e|u], (hget h' a) as [v'|e'|u']; cbn in Ha; try contradiction; subst; auto.
  destruct (tw_same _ _ _ T a v v' Ha) as (Ei & _). rewrite <- Ei. gsplit G. rewrite <- Gvm.
  destruct (alookup Z.eqb (vid VC v) (rg_vmap (g_reg g))); cbn; [repeat split; auto|].
  split; [|reflexivity]. repeat split; cbn; auto; congruence.
Qed.
Lemma add_factor_pair g g' q q' : graphs g g' -> match q, q' with Some f, Some f' => reads_alike f f' | None, None => True | _, _ => False end ->
  graphs (fst (add_factor g q)) (fst (add_factor g' q')) /\ snd (add_factor g q) = snd (add_factor g' q').
Proof.
  intros G Q. unfold add_factor. destruct q as [f|], q' as [f'|]; try contradiction; [|auto]. pose proof Q as (Ei & _). rewrite <- Ei.
  gsplit G. pose proof (lookup_pair Z.eqb _ (f_id f) _ _ Gfm) as L.
  destruct (alookup Z.eqb (f_id f) (rg_fmap (g_reg g))), (alookup Z.eqb (f_id f) (rg_fmap (g_reg g'))); try contradiction; cbn; [repeat split; auto|].
  split; [|reflexivity]. repeat split; cbn; auto.
  - apply aset_pair; auto.
  - apply Forall2_app; auto.
Qed.

(** ** Values *)
Lemma placement_same g g' i : graphs g g' -> variable_placement g i = variable_placement g' i.
Proof. intros G. gsplit G. unfold variable_placement. congruence. Qed.
Definition both_set (x x' : list (option N)) : Prop := Forall2 (fun o o' => o = None <-> o' = None) x x'.
Lemma both_length x x' : both_set x x' -> length x = length x'.
Proof. apply Forall2_length. Qed.
Lemma both_firstn n x x' : both_set x x' -> both_set (firstn n x) (firstn n x').
Proof. intros H. revert n. induction H; intros [|n]; cbn; constructor; auto. apply IHForall2. Qed.
Lemma both_skipn n x x' : both_set x x' -> both_set (skipn n x) (skipn n x').
Proof. intros H. revert n. induction H; intros [|n]; cbn; try constructor; auto. Qed.
Lemma both_some (x x' : list N) : length x = length x' -> both_set (map Some x) (map Some x').
Proof. revert x'. induction x; intros [|y x'] E; try discriminate; constructor; [split; discriminate|]. apply IHx. cbn in E. lia. Qed.
Lemma get_vector_pair h h' g g' vs : heaps h h' -> graphs g g' -> forall off x x', both_set x x' ->
  alike both_set (get_vector_loop VC h g vs off x) (get_vector_loop VC h' g' vs off x').
Proof.
  intros H G. induction vs as [|a vs IH]; intros off x x' B; cbn; [exact B|].
  eapply alike_bind; [apply hget_pair; exact H|]. intros v v' Hv. destruct (tw_same _ _ _ T a v v' Hv) as (E1 & E2 & E3).
  rewrite <- E1, <- E2, <- E3, <- (placement_same g g' _ G). destruct (vconst VC v); [apply IH; auto|].
  destruct (variable_placement g (vid VC v)) as [pl|]; [|reflexivity]. destruct (negb (vp_dim pl =? vsize VC v)); [reflexivity|].
  rewrite <- (both_length _ _ B). destruct (negb (off + vsize VC v <=? length x)); [reflexivity|].
  pose proof (tw_length _ _ _ T a _ _ (tw_value _ _ _ T a v v' Hv)) as El. rewrite <- El. destruct (negb (length (vval VC v) =? vsize VC v)); [reflexivity|].
  apply IH. apply Forall2_app; [apply both_firstn; exact B|]. apply Forall2_app; [apply both_some; exact El|apply both_skipn; exact B].
Qed.
Lemma get_variable_vector_pair h h' g g' : heaps h h' -> graphs g g' ->
  alike (fun y y' => length y = length y') (get_variable_vector VC h g) (get_variable_vector VC h' g').
Proof.
  intros H G. unfold get_variable_vector. assert (Ev : get_all_variables g' = get_all_variables g) by (gsplit G; symmetry; exact Gvs).
  assert (En : num_values g' = num_values g) by (gsplit G; symmetry; exact Gnv). rewrite Ev, En.
  eapply alike_bind; [apply get_vector_pair; auto|].
  - clear. induction (num_values g) as [|n IH]; cbn; [constructor|constructor; [tauto|exact IH]].
  - intros x x' B. induction B as [|o o' x x' Q _ IH]; cbn; [reflexivity|].
    destruct o, o'; cbn; [|exfalso; assert (X : Some c = None) by (apply Q; reflexivity); discriminate
      |exfalso; assert (X : Some c = None) by (apply Q; reflexivity); discriminate|reflexivity].
    eapply alike_bind; [exact IH|]. intros y y' E. cbn. congruence.
Qed.
Lemma inc_loop_pair ck g g' vs d : graphs g g' -> forall h h', heaps h h' ->
  heaps (fst (inc_loop VC ck h g vs d)) (fst (inc_loop VC ck h' g' vs d)) /\ snd (inc_loop VC ck h g vs d) = snd (inc_loop VC ck h' g' vs d).
Proof.
  intros G. induction vs as [|a vs IH]; intros h h' H; cbn; [auto|]. pose proof (hget_pair h h' a H) as Ha.
  destruct (hget h a) as [v|e|u], (hget h' a) as [v'|e'|u']; cbn in Ha; try contradiction; subst; auto.
  destruct (tw_same _ _ _ T a v v' Ha) as (E1 & E2 & E3). rewrite <- E1, <- E3, <- (placement_same g g' _ G).
  destruct (vconst VC v); [apply IH; auto|]. destruct (variable_placement g (vid VC v)) as [pl|]; [|apply IH; auto].
  destruct (ck && negb (vp_index pl + vp_dim pl <=? length d)); [auto|]. destruct (segment (vp_index pl) (vp_dim pl) d) as [s|e|u]; auto.
  destruct (hupd_pair h h' a (fun v => vinc VC v s) (fun v => vinc VC v s) H) as (A & B); [intros w w' Hw; apply (tw_inc _ _ _ T); exact Hw|].
  destruct (hupd h a (fun v0 => vinc VC v0 s)) as [h1 [[]|e|u]], (hupd h' a (fun v0 => vinc VC v0 s)) as [h1' [[]|e'|u']]; cbn in A, B; try discriminate; auto.
Qed.
Lemma apply_increment_pair h h' g g' d : heaps h h' -> graphs g g' ->
  heaps (fst (apply_increment VC h g d)) (fst (apply_increment VC h' g' d)) /\ snd (apply_increment VC h g d) = snd (apply_increment VC h' g' d).
Proof.
  intros H G. unfold apply_increment. assert (Ev : get_all_variables g' = get_all_variables g) by (gsplit G; symmetry; exact Gvs).
  assert (En : num_values g' = num_values g) by (gsplit G; symmetry; exact Gnv). assert (Ef : ly_final (g_lay g') = ly_final (g_lay g)) by (gsplit G; congruence).
  rewrite Ev, En, Ef. destruct (negb (ly_final (g_lay g))); [auto|]. destruct (negb (length d =? num_values g)); [auto|]. apply inc_loop_pair; auto.
Qed.

(** ** Residuals and Jacobians *)
Lemma residual_loop_pair h h' : heaps h h' -> forall l l', Forall2 placements l l' -> forall buf, residual_loop h l buf = residual_loop h' l' buf.
Proof.
  intros H l l' F. induction F as [|[k x] [k' x'] l l' (E1 & E2 & E3 & E4 & E5 & E6) _ IH]; intros buf; cbn; [reflexivity|]. cbn in *.
  destruct (fp_factor x) as [f|], (fp_factor x') as [f'|]; try contradiction; [|reflexivity].
  destruct E6 as (_ & _ & _ & R). destruct (R h h' H) as (_ & R2 & _). rewrite <- R2, <- E2, <- E3.
  destruct (f_res_ref f h); auto. destruct (write_segment _ _ _ _); auto.
Qed.
Lemma residual_into_pair E E' h h' g g' buf : same_env E E' -> heaps h h' -> graphs g g' -> compute_residual_into E h g buf = compute_residual_into E' h' g' buf.
Proof.
  intros (He & Hj) H G. gsplit G. unfold compute_residual_into. rewrite <- Gfi, <- Gnr, <- Hj. destruct (negb (ly_final (g_lay g))); [reflexivity|].
  apply residual_loop_pair; auto.
Qed.
Lemma with_dc_pair g g' d : graphs g g' -> graphs (with_dc g d) (with_dc g' d).
Proof. intros G. gsplit G. repeat split; auto. Qed.
Lemma with_sc_pair g g' d : graphs g g' -> graphs (with_sc g d) (with_sc g' d).
Proof. intros G. gsplit G. repeat split; auto. Qed.
Lemma residual_pair E E' h h' g g' : same_env E E' -> heaps h h' -> graphs g g' ->
  graphs (fst (compute_residual E h g)) (fst (compute_residual E' h' g')) /\ snd (compute_residual E h g) = snd (compute_residual E' h' g').
Proof.
  intros He H G. unfold compute_residual. pose proof G as G0. gsplit G0. rewrite <- Gfi, <- Gdc, <- Gnr. destruct (negb (ly_final (g_lay g))); [auto|].
  rewrite <- (residual_into_pair E E' h h' g g' _ He H G).
  destruct (compute_residual_into E h g _) as [buf [[]|e|u]]; cbn; split; auto; apply with_dc_pair; exact G.
Qed.
Lemma dense_vars_pair h h' g g' row rdim : heaps h h' -> graphs g g' -> forall vars js J, dense_vars_loop VC h g row rdim vars js J = dense_vars_loop VC h' g' row rdim vars js J.
Proof.
  intros H G. induction vars as [|[a|] vars IH]; intros js J; cbn; [reflexivity| |destruct js; reflexivity]. destruct js as [|Ji js]; [reflexivity|].
  pose proof (hget_pair h h' a H) as Ha. destruct (hget h a) as [v|e|u], (hget h' a) as [v'|e'|u']; cbn in Ha; try contradiction; subst; auto.
  destruct (tw_same _ _ _ T a v v' Ha) as (E1 & E2 & E3). rewrite <- E1, <- E3, <- (placement_same g g' _ G).
  destruct (mat_is_empty Ji); [destruct (vconst VC v); auto|]. destruct (variable_placement g (vid VC v)) as [pl|]; [|apply IH].
  repeat match goal with |- (if ?b then _ else _) = _ => destruct b end; auto.
Qed.
Lemma dense_loop_pair h h' g g' : heaps h h' -> graphs g g' -> forall l l', Forall2 placements l l' -> forall J, dense_loop VC h g l J = dense_loop VC h' g' l' J.
Proof.
  intros H G l l' F. induction F as [|[k x] [k' x'] l l' (E1 & E2 & E3 & E4 & E5 & E6) _ IH]; intros J; cbn; [reflexivity|]. cbn in *.
  destruct (fp_factor x) as [f|], (fp_factor x') as [f'|]; try contradiction; [|reflexivity].
  destruct E6 as (_ & Ev & _ & R). destruct (R h h' H) as (_ & _ & R3). rewrite <- R3, <- E2, <- E3, <- Ev.
  destruct (f_jac f h []) as [js [[]|e|u]]; auto. rewrite <- (dense_vars_pair h h' g g' _ _ H G). destruct (dense_vars_loop VC h g _ _ _ js J) as [J' [[]|e|u]]; auto.
Qed.
Lemma dense_pair E E' h h' g g' : same_env E E' -> heaps h h' -> graphs g g' ->
  graphs (fst (compute_dense VC E h g)) (fst (compute_dense VC E' h' g')) /\ snd (compute_dense VC E h g) = snd (compute_dense VC E' h' g').
Proof.
  intros (He & Hj) H G. unfold compute_dense. pose proof G as G0. gsplit G0. rewrite <- Gfi, <- Gdc, <- Gnr, <- Gnv. destruct (negb (ly_final (g_lay g))); [auto|].
  rewrite <- (dense_loop_pair h h' g g' H G _ _ (He _ _ Gfp)).
  destruct (dense_loop VC h g _ _) as [J [[]|e|u]]; cbn; split; auto; apply with_dc_pair; exact G.
Qed.
Lemma both_pair E E' h h' g g' : same_env E E' -> heaps h h' -> graphs g g' ->
  graphs (fst (compute_both VC E h g)) (fst (compute_both VC E' h' g')) /\ snd (compute_both VC E h g) = snd (compute_both VC E' h' g').
Proof.
  intros He H G. unfold compute_both. pose proof G as G0. gsplit G0. rewrite <- Gfi. destruct (negb (ly_final (g_lay g))); [auto|].
  destruct (dense_pair E E' h h' g g' He H G) as (A & B). destruct (compute_dense VC E h g) as [g1 [J|e|u]], (compute_dense VC E' h' g') as [g1' [J'|e'|u']]; cbn in A, B; try discriminate;
    cbn; [|split; auto; congruence..].
  destruct (residual_pair E E' h h' g1 g1' He H A) as (A2 & B2). destruct (compute_residual E h g1) as [g2 [J2|e|u]], (compute_residual E' h' g1') as [g2' [J2'|e'|u']]; cbn in A2, B2;
    try discriminate; cbn; split; auto; congruence.
Qed.

(** ** finalize_structure *)
Lemma place_vars_pair h h' : heaps h h' -> forall vs col m, place_vars VC h vs col m = place_vars VC h' vs col m.
Proof.
  intros H. induction vs as [|a vs IH]; intros col m; cbn; [reflexivity|]. pose proof (hget_pair h h' a H) as Ha.
  destruct (hget h a) as [v|e|u], (hget h' a) as [v'|e'|u']; cbn in Ha; try contradiction; subst; auto. cbn.
  destruct (tw_same _ _ _ T a v v' Ha) as (E1 & E2 & E3). rewrite <- E1, <- E2, <- E3. apply IH.
Qed.
Lemma factor_cols_pair h h' vp : heaps h h' -> forall vars, factor_cols VC h vp vars = factor_cols VC h' vp vars.
Proof.
  intros H. induction vars as [|[a|] vars IH]; cbn; [reflexivity| |reflexivity]. pose proof (hget_pair h h' a H) as Ha.
  destruct (hget h a) as [v|e|u], (hget h' a) as [v'|e'|u']; cbn in Ha; try contradiction; subst; auto. cbn.
  destruct (tw_same _ _ _ T a v v' Ha) as (E1 & E2 & E3). rewrite <- E1, <- E3, <- IH. reflexivity.
Qed.
Lemma place_factors_pair h h' vp : heaps h h' -> forall fs fs', Forall2 reads_alike fs fs' -> forall i row m m', Forall2 placements m m' ->
  Forall2 placements (fst (place_factors VC h vp fs i row m)) (fst (place_factors VC h' vp fs' i row m')) /\
  snd (place_factors VC h vp fs i row m) = snd (place_factors VC h' vp fs' i row m').
Proof.
  intros H fs fs' F. induction F as [|f f' fs fs' R _ IH]; intros i row m m' M; cbn; [auto|]. destruct R as (R1 & R2 & R3 & R4).
  rewrite <- R2, <- (factor_cols_pair h h' vp H), <- R3. destruct (factor_cols VC h vp (f_vars f)) as [[cols dims]|e|u]; auto.
  apply IH. apply placement_iff. apply aset_pair; [apply placement_iff; exact M|]. repeat split; auto. cbn. apply R4; auto. apply R4; auto. apply R4; auto.
Qed.
Lemma count_vars_pair h h' vp rdim : heaps h h' -> forall vars cnt, count_vars VC h vp rdim vars cnt = count_vars VC h' vp rdim vars cnt.
Proof.
  intros H. induction vars as [|[a|] vars IH]; intros cnt; cbn; [reflexivity| |reflexivity]. pose proof (hget_pair h h' a H) as Ha.
  destruct (hget h a) as [v|e|u], (hget h' a) as [v'|e'|u']; cbn in Ha; try contradiction; subst; auto. cbn.
  destruct (tw_same _ _ _ T a v v' Ha) as (E1 & E2 & E3). rewrite <- E1, <- E3. destruct (vconst VC v); [apply IH|].
  destruct (alookup Z.eqb (vid VC v) vp) as [pl|]; [|apply IH]. destruct (bump _ _ _ _); cbn; auto.
Qed.
Lemma fplace_pair l l' i : Forall2 placements l l' ->
  match alookup Nat.eqb i l, alookup Nat.eqb i l' with Some x, Some x' => fpair x x' | None, None => True | _, _ => False end.
Proof. intros F. apply placement_iff in F. apply (lookup_pair Nat.eqb fpair i). exact F. Qed.
Lemma count_factors_pair h h' vp l l' : heaps h h' -> Forall2 placements l l' -> forall n i cnt, count_factors VC h vp l n i cnt = count_factors VC h' vp l' n i cnt.
Proof.
  intros H F. induction n as [|n IH]; intros i cnt; cbn; [reflexivity|]. pose proof (fplace_pair l l' i F) as L.
  destruct (alookup Nat.eqb i l) as [x|], (alookup Nat.eqb i l') as [x'|]; try contradiction; [|reflexivity].
  destruct L as (L1 & L2 & L3 & L4 & L5). destruct (fp_factor x) as [f|], (fp_factor x') as [f'|]; try contradiction; [|reflexivity].
  destruct L5 as (_ & Lv & _). rewrite <- Lv, <- L2, <- (count_vars_pair h h' vp _ H). destruct (count_vars VC h vp _ _ _); cbn; auto.
Qed.
Lemma fill_factors_pair l l' : Forall2 placements l l' -> forall n i rows cur, fill_factors l n i rows cur = fill_factors l' n i rows cur.
Proof.
  intros F. induction n as [|n IH]; intros i rows cur; cbn; [reflexivity|]. pose proof (fplace_pair l l' i F) as L.
  destruct (alookup Nat.eqb i l) as [x|], (alookup Nat.eqb i l') as [x'|]; try contradiction; [|apply IH].
  destruct L as (L1 & L2 & L3 & L4 & L5). unfold placement_cells. rewrite <- L1, <- L2, <- L3, <- L4. destruct (fill_rows _ _ _); cbn; auto.
Qed.
Lemma finalize_pair h h' g g' : heaps h h' -> graphs g g' ->
  graphs (fst (finalize_structure VC h g)) (fst (finalize_structure VC h' g')) /\ snd (finalize_structure VC h g) = snd (finalize_structure VC h' g').
Proof.
  intros H G. unfold finalize_structure. pose proof G as G0. gsplit G0. rewrite <- Gvs, <- (place_vars_pair h h' H).
  destruct (place_vars VC h (rg_vars (g_reg g)) 0 []) as [[vp nc]|e|u]; [|auto..].
  destruct (place_factors_pair h h' vp H _ _ Gfs 0 0 [] [] (Forall2_nil _)) as (A & B).
  destruct (place_factors VC h vp (rg_factors (g_reg g)) 0 0 []) as [fps o], (place_factors VC h' vp (rg_factors (g_reg g')) 0 0 []) as [fps' o']. cbn in A, B. subst o'.
  assert (WL : forall b b' nr nc' , b = b' -> graphs (with_lay g (Layout b vp fps nr nc')) (with_lay g' (Layout b' vp fps' nr nc'))) by (intros; repeat split; auto).
  rewrite <- Gnr, <- Gnv. destruct o as [nrow|e|u]; [|cbn; auto..].
  destruct (nrow <? nc); [cbn; auto|]. rewrite <- (Forall2_length _ _ _ Gfs), <- (count_factors_pair h h' vp fps fps' H A).
  destruct (count_factors VC h vp fps _ 0 _) as [cnt|e|u]; cbn; [|auto..]. rewrite <- (fill_factors_pair fps fps' A).
  destruct (fill_factors fps _ 0 _ _) as [rc|e|u]; cbn; [|auto..]. split; [|reflexivity]. repeat split; cbn; auto. rewrite Gsc. reflexivity.
Qed.

(** ** compute_sparse_jacobian_matrix *)
Lemma sparse_vars_pair h h' g g' : heaps h h' -> graphs g g' -> forall vars js data cur, sparse_vars_loop VC h g vars js data cur = sparse_vars_loop VC h' g' vars js data cur.
Proof.
  intros H G. induction vars as [|[a|] vars IH]; intros js data cur; cbn; [reflexivity| |destruct js; reflexivity]. destruct js as [|Ji js]; [reflexivity|].
  pose proof (hget_pair h h' a H) as Ha. destruct (hget h a) as [v|e|u], (hget h' a) as [v'|e'|u']; cbn in Ha; try contradiction; subst; auto.
  destruct (tw_same _ _ _ T a v v' Ha) as (E1 & E2 & E3). rewrite <- E1, <- (placement_same g g' _ G).
  destruct (variable_placement g (vid VC v)) as [pl|]; [|apply IH]. destruct (fill_data _ _ _) as [[data' cur'] [[]|e|u]]; auto.
Qed.
Lemma sparse_factors_pair h h' g g' : heaps h h' -> graphs g g' -> forall n i comps data cur,
  sparse_factors_loop VC h g n i comps data cur = sparse_factors_loop VC h' g' n i comps data cur.
Proof.
  intros H G. pose proof G as G0. gsplit G0. induction n as [|n IH]; intros i comps data cur; cbn; [reflexivity|]. pose proof (fplace_pair _ _ i Gfp) as L.
  destruct (alookup Nat.eqb i (ly_fplace (g_lay g))) as [x|], (alookup Nat.eqb i (ly_fplace (g_lay g'))) as [x'|]; try contradiction; [|reflexivity].
  destruct (nth_error comps i) as [buf|]; [|reflexivity]. destruct L as (L1 & L2 & L3 & L4 & L5).
  destruct (fp_factor x) as [f|], (fp_factor x') as [f'|]; try contradiction; [|reflexivity].
  destruct L5 as (_ & Lv & _ & R). destruct (R h h' H) as (_ & _ & R3). rewrite <- R3, <- Lv. destruct (f_jac f h buf) as [js [[]|e|u]]; auto.
  rewrite <- (sparse_vars_pair h h' g g' H G). destruct (sparse_vars_loop VC h g _ js data cur) as [[data' cur'] [[]|e|u]]; auto.
Qed.
Lemma sparse_pair h h' g g' : heaps h h' -> graphs g g' ->
  graphs (fst (compute_sparse VC h g)) (fst (compute_sparse VC h' g')) /\ snd (compute_sparse VC h g) = snd (compute_sparse VC h' g').
Proof.
  intros H G. unfold compute_sparse. pose proof G as G0. gsplit G0. rewrite <- Gfi, <- Gsc, <- Gnv, <- (Forall2_length _ _ _ Gfs).
  destruct (negb (ly_final (g_lay g))); [auto|]. destruct (negb (sc_init (g_sc g))); [auto|]. rewrite <- (sparse_factors_pair h h' g g' H G).
  destruct (sparse_factors_loop VC h g _ 0 _ _ _) as [[comps data] [[]|e|u]]; cbn; [|split; auto; apply with_sc_pair; exact G..].
  destruct (sc_valid (g_sc g)).
  - destruct (copy_sparse _ _ _ _) as [m [[]|e|u]]; cbn; split; auto; apply with_sc_pair; exact G.
  - destruct (populate _ _ _ _ _) as [m|e|u]; cbn; split; auto; apply with_sc_pair; exact G.
Qed.

(** ** One call *)
Lemma new_pair h h' v v' : heaps h h' -> RV (length h) v v' -> heaps (h ++ [v]) (h' ++ [v']).
Proof.
  intros H Hv. assert (L : length h = length h').
  { destruct (Nat.lt_trichotomy (length h) (length h')) as [X|[X|X]]; auto; exfalso.
    - specialize (H (length h)). rewrite (proj2 (nth_error_None h _) (le_n _)) in H. destruct (nth_error h' (length h)) eqn:E; [exact H|]. apply nth_error_None in E. lia.
    - specialize (H (length h')). rewrite (proj2 (nth_error_None h' _) (le_n _)) in H. destruct (nth_error h (length h')) eqn:E; [exact H|]. apply nth_error_None in E. lia. }
  intros a. destruct (Nat.lt_trichotomy a (length h)) as [X|[X|X]].
  - rewrite !nth_error_app1 by lia. apply H.
  - subst a. rewrite !nth_error_app2 by lia. rewrite <- L, Nat.sub_diag. exact Hv.
  - rewrite (proj2 (nth_error_None (h ++ [v]) a)) by (rewrite app_length; cbn; lia). rewrite (proj2 (nth_error_None (h' ++ [v']) a)) by (rewrite app_length; cbn; lia). exact I.
Qed.
Lemma step_pair E E' h h' g g' o o' : same_env E E' -> heaps h h' -> graphs g g' -> op_pair RV XR (length h) o o' ->
  heaps (fst (fst (step VC E (h, g) o))) (fst (fst (step VC E' (h', g') o'))) /\ graphs (snd (fst (step VC E (h, g) o))) (snd (fst (step VC E' (h', g') o'))) /\
  same_answer o (snd (step VC E (h, g) o)) (snd (step VC E' (h', g') o')).
Proof.
  intros He H G P. destruct o; cbn [op_pair] in P;
    try match type of P with _ = o' => subst o' end.
  - destruct (add_variable_pair h h' g g' p H G) as (A & B). cbn [step same_answer]. destruct (add_variable VC h g p), (add_variable VC h' g' p). cbn in *. subst. auto.
  - assert (Q : exists p', o' = OAddFactor p' /\ match p, p' with Some f, Some f' => reads_alike f f' | None, None => True | _, _ => False end).
    { destruct p; [destruct o' as [|[f'|]| | | | | | | | | | | | |]; try contradiction; eauto|exists None; auto]. }
    destruct Q as (p' & -> & Q). destruct (add_factor_pair g g' p p' G Q) as (A & B). cbn [step same_answer]. destruct (add_factor g p), (add_factor g' p'). cbn in *. subst. auto.
  - destruct (finalize_pair h h' g g' H G) as (A & B). cbn [step same_answer]. destruct (finalize_structure VC h g), (finalize_structure VC h' g'). cbn in *. subst. auto.
  - destruct (residual_pair E E' h h' g g' He H G) as (A & B). cbn [step same_answer]. destruct (compute_residual E h g), (compute_residual E' h' g'). cbn in *. subst. auto.
  - cbn [step same_answer]. rewrite <- (residual_into_pair E E' h h' g g' buf He H G). destruct (compute_residual_into E h g buf). cbn. auto.
  - destruct (dense_pair E E' h h' g g' He H G) as (A & B). cbn [step same_answer]. destruct (compute_dense VC E h g), (compute_dense VC E' h' g'). cbn in *. subst. auto.
  - destruct (both_pair E E' h h' g g' He H G) as (A & B). cbn [step same_answer]. destruct (compute_both VC E h g), (compute_both VC E' h' g'). cbn in *. subst. auto.
  - destruct (sparse_pair h h' g g' H G) as (A & B). cbn [step same_answer]. destruct (compute_sparse VC h g), (compute_sparse VC h' g'). cbn in *. subst. auto.
  - cbn. split; auto. split; auto. apply get_variable_vector_pair; auto.
  - contradiction.
  - destruct (apply_increment_pair h h' g g' dx H G) as (A & B). cbn [step same_answer]. destruct (apply_increment VC h g dx), (apply_increment VC h' g' dx). cbn in *. subst. auto.
  - destruct o'; try contradiction. cbn. split; [apply new_pair; auto|auto].
  - destruct (hupd_pair h h' a (fun v => Ok (vsetconst VC b v)) (fun v => Ok (vsetconst VC b v)) H) as (A & B); [intros v v' Hv; apply (tw_const _ _ _ T); exact Hv|].
    cbn [step same_answer]. destruct (hupd h a _), (hupd h' a _). cbn in *. subst. auto.
  - destruct o'; try contradiction. destruct P as (<- & P). destruct (hupd_pair h h' a (fun v => vset VC v x) (fun v => vset VC v x0) H) as (A & B);
      [intros v v' Hv; apply (tw_set _ _ _ T); auto|]. cbn [step same_answer]. destruct (hupd h a _), (hupd h' a _). cbn in *. subst. auto.
  - destruct (hupd_pair h h' a (fun v => vinc VC v x) (fun v => vinc VC v x) H) as (A & B); [intros v v' Hv; apply (tw_inc _ _ _ T); auto|].
    cbn [step same_answer]. destruct (hupd h a _), (hupd h' a _). cbn in *. subst. auto.
Qed.
End TwinGraph.
