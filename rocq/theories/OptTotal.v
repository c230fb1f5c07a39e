(** The optimisers are defined: no step and no run is undefined behaviour, and nothing is thrown when the factors and variables do not throw. *)
From Coq Require Import List Arith ZArith QArith Bool Lia Permutation.
From Verif Require Import Base Sparse Graph SpecGraph SpecOpt ListLemmas GraphLayout GraphFin GraphBasic GraphVec GraphDense GraphSparse GraphSafe Optimizer OptLemmas OptRun OptMore SpecDefined.
Import ListNotations.
Local Open Scope nat_scope.

Lemma Forall2_weak {A B} (P Q : A -> B -> Prop) l l' : (forall a b, P a b -> Q a b) -> Forall2 P l l' -> Forall2 Q l l'.
Proof. induction 2; constructor; auto. Qed.

Section Total.
Context {N : num} {V : Type} (VC : vclass N V) {S : Type} (SV : solver N S) (EV : nat -> env (N:=N) (V:=V)).
Notation factor := (factor (N:=N) (V:=V)).
Notation graph := (graph (N:=N) (V:=V)).
Notation pstate := (@pstate N V S).
Hypothesis Hok : vclass_ok VC.
Hypothesis HE : forall n, env_ok (EV n).
Variable size : S -> nat -> Prop.
Hypothesis HS : sizes SV size.

(** the graph the run works on *)
Variables (l1 l2 : list (env (N:=N) (V:=V) * op (N:=N) (V:=V))) (h1 h0 : @heap V) (g1 g0 : graph).
Variables (fs : list factor) (vs : list addr) (P : @heap V -> Prop).
Hypothesis HF : finalized_history VC l1 l2 h1 h0 g1 g0.
Hypothesis Hfs : get_all_factors g0 = fs.
Hypothesis Hvs : get_all_variables g0 = vs.
Hypothesis HM : Forall (lists_members VC h0 vs) fs.
Hypothesis HC : 0 < total_cols VC h0 vs.
Hypothesis HP0 : P h0.
Hypothesis HW : workable VC fs P.

(** whether exceptions are allowed *)
Variable T : Prop.
Definition inv (h : @heap V) (g : graph) : Prop := traced VC (h0, g0) (h, g) /\ P h.
Hypothesis TR : T \/ forall h f, P h -> In f fs -> exists r, f_res_ref f h = Ok r.
Hypothesis TS : T \/ forall h g g' e, inv h g -> compute_sparse VC h g <> (g', Throw e).
Hypothesis TI : T \/ forall h a v x, P h -> nth_error h a = Some v -> length x = vsize VC v -> exists v', vinc VC v x = Ok v'.
Hypothesis TV : T \/ forall h a v x, P h -> nth_error h a = Some v -> length x = vsize VC v -> exists v', vset VC v x = Ok v'.

Record facts (h : @heap V) (g : graph) : Prop := {
  fa_hist : exists l2', finalized_history VC l1 l2' h1 h g1 g;
  fa_fin : fin VC h g;
  fa_sdim : sdim VC h g;
  fa_fs : get_all_factors g = fs;
  fa_vs : get_all_variables g = vs;
  fa_pres : hpres VC true h0 h;
  fa_cols : ncols VC h g = total_cols VC h0 vs
}.
Lemma inv_facts h g : inv h g -> facts h g.
Proof.
  intros [Tr _]. assert (HF' : exists l2', finalized_history VC l1 l2' h1 h g1 g).
  { destruct HF as (g' & F1 & F2 & F3 & F4). destruct Tr as (lb & Lb1 & Lb2). exists (l2 ++ lb). exists g'. split; auto. split; auto.
    split; [apply Forall_app; auto|]. rewrite (run_app VC), F4. exact Lb2. }
  destruct (finalized_facts VC Hok _ _ _ _ _ _ HF) as (_ & Fin0 & _).
  pose proof Tr as T'. apply (traced_keeps VC Hok) in T'; auto. cbn [fst snd] in T'. destruct T' as (Fin & Pr & Rg & _).
  assert (Pr' : hpres VC true h0 h) by exact Pr.
  constructor; auto.
  - destruct HF' as (l2' & HF'). eapply finalized_sdim; eauto.
  - rewrite <- Hfs. unfold get_all_factors. rewrite Rg. reflexivity.
  - rewrite <- Hvs. unfold get_all_variables. rewrite Rg. reflexivity.
  - rewrite (ncols_pres VC h0 h Pr' g0 g Rg (fin_reg _ _ _ Fin0)). unfold ncols. rewrite <- Hvs. reflexivity.
Qed.
Lemma members h : hpres VC true h0 h -> Forall (lists_members VC h vs) fs.
Proof.
  intros Pr. destruct (finalized_facts VC Hok _ _ _ _ _ _ HF) as (_ & Fin0 & _).
  pose proof (fine_live VC h0 g0 (fin_fine _ _ _ Fin0)) as Lv. rewrite Hfs in Lv. rewrite Forall_forall in *.
  intros f Hf a v Ha Hv Cv. destruct (Lv f Hf a Ha) as [v0 H0]. destruct (Pr _ _ H0) as (w & Hw & _ & _ & C).
  assert (w = v) as -> by congruence. apply (HM f Hf a v0); auto. rewrite <- (C eq_refl). exact Cv.
Qed.
Lemma stack_exists h : P h -> (T \/ exists rs, res_stack h fs rs).
Proof.
  intros Ph. destruct TR as [t|R]; [left; exact t|right]. pose proof (wk_factors _ _ _ HW h Ph) as A.
  assert (B : forall f, In f fs -> exists r, f_res_ref f h = Ok r) by (intros f Hf; apply R; auto). clear HM HW TR TS R.
  clear Hfs. induction A as [|f t (A1 & A2 & _) _ IH]; [exists []; constructor|].
  destruct (B f (or_introl eq_refl)) as (r & Hr). destruct IH as (rs & Hrs); [intros; apply B; cbn; auto|].
  exists (r :: rs). constructor; auto.
Qed.

(** ** the single calls *)
Lemma into_total n h g buf : inv h g -> match compute_residual_into (EV n) h g buf with
  | (r, Ok _) => length r = total_rows fs | (_, Throw _) => T | (_, UB _) => False end.
Proof.
  intros I. destruct (inv_facts _ _ I) as [_ Fi _ Ff _ _ _]. destruct I as [_ Ph].
  destruct (compute_residual_into (EV n) h g buf) as [r [[]|e|u]] eqn:E.
  - apply (residual_into_inv VC) in E; auto. rewrite Ff in E. destruct E as (rs & Q & ->). clear - Q.
    induction Q as [|f r fs' rs (_ & A) _ IH]; [reflexivity|]. cbn [concat]. rewrite app_length, A, IH. reflexivity.
  - destruct (stack_exists h Ph) as [t|(rs & Q)]; [exact t|]. rewrite <- Ff in Q. rewrite (residual_into_spec VC (EV n) h g buf rs (HE n) Fi Q) in E. discriminate.
  - eapply (residual_into_safe VC); eauto. rewrite Ff. apply (wk_factors _ _ _ HW h Ph).
Qed.
Lemma sparse_total h g : inv h g -> match compute_sparse VC h g with
  | (_, Ok Mx) => mrows (sp_dense Mx) = total_rows fs /\ mcols (sp_dense Mx) = total_cols VC h0 vs | (_, Throw _) => T | (_, UB _) => False end.
Proof.
  intros I. destruct (inv_facts _ _ I) as [_ Fi Sd Ff Fv Pr Fc]. pose proof I as [_ Ph].
  destruct (compute_sparse VC h g) as [g' [Mx|e|u]] eqn:E.
  - pose proof (compute_sparse_dim VC _ _ _ _ Fi Sd E) as [D1 D2].
    assert (Mx = sc_mat (g_sc g') /\ g_reg g' = g_reg g) as (-> & Rg).
    { unfold compute_sparse in E. destruct (negb _); [discriminate|]. destruct (negb _); [discriminate|].
      destruct (sparse_factors_loop VC h g _ 0 _ _ _) as [[comps data] o]. destruct o as [[]|e|u]; try discriminate.
      destruct (sc_valid (g_sc g)).
      - destruct (copy_sparse _ _ _ _) as [m [[]|e|u]]; inversion E; subst. split; reflexivity.
      - destruct (populate _ _ _ _ _) as [m|e|u]; inversion E; subst. split; reflexivity. }
    cbn [sp_dense mrows mcols]. split; [rewrite D1|rewrite D2].
    + unfold nrows. rewrite Rg. fold (get_all_factors g). rewrite Ff. reflexivity.
    + unfold ncols in *. rewrite Rg. exact Fc.
  - destruct TS as [t|X]; [exact t|]. exfalso. eapply X; eauto.
  - eapply (compute_sparse_safe VC); eauto; [rewrite Ff; apply (wk_factors _ _ _ HW h Ph)|rewrite Ff, Fv; apply members; auto].
Qed.
Lemma hupd_at h a (v : V) F : nth_error h a = Some v -> hupd h a F = match F v with Ok v' => (lupd a v' h, Ok tt) | Throw e => (h, Throw e) | UB u => (h, UB u) end.
Proof. intros H. unfold hupd, hget. rewrite H. reflexivity. Qed.
Lemma moved_pres h a v v' : nth_error h a = Some v -> same_obj VC true v v' -> hpres VC true h (lupd a v' h).
Proof.
  intros Ha Sm b w Hb. assert (L : a < length h) by (apply nth_error_Some; congruence). destruct (Nat.eq_dec b a) as [->|n].
  - exists v'. split; [apply lupd_nth_same; exact L|]. assert (w = v) as -> by congruence. exact Sm.
  - exists w. rewrite lupd_nth_other by auto. split; [exact Hb|]. unfold same_obj. auto.
Qed.
Lemma inc_total ck hb g : fin VC hb g -> get_all_variables g = vs -> forall us pre h (dx : list N), vs = pre ++ us -> length dx = total_cols VC hb vs -> hpres VC true hb h -> P h ->
  match inc_loop VC ck h g us dx with (h', Ok _) => P h' | (h', Throw _) => T /\ P h' | (_, UB _) => False end.
Proof.
  intros Fi Fv. induction us as [|a t IH]; cbn [inc_loop]; intros pre h dx Ev Ld Pr Ph; [exact Ph|].
  assert (Hk : nth_error vs (length pre) = Some a) by (rewrite Ev, nth_error_app2, Nat.sub_diag by lia; reflexivity).
  assert (Ev' : vs = (pre ++ [a]) ++ t) by (rewrite <- app_assoc; exact Ev).
  pose proof (ri_live _ _ _ (fin_reg _ _ _ Fi)) as Hl. rewrite Forall_forall in Hl. fold (get_all_variables g) in Hl. rewrite Fv in Hl. specialize (Hl a (nth_error_In _ _ Hk)). cbn beta in Hl.
  destruct (nth_error hb a) as [v0|] eqn:Ev0; [|apply nth_error_None in Ev0; lia].
  destruct (Pr _ _ Ev0) as (v & Ea & Hid & Hsz & Hcn). specialize (Hcn eq_refl). unfold hget. rewrite Ea.
  destruct (vconst VC v) eqn:C; [eapply IH; eauto|].
  assert (Hk' : nth_error (get_all_variables g) (length pre) = Some a) by (rewrite Fv; exact Hk).
  pose proof (fin_vplace VC hb g (length pre) a Fi Hk') as Hpl. unfold idz in Hpl. rewrite Ev0, <- Hid in Hpl. rewrite Hpl. cbn [vp_index vp_dim].
  assert (W : width VC hb a = vsize VC v) by (rewrite (width_nonconst _ _ _ _ Ev0); congruence).
  pose proof (col_start_le VC hb vs _ _ Hk) as Hle. rewrite W in *. rewrite Fv.
  assert (B : (col_start VC hb vs (length pre) + vsize VC v <=? length dx) = true) by (apply Nat.leb_le; rewrite Ld; exact Hle).
  unfold segment. rewrite B. cbn [negb]. rewrite andb_false_r. match goal with |- context [vinc VC _ ?s] => set (x := s) end.
  assert (Lx : length x = vsize VC v) by (apply Nat.leb_le in B; unfold x; rewrite firstn_length, skipn_length; lia).
  rewrite (hupd_at _ _ _ _ Ea). destruct (wk_inc _ _ _ HW h a v x Ph Ea Lx) as (NU & NP).
  destruct (vinc VC v x) as [v'|e|u] eqn:Ei.
  - eapply (IH (pre ++ [a])); auto. eapply hpres_trans; [exact Pr|]. eapply moved_pres; eauto.
    pose proof (ok_inc _ Hok _ _ _ Ei) as (I1 & I2 & I3). unfold same_obj. auto.
  - destruct TI as [t0|X]; [exact (conj t0 Ph)|]. destruct (X h a v x Ph Ea Lx) as (v' & Y). congruence.
  - exact (NU u eq_refl).
Qed.
Lemma values_total h (us : list addr) : P h -> Forall (fun a => a < length h) us -> exists xs, values_of VC h us = Ok xs /\
  Forall2 (fun a x => exists v, nth_error h a = Some v /\ length x = vsize VC v) us xs.
Proof.
  intros Ph. induction 1 as [|a t La _ (xs & E & F)]; cbn [values_of]; [exists []; split; [reflexivity|constructor]|].
  unfold hget. destruct (nth_error h a) as [v|] eqn:Ea; [|apply nth_error_None in Ea; lia]. cbn [obind]. rewrite E. cbn [obind].
  exists (vval VC v :: xs). split; [reflexivity|]. constructor; [|exact F]. exists v. split; [exact Ea|]. eapply (wk_value _ _ _ HW); eauto.
Qed.
Lemma restore_total us : forall xs h, P h -> Forall2 (fun a x => exists v, nth_error h a = Some v /\ length x = vsize VC v) us xs ->
  match restore_loop VC h us xs with (h', Ok _) => P h' | (h', Throw _) => T /\ P h' | (_, UB _) => False end.
Proof.
  induction us as [|a t IH]; intros xs h Ph Q; inversion Q as [|? x ? xt (v & Ea & Lx) Qt]; subst; cbn [restore_loop]; [exact Ph|].
  rewrite (hupd_at _ _ _ _ Ea). destruct (wk_set _ _ _ HW h a v x Ph Ea Lx) as (NU & NP). destruct (vset VC v x) as [v'|e|u] eqn:Es.
  - apply IH; auto. pose proof (ok_set _ Hok _ _ _ Es) as (I1 & I2 & I3).
    assert (Sm : same_obj VC true v v') by (unfold same_obj; auto). pose proof (moved_pres _ _ _ _ Ea Sm) as Pr.
    eapply Forall2_weak; [|exact Qt]. cbn. intros b y (w & Hb & Ly). destruct (Pr _ _ Hb) as (w' & Hb' & _ & Sz & _). exists w'. split; [exact Hb'|congruence].
  - destruct TV as [t0|X]; [exact (conj t0 Ph)|]. destruct (X h a v x Ph Ea Lx) as (v' & Y). congruence.
  - exact (NU u eq_refl).
Qed.

(** ** programs *)
Notation M := (M (N:=N) (V:=V) (S:=S)).
(** a Hessian prepared for covariances has the size of the problem, and the solver holds a factorisation of that size *)
Definition held (p : pstate) : Prop := p_hvalid p = true -> size (p_solver p) (total_cols VC h0 vs) /\ mrows (p_hess p) = total_cols VC h0 vs.
Definition good (p : pstate) : Prop := inv (p_heap p) (p_graph p) /\ held p.
Definition safe {A} (Pre : pstate -> Prop) (m : M A) (Post : A -> pstate -> Prop) : Prop :=
  forall p, Pre p -> match m p with (p', Ok a) => Post a p' | (p', Throw _) => T /\ good p' | (_, UB _) => False end.
Lemma safe_bind {A B} Pre (m : M A) Mid (f : A -> M B) Post : safe Pre m Mid -> (forall a, safe (Mid a) (f a) Post) -> safe Pre (mbind m f) Post.
Proof.
  intros Hm Hf p Hp. unfold mbind. specialize (Hm p Hp). destruct (m p) as [p1 [a|e|u]]; auto. apply Hf. exact Hm.
Qed.
Lemma safe_residual1 : safe good (m_residual1 EV) (fun _ p => good p /\ length (p_r1 p) = total_rows fs).
Proof.
  intros p Hp. pose proof (into_total (p_tick p) _ _ (p_r1 p) (proj1 Hp)) as X. unfold m_residual1.
  destruct (compute_residual_into _ _ _ _) as [r [[]|e|u]]; auto.
Qed.
Lemma safe_residual2 k : safe (fun p => good p /\ length (p_r1 p) = k) (m_residual2 EV) (fun _ p => good p /\ length (p_r1 p) = k).
Proof.
  intros p [Hp L]. pose proof (into_total (p_tick p) _ _ (p_r2 p) (proj1 Hp)) as X. unfold m_residual2.
  destruct (compute_residual_into _ _ _ _) as [r [[]|e|u]]; auto.
Qed.
Definition dims (J : mat N) : Prop := mrows J = total_rows fs /\ mcols J = total_cols VC h0 vs.
Definition mid (p : pstate) : Prop := good p /\ length (p_r1 p) = total_rows fs.
Lemma safe_sparse : safe mid (m_sparse VC) (fun J p => mid p /\ dims J).
Proof.
  intros p [Hp L]. pose proof (sparse_total _ _ (proj1 Hp)) as X. unfold m_sparse. destruct (compute_sparse VC _ _) as [g' r] eqn:E.
  assert (G : good (w_graph g' p)).
  { destruct Hp as [[Tr Ph] Hh]. split; [|exact Hh]. split; [|exact Ph]. eapply traced_trans; [exact Tr|].
    apply (traced_one VC (EV 0) _ OSparse); cbn; auto. rewrite E. reflexivity. }
  destruct r as [Mx|e|u]; cbn [omap]; auto. split; [|exact X]. split; [exact G|exact L].
Qed.
Lemma jtr_total (J : mat N) r : dims J -> length r = total_rows fs -> exists b, jtr J r = Ok b /\ length b = total_cols VC h0 vs.
Proof.
  intros [A B] L. unfold jtr. rewrite A, L, Nat.eqb_refl. eexists. split; [reflexivity|]. unfold mvmul. rewrite map_length, seq_length. exact B.
Qed.
Lemma vmin_total (l : list N) : 0 < length l -> exists m, vmin l = Ok m.
Proof. destruct l; cbn; [lia|eauto]. Qed.
Lemma vmax_total (l : list N) : 0 < length l -> exists m, vmax l = Ok m.
Proof. destruct l; cbn; [lia|eauto]. Qed.
Lemma good_solver s p : size s (total_cols VC h0 vs) -> good p -> good (w_solver s p).
Proof. intros Z [A B]. split; [exact A|]. intros Hv. split; [exact Z|exact (proj2 (B Hv))]. Qed.
Lemma safe_apply dx : length dx = total_cols VC h0 vs -> safe mid (m_apply VC dx) (fun _ p => mid p).
Proof.
  intros L p [Hp R]. unfold m_apply. destruct (inv_facts _ _ (proj1 Hp)) as [_ Fi _ Ff Fv Pr Fc]. pose proof Hp as [[Tr Ph] Hh].
  rewrite Fv. pose proof (inc_total false (p_heap p) (p_graph p) Fi Fv vs [] (p_heap p) dx eq_refl) as X.
  destruct (inc_loop VC false (p_heap p) (p_graph p) vs dx) as [h' r] eqn:E.
  assert (Lc : length dx = total_cols VC (p_heap p) vs) by (rewrite L, <- Fc; unfold ncols; fold (get_all_variables (p_graph p)); rewrite Fv; reflexivity).
  assert (Tr' : traced VC (h0, g0) (h', p_graph p)) by (eapply traced_trans; [exact Tr|]; eapply traced_inc; eauto).
  specialize (X Lc (hpres_refl _ _ _) Ph). destruct r as [[]|e|u]; [| |exact X].
  - split; [|exact R]. split; [|exact Hh]. split; [exact Tr'|exact X].
  - split; [apply X|]. split; [|exact Hh]. split; [exact Tr'|apply X].
Qed.

Lemma gn_total : safe good (gn_step VC SV EV) (fun _ p => good p).
Proof.
  unfold gn_step. eapply safe_bind; [apply safe_residual1|intros ?].
  eapply safe_bind; [apply safe_sparse|intros J]. intros p ((G & L) & Dm).
  unfold mbind at 1, get at 1. cbn beta iota.
  destruct (jtr_total J (p_r1 p) Dm L) as (b & Eb & Lb). unfold mbind at 1, lift at 1. rewrite Eb.
  unfold mbind at 1, m_factorize at 1. set (s := sv_compute SV (p_solver p) (jtj J)).
  assert (Z : size s (total_cols VC h0 vs)).
  { rewrite <- (proj2 Dm). apply (sz_compute _ _ HS (p_solver p) (jtj J)). reflexivity. }
  pose proof (good_solver _ _ Z G) as Gs.
  destruct (sv_ok SV s) eqn:Ok1; [|exact Gs]. cbn [negb].
  unfold mbind at 1, get at 1. cbn beta iota. cbn [p_solver w_nfact w_solver].
  pose proof (sz_D _ _ HS _ _ Z Ok1) as LD.
  destruct (vmin_total (map nabs (sv_D SV s))) as (mn & Emn); [rewrite map_length, LD; exact HC|].
  destruct (vmax_total (map nabs (sv_D SV s))) as (mx & Emx); [rewrite map_length, LD; exact HC|].
  unfold mbind at 1, lift at 1. rewrite Emn. unfold mbind at 1, lift at 1. rewrite Emx.
  destruct (nltb mn _); [exact Gs|]. destruct (nltb _ (ndiv mx mn)); [exact Gs|].
  unfold mbind at 1, m_solve at 1. cbn [p_solver w_nfact w_solver].
  pose proof (sz_solve_keeps _ _ HS s _ (map (fun x => nmul x (nlit (-1))) b) Z) as Zs. pose proof (sz_solve _ _ HS s _ (map (fun x => nmul x (nlit (-1))) b) Z Ok1) as LX. rewrite map_length in LX. specialize (LX Lb).
  destruct (sv_solve SV s _) as [s' x]. cbn [snd fst] in LX, Zs. pose proof (good_solver _ _ Zs Gs) as Gx. destruct (sv_ok SV s'); [|exact Gx]. cbn [negb snd fst].
  unfold mbind at 1, get at 1. cbn beta iota.
  match goal with |- context [m_apply VC ?d] => set (dx := d) end.
  assert (Ld : length dx = total_cols VC h0 vs) by (unfold dx; rewrite map_length; exact LX).
  match goal with |- match ?m ?q with _ => _ end => assert (Y : safe mid m (fun _ p => good p)); [|apply (Y q); split; [exact Gx|exact L]] end.
  eapply safe_bind; [apply safe_apply; exact Ld|intros ?]. eapply safe_bind; [apply safe_residual2|intros ?].
  intros q [Gq _]. exact Gq.
Qed.

Lemma safe_up : safe mid m_up (fun _ p => mid p).
Proof. intros p H. exact H. Qed.
Lemma lm_loop_total J cost n : dims J -> forall dx, safe mid (lm_loop VC SV EV n J cost dx) (fun _ p => mid p).
Proof.
  intros Dm. induction n as [|n IH]; intros dx; [intros p H; exact H|]. cbn [lm_loop].
  intros p [G L]. unfold mbind at 1, get at 1. cbn beta iota. unfold mbind at 1, get at 1. cbn beta iota.
  set (lam := ss_lambda (p_cur p)).
  destruct (jtr_total (Mat (mrows J) (mcols J) (fun i j => nneg (mat_at J i j))) (p_r1 p) Dm L) as (b & Eb & Lb). unfold mbind at 1, lift at 1. rewrite Eb.
  unfold mbind at 1, m_factorize at 1. set (s := sv_compute SV (p_solver p) (add_diag lam (jtj J))).
  assert (Z : size s (total_cols VC h0 vs)).
  { rewrite <- (proj2 Dm). apply (sz_compute _ _ HS (p_solver p) (add_diag lam (jtj J))). reflexivity. }
  pose proof (good_solver _ _ Z G) as Gs.
  assert (Again : forall dx' q, mid q -> match mbind m_up (fun _ => lm_loop VC SV EV n J cost dx') q with (p', Ok _) => mid p' | (p', Throw _) => T /\ good p' | (_, UB _) => False end).
  { intros dx' q Hq. assert (K : safe mid (mbind m_up (fun _ => lm_loop VC SV EV n J cost dx')) (fun _ p => mid p)); [|exact (K q Hq)].
    eapply safe_bind; [apply safe_up|intros ?; apply IH]. }
  destruct (sv_ok SV s) eqn:Ok1; [|apply Again; split; [exact Gs|exact L]]. cbn [negb].
  unfold mbind at 1, get at 1. cbn beta iota. cbn [p_solver w_nfact w_solver].
  pose proof (sz_D _ _ HS _ _ Z Ok1) as LD.
  destruct (vmin_total (map nabs (sv_D SV s))) as (mn & Emn); [rewrite map_length, LD; exact HC|].
  destruct (vmax_total (map nabs (sv_D SV s))) as (mx & Emx); [rewrite map_length, LD; exact HC|].
  unfold mbind at 1, lift at 1. rewrite Emn. unfold mbind at 1, lift at 1. rewrite Emx.
  destruct (nltb mn _ || _); [apply Again; split; [exact Gs|exact L]|].
  unfold mbind at 1, m_solve at 1. cbn [p_solver w_nfact w_solver].
  pose proof (sz_solve_keeps _ _ HS s _ b Z) as Zs. pose proof (sz_solve _ _ HS s _ b Z Ok1 Lb) as LX.
  destruct (sv_solve SV s _) as [s' x]. cbn [snd fst] in LX, Zs. pose proof (good_solver _ _ Zs Gs) as Gx. destruct (sv_ok SV s'); [|apply Again; split; [exact Gx|exact L]]. cbn [negb snd fst].
  unfold mbind at 1, get at 1. cbn beta iota.
  match goal with |- context [m_apply VC ?d] => set (dx1 := d) end.
  assert (Ld : length dx1 = total_cols VC h0 vs) by (unfold dx1; rewrite map_length; exact LX).
  unfold mbind at 1. cbv beta. match goal with |- context [values_of VC (p_heap ?q) (get_all_variables (p_graph ?q))] => set (q0 := q) end.
  assert (Hq : mid q0) by (split; [exact Gx|exact L]). assert (Fv : get_all_variables (p_graph q0) = vs) by apply (inv_facts _ _ (proj1 (proj1 Hq))).
  assert (Lv : Forall (fun a => a < length (p_heap q0)) vs).
  { rewrite <- Fv. exact (ri_live _ _ _ (fin_reg _ _ _ (fa_fin _ _ (inv_facts _ _ (proj1 (proj1 Hq)))))). }
  destruct (values_total (p_heap q0) vs (proj2 (proj1 (proj1 Hq))) Lv) as (xs & Exs & Qxs).
  rewrite Fv, Exs.
  set (kept := fun p : pstate => mid p /\ Forall2 (fun a x => exists v, nth_error (p_heap p) a = Some v /\ length x = vsize VC v) vs xs).
  match goal with |- match ?m q0 with _ => _ end => assert (Y : safe (fun p => p = q0) m (fun _ p => mid p)); [|exact (Y q0 eq_refl)] end.
  eapply (safe_bind _ _ (fun _ p => kept p)).
  { intros p' ->. pose proof (safe_apply dx1 Ld q0 Hq) as X. destruct (m_apply VC dx1 q0) as [q1 [[]|e|u]] eqn:Ea; auto. split; [exact X|].
    destruct (frames_apply VC EV HE dx1 _ _ _ Ea) as (Tr & _). apply (traced_keeps VC Hok) in Tr; [|exact (fa_fin _ _ (inv_facts _ _ (proj1 (proj1 Hq))))].
    destruct Tr as (_ & Pr & _). cbn [fst] in Pr. eapply Forall2_weak; [|exact Qxs]. cbn. intros a y (v & Ha & Ly).
    destruct (Pr _ _ Ha) as (w & Hw & _ & Sz & _). exists w. split; [exact Hw|congruence]. }
  intros ?. eapply (safe_bind _ _ (fun _ p => kept p)).
  { intros p' [Hm Hk]. pose proof (safe_residual2 _ p' Hm) as X. unfold m_residual2 in *. destruct (compute_residual_into _ _ _ _) as [r [[]|e|u]]; auto. split; [exact X|exact Hk]. }
  intros ? p' [Hm Hk]. unfold mbind at 1, get at 1. cbn beta iota. destruct (nltb _ cost); [exact Hm|].
  match goal with |- match ?m p' with _ => _ end => assert (Y : safe kept m (fun _ p => mid p)); [|exact (Y p' (conj Hm Hk))] end.
  eapply (safe_bind _ _ (fun _ p => mid p)).
  { intros r [[Gr Lr] Kr]. unfold m_restore. assert (Fr : get_all_variables (p_graph r) = vs) by apply (inv_facts _ _ (proj1 Gr)). rewrite Fr.
    pose proof (restore_total vs xs (p_heap r) (proj2 (proj1 Gr)) Kr) as X. destruct (restore_loop VC (p_heap r) vs xs) as [h' o] eqn:Er.
    assert (Tr' : traced VC (h0, g0) (h', p_graph r)) by (eapply traced_trans; [exact (proj1 (proj1 Gr))|]; eapply traced_restore; eauto).
    destruct o as [[]|e|u]; [| |exact X].
    - split; [|exact Lr]. split; [|exact (proj2 Gr)]. split; [exact Tr'|exact X].
    - split; [apply X|]. split; [|exact (proj2 Gr)]. split; [exact Tr'|apply X]. }
  intros ? r Hr. unfold mbind at 1, get at 1. cbn beta iota. unfold mbind at 1. cbn [m_lambda mupd]. destruct (nleb _ _); [exact Hr|].
  match goal with |- context [lm_loop VC SV EV n J cost dx1 ?q] => exact (IH dx1 q Hr) end.
Qed.
Lemma lm_total : safe good (lm_step VC SV EV) (fun _ p => good p).
Proof.
  unfold lm_step. eapply safe_bind; [apply safe_residual1|intros ?].
  eapply safe_bind; [apply safe_sparse|intros J]. intros p (Hm & Dm).
  unfold mbind at 1, get at 1. cbn beta iota. unfold mbind at 1, get at 1. cbn beta iota. unfold mbind at 1, get at 1. cbn beta iota.
  match goal with |- match ?m p with _ => _ end => assert (Y : safe mid m (fun _ p => good p)); [|exact (Y p Hm)] end.
  eapply (safe_bind _ _ (fun _ p => mid p)); [destruct (_ =? 0); intros q Hq; exact Hq|intros ?].
  eapply safe_bind; [apply lm_loop_total; exact Dm|]. intros [[] dx] q [Hq _]; [exact Hq|]. cbn [fst snd].
  unfold mbind at 1, get at 1. cbn beta iota. unfold mbind at 1, get at 1. cbn beta iota. unfold mbind at 1. destruct (nltb _ _); exact Hq.
Qed.
Lemma step_total p : good p -> match one_step VC SV EV p with (p', Ok _) => good p' | (p', Throw _) => T /\ good p' | (_, UB _) => False end.
Proof. intros H. unfold one_step. destruct (st_method (p_set p)); [exact (gn_total p H)|exact (lm_total p H)]. Qed.
Lemma loop_total n : forall p, good p -> exists p', opt_loop VC SV EV n p = (p', Ok tt) /\ (p_caught p' = p_caught p \/ T) /\ good p'.
Proof.
  induction n as [|n IH]; intros p G; cbn [opt_loop]; [eauto|].
  pose proof (step_total p G) as X. destruct (one_step VC SV EV p) as [p1 [[]|e|u]] eqn:E; [|exists (fst (m_fail FAILED (w_caught true p1))); split; [reflexivity|split; [right|]; apply X]|contradiction].
  assert (C1 : p_caught p1 = p_caught p) by apply (frames_one VC SV EV HE _ _ _ E).
  destruct (ss_status (p_cur p1)); try (exists p1; split; [reflexivity|split; [left; exact C1|exact X]]).
  1,2,3: repeat match goal with |- context [if ?c then _ else _] => destruct c end; try (eexists; split; [reflexivity|split; [left; exact C1|exact X]]);
    destruct (IH p1 X) as (p' & E' & C' & G'); exists p'; split; [exact E'|rewrite <- C1; split; [exact C'|exact G']].
Qed.
Lemma optimize_total (p : pstate) : p_hasgraph p = true -> good p ->
  (exists p', optimize VC SV EV p = (p', Ok tt) /\ (p_caught p' = false \/ T) /\ good p') \/
  T /\ (exists p' e, optimize VC SV EV p = (p', Throw e) /\ good p') /\ exists f, In f fs /\ forall r, f_res_ref f (p_heap p) <> Ok r.
Proof.
  intros Hg G. unfold optimize. rewrite Hg. cbn [negb]. cbn [w_caught w_cur p_tick p_heap p_graph].
  pose proof G as [I0 Hh]. pose proof (inv_facts _ _ I0) as Fa. pose proof (into_total (p_tick p) (p_heap p) (p_graph p)) as X.
  destruct (compute_residual (EV (p_tick p)) (p_heap p) (p_graph p)) as [g o] eqn:C.
  assert (I1 : inv (p_heap p) g).
  { split; [|exact (proj2 I0)]. eapply traced_trans; [exact (proj1 I0)|]. apply (traced_one VC (EV (p_tick p)) _ OResidual); cbn; auto. rewrite C. reflexivity. }
  destruct o as [r|e|u].
  - match goal with |- context [opt_loop VC SV EV ?n ?q] => destruct (loop_total n q) as (p' & E & Cg & G') end; [split; [exact I1|exact Hh]|].
    rewrite E. left. eexists. split; [reflexivity|]. destruct (ss_status (p_cur p')); (split; [exact Cg|exact G']).
  - right. pose proof C as C'. unfold compute_residual in C'. destruct (negb _) eqn:NF; [rewrite (fin_lay _ _ _ (fa_fin _ _ Fa)) in NF; discriminate|].
    split; [match type of C' with context [compute_residual_into _ _ _ ?b] => specialize (X b I0); destruct (compute_residual_into (EV (p_tick p)) (p_heap p) (p_graph p) b) as [buf [[]|e'|u']] end; try discriminate; exact X|].
    split; [eexists; exists e; split; [reflexivity|split; [exact I1|exact Hh]]|].
    assert (D : forall us, Forall (factor_safe VC (p_heap p)) us -> (exists rs, res_stack (p_heap p) us rs) \/ exists f, In f us /\ forall r, f_res_ref f (p_heap p) <> Ok r).
    { induction 1 as [|f t (A1 & A2 & _) _ IH]; [left; exists []; constructor|]. destruct (f_res_ref f (p_heap p)) as [r|e0|u0] eqn:Er.
      - destruct IH as [(rs & Q)|(f' & I' & F')]; [left; exists (r :: rs); constructor; auto|right; exists f'; cbn; auto].
      - right. exists f. split; [cbn; auto|]. congruence.
      - right. exists f. split; [cbn; auto|]. congruence. }
    destruct (D fs (wk_factors _ _ _ HW _ (proj2 I0))) as [(rs & Q)|Q]; [|exact Q]. exfalso. rewrite <- (fa_fs _ _ Fa) in Q.
    destruct (compute_residual_spec VC (EV (p_tick p)) _ _ rs (HE _) (fa_fin _ _ Fa) Q) as (g' & Cr & _). congruence.
  - exfalso. eapply (residual_safe VC (EV (p_tick p)) _ _ (HE _) (fa_fin _ _ Fa)); [|exact C]. rewrite (fa_fs _ _ Fa). apply (wk_factors _ _ _ HW _ (proj2 I0)).
Qed.

(** ** covariances *)
Lemma prepare_total p : good p -> match prepare SV p with (p', UB _) => False | (p', _) => good p' end.
Proof.
  intros G. unfold prepare. destruct (p_hvalid p) eqn:Hv; [exact G|]. destruct (negb (p_complete p)); [exact G|].
  pose proof (inv_facts _ _ (proj1 G)) as Fa. unfold mbind at 1. cbv beta. unfold sparse_jacobian. destruct (sc_valid (g_sc (p_graph p))); cbn [omap]; [|exact G].
  set (J := sp_dense (sc_mat (g_sc (p_graph p)))). assert (Dc : mcols J = total_cols VC h0 vs) by (unfold J; cbn; rewrite (proj2 (fa_sdim _ _ Fa)); apply (fa_cols _ _ Fa)).
  unfold mbind at 1, mupd at 1. cbn beta iota. unfold mbind at 1, m_factorize at 1. cbn beta iota zeta. cbn [p_solver w_hess].
  set (s := sv_compute SV (p_solver p) (jtj J)).
  assert (Z : size s (total_cols VC h0 vs)) by (rewrite <- Dc; apply (sz_compute _ _ HS (p_solver p) (jtj J)); reflexivity).
  assert (G1 : good (w_nfact (w_solver s (w_hess (jtj J) p)))) by (split; [exact (proj1 G)|]; intros _; split; [exact Z|exact Dc]).
  destruct (sv_ok SV s) eqn:Ok1; cbn [negb]; [|exact G1].
  unfold mbind at 1, get at 1. cbn beta iota. cbn [p_solver w_nfact w_solver].
  destruct (vmin_total (map nabs (sv_D SV s))) as (mn & Emn); [rewrite map_length, (sz_D _ _ HS _ _ Z Ok1); exact HC|].
  unfold mbind at 1, lift at 1. rewrite Emn. cbn beta iota.
  split; [exact (proj1 G)|]. intros _. split; [exact Z|exact Dc].
Qed.
Lemma estimate_total p q : good p -> match q with Some a => In a vs | None => True end ->
  match estimate_covariance VC SV q p with (p', Ok _) => good p' | _ => False end.
Proof.
  intros G Hq. unfold estimate_covariance. destruct q as [a|]; [|exact G]. pose proof (inv_facts _ _ (proj1 G)) as Fa.
  pose proof (fa_fin _ _ Fa) as Fi. pose proof (ri_live _ _ _ (fin_reg _ _ _ Fi)) as Hl. rewrite Forall_forall in Hl.
  fold (get_all_variables (p_graph p)) in Hl. rewrite (fa_vs _ _ Fa) in Hl. specialize (Hl a Hq). cbn beta in Hl.
  unfold hget. destruct (nth_error (p_heap p) a) as [v|] eqn:Ha; [|apply nth_error_None in Ha; lia].
  destruct (vconst VC v) eqn:Cv; [exact G|]. destruct (vsize VC v =? 0) eqn:Sv; [exact G|]. cbn [orb]. apply Nat.eqb_neq in Sv.
  destruct (negb (p_complete p)); [exact G|]. destruct (p_hvalid p) eqn:Hv; cbn [negb orb]; [|exact G].
  destruct (proj2 G Hv) as (Z & Hn). destruct (_ || _); [exact G|].
  destruct (In_nth_error _ _ Hq) as (k & Hk). assert (Hk' : nth_error (get_all_variables (p_graph p)) k = Some a) by (rewrite (fa_vs _ _ Fa); exact Hk).
  pose proof (fin_vplace VC _ _ k a Fi Hk') as Hpl. unfold idz in Hpl. rewrite Ha in Hpl. rewrite Hpl. cbn [vp_index vp_dim].
  pose proof (col_start_le VC (p_heap p) _ _ _ Hk') as Hle. rewrite (width_nonconst _ _ _ _ Ha Cv) in *.
  assert (Hnc : total_cols VC (p_heap p) (get_all_variables (p_graph p)) = total_cols VC h0 vs) by exact (fa_cols _ _ Fa). rewrite Hnc in Hle.
  rewrite Hn. rewrite (proj2 (Nat.leb_le _ _) Hle). cbn [negb].
  match goal with |- context [sv_solve_mat SV _ ?b] => set (B := b) end.
  pose proof (sz_mat_keeps _ _ HS _ _ B Z) as Zk. pose proof (sz_mat _ _ HS _ _ B Z eq_refl) as Zm.
  destruct (sv_solve_mat SV (p_solver p) B) as [s X]. cbn [fst snd] in *. pose proof (good_solver _ _ Zk G) as Gs.
  destruct (sv_ok SV s); cbn [negb]; [|exact Gs]. destruct (Zm eq_refl) as (R1 & R2). rewrite R1, R2. cbn [mcols B].
  rewrite (proj2 (Nat.leb_le _ _) Hle), Nat.leb_refl. cbn [andb negb].
  destruct (negb (all_finite _)); [exact Gs|]. destruct (vmax_total (diag_of (Mat (vsize VC v) (vsize VC v) (fun i j => mat_at X (col_start VC (p_heap p) (get_all_variables (p_graph p)) k + i) j)))) as (mx & Emx).
  { unfold diag_of. rewrite map_length, seq_length. cbn [mrows]. lia. }
  rewrite Emx. destruct (nltb _ mx); exact Gs.
Qed.

(** ** sessions *)
Lemma set_total us : forall h off (x : list N), P h -> Forall (fun a => a < length h) us -> off + total_cols VC h us <= length x ->
  match set_vector_loop VC h us off x with (h', UB _) => False | (h', _) => P h' end.
Proof.
  induction us as [|a t IH]; intros h off x Ph Lv Lx; cbn [set_vector_loop]; [exact Ph|]. inversion Lv as [|? ? La Lt]; subst.
  unfold hget. destruct (nth_error h a) as [v|] eqn:Ha; [|apply nth_error_None in Ha; lia].
  change (total_cols VC h (a :: t)) with (width VC h a + total_cols VC h t) in Lx.
  destruct (vconst VC v) eqn:C; [apply IH; auto; lia|]. rewrite (width_nonconst VC h a v Ha C) in Lx.
  unfold segment. rewrite (proj2 (Nat.leb_le _ _)) by lia. match goal with |- context [vset VC _ ?s] => set (y := s) end.
  assert (Ly : length y = vsize VC v) by (unfold y; rewrite firstn_length, skipn_length; lia).
  rewrite (hupd_at _ _ _ _ Ha). destruct (wk_set _ _ _ HW h a v y Ph Ha Ly) as (NU & NP). destruct (vset VC v y) as [v'|e|u] eqn:Es; [|exact Ph|exact (NU u eq_refl)].
  pose proof (ok_set _ Hok _ _ _ Es) as (I1 & I2 & I3). assert (Sm : same_obj VC true v v') by (unfold same_obj; auto).
  pose proof (moved_pres _ _ _ _ Ha Sm) as Pr. apply IH; auto.
  - rewrite lupd_length. exact Lt.
  - enough (total_cols VC (lupd a v' h) t = total_cols VC h t) by lia. unfold total_cols. f_equal. apply map_ext_in. intros b Hb. rewrite Forall_forall in Lt.
    apply width_pres; auto.
Qed.
Lemma call_total p o : good p -> proper VC P vs p o -> ~ undefined_call VC SV EV p o /\ (T -> good (ostep VC SV EV p o)).
Proof.
  intros G Pr. destruct o as [o|b st| | |q]; cbn [undefined_call ostep].
  - destruct (step VC (EV (p_tick p)) (p_heap p, p_graph p) o) as [[h g] ans] eqn:Es. cbn [snd].
    pose proof (inv_facts _ _ (proj1 G)) as Fa. destruct (fa_hist _ _ Fa) as (l2' & HF'). pose proof (proj1 G) as [Tr Ph].
    assert (Vo : value_op o) by (destruct o; cbn in Pr |- *; auto).
    enough (K : ~ undefined ans /\ (T -> P h)).
    { split; [apply K|]. intros t. split; [|exact (proj2 G)]. split; [|exact (proj2 K t)]. eapply traced_trans; [exact Tr|]. eapply (traced_one VC (EV (p_tick p))); [apply HE|exact Vo|]. rewrite Es. reflexivity. }
    assert (HP : h = p_heap p -> T -> P h) by (intros -> _; exact Ph).
    assert (Co : compute_op o -> ~ undefined ans).
    { intros Cc. pose proof (no_undefined VC Hok _ _ _ _ _ _ (EV (p_tick p)) o HF' (HE _) Cc) as X. rewrite Es in X. apply X.
      - rewrite (fa_fs _ _ Fa). apply (wk_factors _ _ _ HW _ Ph).
      - rewrite (fa_fs _ _ Fa), (fa_vs _ _ Fa). apply members. apply (fa_pres _ _ Fa).
      - intros a v x u _ Hv Lx. apply (wk_inc _ _ _ HW _ a v x Ph Hv Lx). }
    destruct o; cbn [proper value_op] in Pr; try contradiction; cbn [step] in Es;
      try (split; [apply Co; exact I|]; repeat match type of Es with context [let '(_, _) := ?t in _] => destruct t eqn:? end; inversion Es; subst; auto; fail).
    + inversion Es; subst. split; auto. cbn. rewrite (get_vector_spec VC); [intros []|apply (fa_fin _ _ Fa)|].
      intros a v _ Hv _. exact (wk_value _ _ _ HW _ _ _ Ph Hv).
    + unfold set_variable_values_from_vector in Es. pose proof (set_total vs (p_heap p) 0 x Ph) as X. rewrite (fa_vs _ _ Fa) in Es.
      destruct (set_vector_loop VC (p_heap p) vs 0 x) as [h' r]. inversion Es; subst. cbn.
      assert (Y : match r with UB _ => False | _ => P h end).
      { apply X; [|lia]. rewrite <- (fa_vs _ _ Fa). exact (ri_live _ _ _ (fin_reg _ _ _ (fa_fin _ _ Fa))). }
      destruct r; [split; [intros []|auto]|split; [intros []|auto]|contradiction].
    + split; [apply Co; exact I|]. unfold apply_increment in Es. intros t. destruct (negb (ly_final _)); [inversion Es; subst; exact Ph|].
      destruct (Nat.eqb_spec (length dx) (num_values (p_graph p))) as [Ld|Ld]; cbn [negb] in Es; [|inversion Es; subst; exact Ph].
      rewrite (fa_vs _ _ Fa) in Es.
      pose proof (inc_total true (p_heap p) (p_graph p) (fa_fin _ _ Fa) (fa_vs _ _ Fa) vs [] (p_heap p) dx eq_refl) as X.
      assert (Lc : length dx = total_cols VC (p_heap p) vs).
      { rewrite Ld. unfold num_values. rewrite (fin_lay _ _ _ (fa_fin _ _ Fa)). cbn. unfold ncols. fold (get_all_variables (p_graph p)). rewrite (fa_vs _ _ Fa). reflexivity. }
      specialize (X Lc (hpres_refl _ _ _) Ph). destruct (inc_loop VC true (p_heap p) (p_graph p) vs dx) as [h' r]. inversion Es; subst. destruct r; [exact X|apply X|contradiction].
    + inversion Es; subst. cbn. split; auto.
    + destruct Pr as (v & Hv & Lx). rewrite (hupd_at _ _ _ _ Hv) in Es. destruct (wk_set _ _ _ HW _ _ _ _ Ph Hv Lx) as (NU & NP).
      destruct (vset VC v x); inversion Es; subst; cbn; split; auto. intros _. exact (NU _ eq_refl).
    + destruct Pr as (v & Hv & Lx). rewrite (hupd_at _ _ _ _ Hv) in Es. destruct (wk_inc _ _ _ HW _ _ _ _ Ph Hv Lx) as (NU & NP).
      destruct (vinc VC v x); inversion Es; subst; cbn; split; auto. intros _. exact (NU _ eq_refl).
  - cbn. split; [intros (u & E); discriminate|]. intros _. split; [exact (proj1 G)|]. intros Hv. discriminate.
  - destruct (p_hasgraph p) eqn:Hg.
    + destruct (optimize_total p Hg G) as [(p' & E & _ & G')|(_ & (p' & e & E & G') & _)]; rewrite E; cbn; (split; [intros (u & Q); discriminate|auto]).
    + unfold optimize. rewrite Hg. cbn. split; [intros (u & Q); discriminate|auto].
  - pose proof (prepare_total p G) as X. destruct (prepare SV p) as [p' [[]|e|u]]; cbn; [| |contradiction]; (split; [intros (u & Q); discriminate|auto]).
  - pose proof (estimate_total p q G) as X. cbn [proper] in Pr. specialize (X Pr). destruct (estimate_covariance VC SV q p) as [p' [m|e|u]]; [|contradiction..]. cbn. split; [intros (u & Q); discriminate|auto].
Qed.
Lemma session_total l : T -> forall p, good p -> proper_session VC SV EV P vs p l ->
  good (orun VC SV EV p l) /\ forall k o, nth_error l k = Some o -> ~ undefined_call VC SV EV (orun VC SV EV p (firstn k l)) o.
Proof.
  intros t. induction l as [|o l IH]; intros p G Q; cbn [orun fold_left] in *; [split; [exact G|]; intros [|k] o' H; discriminate|].
  destruct Q as [Q1 Q2]. destruct (call_total p o G Q1) as (A & B). specialize (B t). destruct (IH _ B Q2) as (C & D). split; [exact C|].
  intros [|k] o' H; [inversion H; subst; exact A|]. exact (D k o' H).
Qed.
End Total.
