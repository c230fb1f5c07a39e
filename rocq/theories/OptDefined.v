(** Consequences of OptTotal: runs are defined, for the LDL^T solver and for the library's classes. *)
From Coq Require Import List Arith ZArith QArith Bool Lia Permutation.
From Verif Require Import Base Sparse Graph SpecGraph SpecOpt ListLemmas GraphLayout GraphFin GraphBasic GraphVec GraphDense GraphSparse GraphSafe Optimizer OptLemmas OptRun OptMore SpecDefined OptTotal.
From Verif Require Import Geom Vars VarsLemmas FactorsLin FactorsGeo FactorLib SpecFactor SpecShape FactorShape FactorSafe Ldlt.
Import ListNotations.
Local Open Scope nat_scope.
Set Bullet Behavior "Strict Subproofs".

Section Defined.
Context {N : num} {V : Type} (VC : vclass N V) {S : Type} (SV : solver N S) (EV : nat -> env (N:=N) (V:=V)).
Hypothesis Hok : vclass_ok VC.
Hypothesis HE : forall n, env_ok (EV n).
Notation pstate := (@pstate N V S).

Section Run.
Context (P : @heap V -> Prop) (l1 l2 : list (env (N:=N) (V:=V) * op (N:=N) (V:=V))) (h1 : @heap V) (g1 : graph (N:=N) (V:=V)) (p : pstate).
Notation fs := (get_all_factors (p_graph p)).
Notation vs := (get_all_variables (p_graph p)).
Hypothesis HF : finalized_history VC l1 l2 h1 (p_heap p) g1 (p_graph p).
Hypothesis HP : P (p_heap p).
Hypothesis HW : workable VC fs P.
Hypothesis Hv : p_hvalid p = false.
Lemma good_start (size : S -> nat -> Prop) : good VC size (p_heap p) (p_graph p) vs P p.
Proof. split; [split; [apply traced_refl|exact HP]|]. intros E. congruence. Qed.
Lemma session_defined l : sized_solver SV -> Forall (lists_members VC (p_heap p) vs) fs -> 0 < total_cols VC (p_heap p) vs ->
  proper_session VC SV EV P vs p l -> forall k o, nth_error l k = Some o -> ~ undefined_call VC SV EV (orun VC SV EV p (firstn k l)) o.
Proof.
  intros (size & HS) HM HC Q. 
  apply (session_total VC SV EV Hok HE size HS l1 l2 h1 (p_heap p) g1 (p_graph p) fs vs P HF eq_refl eq_refl HM HC HW True
    (or_introl I) (or_introl I) (or_introl I) (or_introl I) l I p (good_start size) Q).
Qed.
Lemma optimize_returns : sized_solver SV -> Forall (lists_members VC (p_heap p) vs) fs -> 0 < total_cols VC (p_heap p) vs -> p_hasgraph p = true ->
  (forall f, In f fs -> exists r, f_res_ref f (p_heap p) = Ok r) -> exists p', optimize VC SV EV p = (p', Ok tt).
Proof.
  intros (size & HS) HM HC Hg HR.
  destruct (optimize_total VC SV EV Hok HE size HS l1 l2 h1 (p_heap p) g1 (p_graph p) fs vs P HF eq_refl eq_refl HM HC HW True
    (or_introl I) (or_introl I) (or_introl I) (or_introl I) p Hg (good_start size)) as [(q & Q & _)|(_ & _ & f & Hf & X)]; [eauto|exfalso].
  destruct (HR f Hf) as (r & E). exact (X r E).
Qed.
End Run.
Lemma active_total h vs (fs : list (factor (N:=N) (V:=V))) : Forall (factor_wf VC h vs) fs -> some_active VC h fs -> 0 < total_cols VC h vs.
Proof.
  intros W (f & a & v & Hf & Ha & Hv & Cv). rewrite Forall_forall in W. destruct (W f Hf) as (_ & B & _).
  destruct (B _ Ha) as (a' & v' & E & Hv' & D & _). inversion E; subst a'. assert (v' = v) as -> by congruence. destruct (D Cv) as (I & L).
  assert (Wd : 0 < width VC h a) by (rewrite (width_nonconst VC h a v); auto). clear - I Wd. unfold total_cols.
  induction vs as [|b t IH]; [contradiction|]. change (list_sum (map (width VC h) (b :: t))) with (width VC h b + list_sum (map (width VC h) t)).
  destruct I as [->|I]; [lia|]. specialize (IH I). lia.
Qed.
Lemma wf_members h vs (fs : list (factor (N:=N) (V:=V))) : Forall (factor_wf VC h vs) fs -> Forall (lists_members VC h vs) fs.
Proof.
  intros W. eapply Forall_impl; [|exact W]. intros f (_ & B & _) a v Ha Hv Cv. destruct (B _ Ha) as (a' & v' & E & Hv' & D & _).
  inversion E; subst a'. assert (v' = v) as -> by congruence. apply D. exact Cv.
Qed.
Lemma optimize_answers (P : @heap V -> Prop) l1 l2 h1 g1 (p : pstate) : sized_solver SV ->
  finalized_history VC l1 l2 h1 (p_heap p) g1 (p_graph p) -> unfinalized VC ([], empty_graph) l1 ->
  Forall (factor_wf VC (p_heap p) (get_all_variables (p_graph p))) (get_all_factors (p_graph p)) ->
  some_active VC (p_heap p) (get_all_factors (p_graph p)) -> Forall buf_indep (get_all_factors (p_graph p)) ->
  P (p_heap p) -> workable VC (get_all_factors (p_graph p)) P -> answering VC (get_all_factors (p_graph p)) P ->
  p_hvalid p = false -> p_hasgraph p = true -> exists p', optimize VC SV EV p = (p', Ok tt) /\ p_caught p' = false.
Proof.
  intros (size & HS) HF Hu Hwf Ha Hb HP HW [A1 A2 A3 A4] Hv Hg. set (fs := get_all_factors (p_graph p)) in *. set (vs := get_all_variables (p_graph p)) in *.
  assert (HM : Forall (lists_members VC (p_heap p) vs) fs) by (apply wf_members; exact Hwf).
  assert (HC : 0 < total_cols VC (p_heap p) vs) by (eapply active_total; eauto).
  destruct (optimize_total VC SV EV Hok HE size HS l1 l2 h1 (p_heap p) g1 (p_graph p) fs vs P HF eq_refl eq_refl HM HC HW False
    (or_intror A1)) with (p := p) as [(q & Q & [Cq|[]] & _)|([] & _)]; auto; [|apply good_start; auto|eauto].
  right. intros h g g' e I E.
  destruct (inv_facts VC Hok l1 l2 h1 (p_heap p) g1 (p_graph p) fs vs P HF eq_refl eq_refl h g I) as [(l2' & HF') Fi Sd Ff Fv Pr _].
  destruct I as [_ Ph]. pose proof (wk_factors _ _ _ HW h Ph) as Sf.
  assert (X : exists jss, Forall2 (fun f js => f_jac f h [] = (js, Ok tt) /\ blocks_ok VC h (f_rsize f) (f_vars f) js) (get_all_factors g) jss).
  { rewrite Ff. assert (J : forall f, In f fs -> exists js, f_jac f h [] = (js, Ok tt)) by (intros f Hf; apply A2; auto). clear - Sf J.
    induction Sf as [|f t (_ & _ & B) _ IH]; [exists []; constructor|]. destruct (J f (or_introl eq_refl)) as (js & Ej).
    destruct IH as (jss & Q); [intros; apply J; cbn; auto|]. exists (js :: jss). constructor; [|exact Q]. split; [exact Ej|].
    destruct (B [] (br_nil _)) as (_ & C). rewrite Ej in C. exact (C eq_refl). }
  destruct X as (jss & X). destruct (sparse_jacobian_ok VC Hok l1 l2' h1 h g1 g jss HF' Hu) as (g2 & Mx & E2 & _); auto.
  - rewrite Ff, Fv. eapply Forall_impl; [|exact Hwf]. intros f Hf. eapply wf_pres; [exact Pr| |exact Hf].
    pose proof (finalized_facts VC Hok _ _ _ _ _ _ HF) as (_ & Fin0 & _). exact (ri_live _ _ _ (fin_reg _ _ _ Fin0)).
  - rewrite Ff. destruct Ha as (f & a & v & B1 & B2 & B3 & B4). destruct (Pr a v B3) as (v' & E' & _ & _ & F). specialize (F eq_refl).
    exists f, a, v'. repeat split; auto. congruence.
  - rewrite Ff. exact Hb.
  - congruence.
Qed.
End Defined.

(** ** the LDL^T solver *)
Section LdltSize.
Context {N : num} (ord : mat N -> list nat).
Fixpoint tri (cs : columns (N:=N)) : Prop := match cs with [] => True | (_, c) :: t => length c = length t /\ tri t end.
Lemma vzip_len (f : N -> N -> N) a b : length a = length b -> length (vzip f a b) = length a.
Proof. intros L. unfold vzip. rewrite map_length, combine_length. lia. Qed.
Lemma lower_size (cs : columns (N:=N)) : forall b, tri cs -> length b = length cs -> length (ldlt_lower cs b) = length cs.
Proof.
  induction cs as [|[d c] cs IH]; intros [|x b] W L; try discriminate; auto. destruct W as [W1 W2]. injection L as L.
  cbn [ldlt_lower length]. f_equal. apply IH; auto. rewrite vzip_len; congruence.
Qed.
Lemma diag_size (cs : columns (N:=N)) : forall b, length b = length cs -> length (ldlt_diag cs b) = length cs.
Proof. induction cs as [|[d c] cs IH]; intros [|x b] L; try discriminate; auto. cbn [ldlt_diag length]. f_equal. apply IH. injection L; auto. Qed.
Lemma upper_size (cs : columns (N:=N)) : forall b, length b = length cs -> length (ldlt_upper cs b) = length cs.
Proof. induction cs as [|[d c] cs IH]; intros [|x b] L; try discriminate; auto. cbn [ldlt_upper length]. f_equal. apply IH. injection L; auto. Qed.
Lemma row_size (cs : columns (N:=N)) : forall y d, tri cs -> length y = length cs ->
  let '(cs', d') := ldlt_row cs y d in length cs' = length cs /\ tri (cs' ++ [(d', [])]).
Proof.
  induction cs as [|[D c] cs IH]; intros [|yi ys] d W L; try discriminate; [cbn; auto|]. destruct W as [W1 W2]. injection L as L.
  cbn [ldlt_row]. specialize (IH (vzip (fun v e => nsub v (nmul e yi)) ys c) (nsub d (nmul (ndiv yi D) yi)) W2).
  destruct (ldlt_row cs _ _) as [cs' d'] eqn:E. destruct IH as (A & C); [rewrite vzip_len; congruence|].
  cbn [length app tri]. split; [congruence|]. split; [|exact C]. rewrite !app_length, W1, A. reflexivity.
Qed.
Lemma factor_size (A : nat -> nat -> N) n : forall cs, ldlt_factor A n = (true, cs) -> length cs = n /\ tri cs.
Proof.
  induction n as [|n IH]; intros cs E; [injection E as <-; cbn; auto|].
  cbn [ldlt_factor] in E. destruct (ldlt_factor A n) as [[] c0]; [|discriminate]. destruct (IH c0 eq_refl) as (L & W).
  pose proof (row_size c0 (map (fun i => A i n) (seq 0 n)) (A n n) W) as B. destruct (ldlt_row c0 _ (A n n)) as [cs' d].
  destruct B as (B1 & B2); [rewrite map_length, seq_length; auto|]. injection E as E <-. split; [|exact B2]. rewrite app_length, B1, L. cbn. lia.
Qed.
Lemma ldlt_sized : (forall H, length (ord H) = mrows H) -> sized_solver (ldlt_solver ord).
Proof.
  intros Ho. exists (fun s n => lt_ok s = true -> length (lt_perm s) = n /\ length (lt_cols s) = n /\ tri (lt_cols s)). constructor; auto.
  - intros s H _. cbn [sv_compute ldlt_solver]. unfold ldlt_compute. destruct (ldlt_factor (ldlt_entry H (ord H)) (mrows H)) as [ok cs] eqn:E.
    cbn [lt_ok lt_perm lt_cols]. intros ->. destruct (factor_size _ _ _ E). auto.
  - intros s n Z Ok1. cbn. rewrite map_length. apply Z. exact Ok1.
  - intros s n b Z Ok1 L. destruct (Z Ok1) as (Z1 & Z2 & Z3). cbn [sv_solve ldlt_solver snd]. unfold ldlt_apply. rewrite map_length, seq_length.
    rewrite upper_size; [exact Z2|]. apply diag_size. apply lower_size; [exact Z3|]. rewrite map_length. congruence.
  - intros s n B Z L Ok1. cbn. split; [apply Z; exact Ok1|reflexivity].
Qed.
End LdltSize.

(** ** the library's classes *)
Section Lib.
Context {N : num}.
Notation heap := (@heap (lvar N)).
Notation factor := (factor (N:=N) (V:=lvar N)).
Lemma kset_sized (k : kind N) x : length x = ksize k -> exists k', kset k x = Ok k'.
Proof.
  destruct k; cbn [kset ksize]; intros L; try rewrite L; try (eexists; reflexivity).
  - rewrite Nat.eqb_refl. eexists; reflexivity.
  - destruct (to_v3 x) as [w| |] eqn:W; [eexists; reflexivity|exfalso..]; unfold to_v3 in W; rewrite L in W; discriminate.
  - unfold clip0. destruct x as [|a t]; [discriminate|]. eexists; reflexivity.
Qed.
Lemma kinc_sized (k : kind N) x : in_shape k -> length x = ksize k -> exists k', kinc k x = Ok k'.
Proof.
  intros S L. destruct (kinc k x) as [k'|e|u] eqn:E; [eauto| |exfalso; eapply kinc_defined; eauto]. exfalso.
  unfold in_shape in S. destruct k; cbn [kinc ksize kval] in *; try (rewrite L in E); try discriminate.
  - rewrite Nat.eqb_refl in E. discriminate.
  - cbn [Nat.eqb] in E. unfold vec_plus in E. rewrite S, L in E. discriminate.
  - cbn [Nat.eqb] in E. rewrite S in E. discriminate.
  - unfold to_v3 in E. rewrite L in E. discriminate.
  - cbn [Nat.eqb] in E. unfold vec_plus in E. rewrite S, L in E. cbn [Nat.eqb obind] in E. unfold clip0, vadd, vzip in E. destruct x as [|p [|]]; try discriminate. destruct x0; discriminate.
Qed.
Lemma usable_moved fs (h : heap) a v v' : usable fs h -> nth_error h a = Some v -> same_class (l_kind v) (l_kind v') -> in_shape (l_kind v') -> usable fs (lupd a v' h).
Proof.
  intros [S W] Ha C I'. pose proof (hupd_kept h a (fun _ => Ok v') (lupd a v' h) (Ok tt) S) as K.
  destruct K as (E & S').
  - intros w w' Hw F. inversion F; subst. assert (w = v) as -> by congruence. auto.
  - unfold hupd, hget. rewrite Ha. reflexivity.
  - split; [exact S'|]. eapply Forall_impl; [|exact W]. intros f (lf & -> & U). exists lf. split; [reflexivity|]. eapply well_used_kept; eauto.
Qed.
Lemma with_kind_some (v : lvar N) o k : o = Ok k -> exists v', with_kind v o = Ok v' /\ l_kind v' = k.
Proof. intros ->. eexists. split; reflexivity. Qed.
Lemma lib_inc (v : lvar N) x : in_shape (l_kind v) -> length x = vsize (lib N) v -> exists v', vinc (lib N) v x = Ok v' /\ same_class (l_kind v) (l_kind v') /\ in_shape (l_kind v').
Proof.
  intros S L. destruct (kinc_sized (l_kind v) x S L) as (k & E). destruct (with_kind_some v _ k E) as (v' & E' & <-). exists v'. split; [exact E'|]. eapply kinc_keeps; eauto.
Qed.
Lemma lib_set (v : lvar N) x : length x = vsize (lib N) v -> exists v', vset (lib N) v x = Ok v' /\ same_class (l_kind v) (l_kind v') /\ in_shape (l_kind v').
Proof.
  intros L. destruct (kset_sized (l_kind v) x L) as (k & E). destruct (with_kind_some v _ k E) as (v' & E' & <-). exists v'. split; [exact E'|]. eapply kset_keeps; eauto.
Qed.
Lemma lib_workable (fs : list factor) : workable (lib N) fs (usable fs).
Proof.
  constructor.
  - intros h [_ W]. eapply Forall_impl; [|exact W]. intros f (lf & -> & U). apply lib_safe. exact U.
  - intros h a v [S _] Ha. exact (S a v Ha).
  - intros h a v x U Ha L. destruct (lib_inc v x (proj1 U a v Ha) L) as (v' & E & C & I'). rewrite E. split; [discriminate|]. intros w F. inversion F; subst. eapply usable_moved; eauto.
  - intros h a v x U Ha L. destruct (lib_set v x L) as (v' & E & C & I'). rewrite E. split; [discriminate|]. intros w F. inversion F; subst. eapply usable_moved; eauto.
Qed.
Lemma lib_residual (fs : list factor) (h : heap) f : usable fs h -> In f fs -> exists r, f_res_ref f h = Ok r.
Proof.
  intros [_ W] Hf. rewrite Forall_forall in W. destruct (W f Hf) as (lf & -> & U). destruct (residual_size_ok lf h U) as (r & Hr & _). rewrite overloads_agree in Hr. eauto.
Qed.
(** heaps on which moreover no Jacobian can be refused *)
Definition steady (fs : list factor) (h : heap) : Prop := shapely h /\ Forall (fun f => exists lf, f = build lf /\ well_used h lf /\ ~ may_refuse lf) fs.
Lemma steady_usable fs h : steady fs h -> usable fs h.
Proof. intros [S W]. split; [exact S|]. eapply Forall_impl; [|exact W]. intros f (lf & E & U & _). eauto. Qed.
Lemma steady_moved fs (h : heap) a v v' : steady fs h -> nth_error h a = Some v -> same_class (l_kind v) (l_kind v') -> in_shape (l_kind v') -> steady fs (lupd a v' h).
Proof.
  intros [S W] Ha C I'. pose proof (hupd_kept h a (fun _ => Ok v') (lupd a v' h) (Ok tt) S) as K.
  destruct K as (E & S').
  - intros w w' Hw F. inversion F; subst. assert (w = v) as -> by congruence. auto.
  - unfold hupd, hget. rewrite Ha. reflexivity.
  - split; [exact S'|]. eapply Forall_impl; [|exact W]. intros f (lf & -> & U & NR). exists lf. split; [reflexivity|]. split; [eapply well_used_kept; eauto|exact NR].
Qed.
Lemma steady_workable (fs : list factor) : workable (lib N) fs (steady fs).
Proof.
  constructor.
  - intros h [_ W]. eapply Forall_impl; [|exact W]. intros f (lf & -> & U & _). apply lib_safe. exact U.
  - intros h a v [S _] Ha. exact (S a v Ha).
  - intros h a v x U Ha L. destruct (lib_inc v x (proj1 U a v Ha) L) as (v' & E & C & I'). rewrite E. split; [discriminate|]. intros w F. inversion F; subst. eapply steady_moved; eauto.
  - intros h a v x U Ha L. destruct (lib_set v x L) as (v' & E & C & I'). rewrite E. split; [discriminate|]. intros w F. inversion F; subst. eapply steady_moved; eauto.
Qed.
Lemma lib_answering (fs : list factor) : answering (lib N) fs (steady fs).
Proof.
  constructor.
  - intros h f U Hf. eapply lib_residual; [apply steady_usable; exact U|exact Hf].
  - intros h f [_ W] Hf. rewrite Forall_forall in W. destruct (W f Hf) as (lf & -> & U & NR).
    destruct (const_prior_dec h lf U) as [C|C].
    + destruct lf; try contradiction. destruct C as (v & Hv & C). cbn [build]. rewrite (constant_prior_jac _ _ _ _ _ _ _ Hv C). eauto.
    + destruct (jac_shapes lf h [] U C) as [(J & -> & _)|(M & _)]; [apply reach_not_odd; constructor|eauto|].
      exfalso. exact (NR M).
  - intros h a v x U Ha L. destruct (lib_inc v x (proj1 U a v Ha) L) as (v' & E & _). eauto.
  - intros h a v x U Ha L. destruct (lib_set v x L) as (v' & E & _). eauto.
Qed.
Lemma usable_new (fs : list factor) (h : heap) v : usable fs h -> in_shape (l_kind v) -> usable fs (h ++ [v]).
Proof.
  intros [S W] Hi.
  assert (E : extends h (h ++ [v])) by (intros a w Hw; exists w; rewrite nth_error_app1 by (apply nth_error_Some; congruence); split; [exact Hw|apply same_class_refl]).
  assert (S' : shapely (h ++ [v])).
  { intros a w Hw. destruct (Nat.lt_ge_cases a (length h)) as [L|L]; [rewrite nth_error_app1 in Hw by exact L; exact (S _ _ Hw)|].
    rewrite nth_error_app2 in Hw by exact L. destruct (a - length h) as [|k]; [|destruct k; discriminate]. inversion Hw; subst. exact Hi. }
  split; [exact S'|]. eapply Forall_impl; [|exact W]. intros f (lf & -> & U). exists lf. split; [reflexivity|]. eapply well_used_kept; eauto.
Qed.
Section LibRun.
Context {S : Type} (SV : solver N S) (EV : nat -> env (N:=N) (V:=lvar N)).
Hypothesis HE : forall n, env_ok (EV n).
Context (l1 l2 : list (env (N:=N) (V:=lvar N) * op (N:=N) (V:=lvar N))) (h1 : heap) (g1 : graph (N:=N) (V:=lvar N)) (p : pstate (N:=N) (V:=lvar N) (S:=S)).
Notation fs := (get_all_factors (p_graph p)).
Notation vs := (get_all_variables (p_graph p)).
Hypothesis HZ : sized_solver SV.
Hypothesis HF : finalized_history (lib N) l1 l2 h1 (p_heap p) g1 (p_graph p).
Hypothesis C1 : careful ([], empty_graph) l1.
Hypothesis C2 : careful (h1, g1) l2.
Hypothesis Hv : p_hvalid p = false.
Lemma history_usable : usable fs (p_heap p).
Proof. exact (sound_history _ _ _ _ _ _ HF C1 C2). Qed.
Lemma lib_session_defined l : Forall (lists_members (lib N) (p_heap p) vs) fs -> 0 < total_cols (lib N) (p_heap p) vs ->
  proper_session (lib N) SV EV (usable fs) vs p l -> forall k o, nth_error l k = Some o -> ~ undefined_call (lib N) SV EV (orun (lib N) SV EV p (firstn k l)) o.
Proof. intros HM HC. exact (session_defined (lib N) SV EV lib_ok HE (usable fs) l1 l2 h1 g1 p HF history_usable (lib_workable fs) Hv l HZ HM HC). Qed.
Lemma lib_optimize_returns : Forall (lists_members (lib N) (p_heap p) vs) fs -> 0 < total_cols (lib N) (p_heap p) vs -> p_hasgraph p = true ->
  exists p', optimize (lib N) SV EV p = (p', Ok tt).
Proof.
  intros HM HC Hg. apply (optimize_returns (lib N) SV EV lib_ok HE (usable fs) l1 l2 h1 g1 p HF history_usable (lib_workable fs) Hv HZ HM HC Hg).
  intros f Hf. eapply lib_residual; [exact history_usable|exact Hf].
Qed.
Lemma lib_optimize_answers : unfinalized (lib N) ([], empty_graph) l1 -> Forall (factor_wf (lib N) (p_heap p) vs) fs -> some_active (lib N) (p_heap p) fs ->
  Forall (fun f => exists lf, f = build lf /\ well_used (p_heap p) lf /\ ~ may_refuse lf) fs -> p_hasgraph p = true ->
  exists p', optimize (lib N) SV EV p = (p', Ok tt) /\ p_caught p' = false.
Proof.
  intros Hu Hw Ha NR Hg. apply (optimize_answers (lib N) SV EV lib_ok HE (steady fs) l1 l2 h1 g1 p); auto.
  - eapply Forall_impl; [|exact (proj2 history_usable)]. intros f (lf & -> & _). apply lib_buf_indep.
  - split; [exact (proj1 history_usable)|exact NR].
  - apply steady_workable.
  - apply lib_answering.
Qed.
End LibRun.
End Lib.
