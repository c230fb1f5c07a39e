(** Covariances: what a valid result says about the history of calls, and its value with an exact solver. *)
From Coq Require Import List Arith ZArith QArith Bool Lia Permutation Reals Lra.
From Verif Require Import Base Sparse Graph SpecGraph SpecOpt ListLemmas GraphLayout GraphFin GraphBasic GraphVec Optimizer OptLemmas OptWork OptLM OptRun OptMore Real.
Import ListNotations.
Local Open Scope nat_scope.

Section Cov.
Context {N : num} {V : Type} (VC : vclass N V) {S : Type} (SV : solver N S).
Notation graph := (graph (N:=N) (V:=V)).
Notation env := (env (N:=N) (V:=V)).
Notation pstate := (pstate (N:=N) (V:=V) (S:=S)).
Notation oop := (oop (N:=N) (V:=V)).
Context (EV : nat -> env).
Hypothesis HE : forall n, env_ok (EV n).

Definition no_setup (l : list oop) : Prop := forall b st, ~ In (OSetup b st) l.
Lemma orun_snoc p l o : orun VC SV EV p (l ++ [o]) = ostep VC SV EV (orun VC SV EV p l) o.
Proof. unfold orun. rewrite fold_left_app. reflexivity. Qed.
Lemma frames_loop n : forall p p' r, opt_loop VC SV EV n p = (p', r) -> p_complete p' = p_complete p /\ p_hvalid p' = p_hvalid p.
Proof.
  induction n; intros p p' r E; cbn [opt_loop] in E; [inversion E; subst; auto|].
  destruct (one_step VC SV EV p) as [p1 o] eqn:E1. apply (frames_one VC SV EV HE) in E1. destruct E1 as (_ & _ & _ & _ & F1 & F2 & _).
  destruct o as [[]|e|u]; try (inversion E; subst; auto; fail).
  destruct (ss_status (p_cur p1)); try (inversion E; subst; auto; fail);
  repeat match type of E with (if ?b then _ else _) = _ => destruct b end; try (inversion E; subst; auto; fail);
  apply IHn in E; destruct E; split; congruence.
Qed.
Lemma optimize_flags p p' r : optimize VC SV EV p = (p', r) -> p_hvalid p' = p_hvalid p /\ (p_complete p' = p_complete p \/ r = Ok tt).
Proof.
  intros E. unfold optimize in E. destruct (negb _); [inversion E; subst; auto|].
  destruct (compute_residual _ _ _) as [g o]. destruct o as [r0|e|u]; try (inversion E; subst; auto; fail).
  match type of E with context [opt_loop _ _ _ ?n ?q] => destruct (opt_loop VC SV EV n q) as [p2 o] eqn:E2 end.
  apply frames_loop in E2. destruct E2 as (A & B). destruct o as [[]|e|u]; inversion E; subst; simpl in *; auto.
  split; auto. destruct (ss_status (p_cur p2)); exact B.
Qed.
Lemma prepare_flags (p p' : pstate) r : prepare SV p = (p', r) -> p_complete p' = p_complete p /\ (p_hvalid p' = p_hvalid p \/ p_complete p = true) /\
  p_heap p' = p_heap p /\ p_graph p' = p_graph p.
Proof.
  intros E. unfold prepare in E. destruct (p_hvalid p) eqn:Hv; [inversion E; subst; auto|].
  destruct (p_complete p) eqn:Hc; simpl in E; [|inversion E; subst; auto].
  unfold mbind in E. destruct (omap _ _) as [J|e|u]; try (inversion E; subst; auto; fail). simpl in E.
  destruct (sv_ok SV _); simpl in E; [|inversion E; subst; auto].
  unfold lift in E. destruct (vmin _) as [mn|e|u]; inversion E; subst; auto.
Qed.
Lemma estimate_flags q (p p' : pstate) r : estimate_covariance VC SV q p = (p', r) ->
  p_complete p' = p_complete p /\ p_hvalid p' = p_hvalid p /\ p_heap p' = p_heap p /\ p_graph p' = p_graph p.
Proof.
  unfold estimate_covariance. destruct q as [a|]; [|intros E; inversion E; subst; auto]. destruct (hget _ _) as [v|e|u]; [|intros E; inversion E; subst; auto..].
  destruct (_ || _); [intros E; inversion E; subst; auto|]. destruct (negb (p_complete p)); [intros E; inversion E; subst; auto|].
  destruct (_ || _); [intros E; inversion E; subst; auto|]. destruct (variable_placement _ _) as [pl|]; [|intros E; inversion E; subst; auto].
  destruct (negb _); [intros E; inversion E; subst; auto|]. cbv zeta. destruct (sv_solve_mat _ _ _) as [s X].
  destruct (negb _); [intros E; inversion E; subst; auto|]. destruct (negb _); [intros E; inversion E; subst; auto|].
  destruct (negb _); [intros E; inversion E; subst; auto|]. destruct (vmax _) as [mx|e|u]; [|intros E; inversion E; subst; auto..].
  destruct (nltb _ _); intros E; inversion E; subst; auto.
Qed.

(** an optimize() call that returned normally, with no setup() afterwards *)
Definition completed (p0 : pstate) (l : list oop) : Prop :=
  exists l1 l2, l = l1 ++ OOptimize :: l2 /\ no_setup l2 /\ snd (optimize VC SV EV (orun VC SV EV p0 l1)) = Ok tt.
Definition prepared (p0 : pstate) (l : list oop) : Prop :=
  exists l1 l2 l3, l = l1 ++ OOptimize :: l2 ++ OPrepare :: l3 /\ no_setup l2 /\ no_setup l3 /\
    snd (optimize VC SV EV (orun VC SV EV p0 l1)) = Ok tt.
Lemma completed_snoc p0 l o : (forall b st, o <> OSetup b st) -> completed p0 l -> completed p0 (l ++ [o]).
Proof.
  intros Ho (l1 & l2 & -> & H & E). exists l1, (l2 ++ [o]). split; [rewrite <- app_assoc; reflexivity|]. split; auto.
  intros b st Hin. apply in_app_or in Hin. destruct Hin as [Hin|[Hin|[]]]; [eapply H; eauto|eapply Ho; eauto].
Qed.
Lemma prepared_snoc p0 l o : (forall b st, o <> OSetup b st) -> prepared p0 l -> prepared p0 (l ++ [o]).
Proof.
  intros Ho (l1 & l2 & l3 & -> & H & H3 & E). exists l1, l2, (l3 ++ [o]). split; [rewrite <- app_assoc; simpl; rewrite <- app_assoc; reflexivity|].
  split; auto. split; auto.
  intros b st Hin. apply in_app_or in Hin. destruct Hin as [Hin|[Hin|[]]]; [eapply H3; eauto|eapply Ho; eauto].
Qed.
Lemma flags_history p0 l : p_complete p0 = false -> p_hvalid p0 = false ->
  (p_complete (orun VC SV EV p0 l) = true -> completed p0 l) /\ (p_hvalid (orun VC SV EV p0 l) = true -> prepared p0 l).
Proof.
  intros H1 H2. induction l as [|o l [IH1 IH2]] using rev_ind; [simpl; split; congruence|].
  rewrite orun_snoc. set (p := orun VC SV EV p0 l) in *. destruct o; cbn [ostep].
  - destruct (step VC (EV (p_tick p)) (p_heap p, p_graph p) o) as [[h g] ans]. simpl. split; intros H; [apply completed_snoc|apply prepared_snoc]; auto; discriminate.
  - simpl. split; discriminate.
  - destruct (optimize VC SV EV p) as [p' r] eqn:E. apply optimize_flags in E as F. destruct F as (F1 & F2). simpl. split; intros H.
    + destruct F2 as [F2| ->]; [apply completed_snoc; [discriminate|apply IH1; congruence]|].
      exists l, []. split; auto. split; [intros b st []|]. fold p. rewrite E. reflexivity.
    + apply prepared_snoc; [discriminate|]. apply IH2. congruence.
  - destruct (prepare SV p) as [p' r] eqn:E. apply prepare_flags in E. destruct E as (F1 & F2 & _). simpl. split; intros H.
    + apply completed_snoc; [discriminate|]. apply IH1. congruence.
    + destruct F2 as [F2|F2]; [apply prepared_snoc; [discriminate|]; apply IH2; congruence|].
      apply IH1 in F2. destruct F2 as (l1 & l2 & -> & A & B). exists l1, l2, []. split; [rewrite <- app_assoc; reflexivity|]. split; auto. split; auto. intros b st [].
  - destruct (estimate_covariance VC SV q p) as [p' r] eqn:E. apply estimate_flags in E. destruct E as (F1 & F2 & _). simpl. split; intros H.
    + apply completed_snoc; [discriminate|]. apply IH1. congruence.
    + apply prepared_snoc; [discriminate|]. apply IH2. congruence.
Qed.

(** what estimate_covariance checks *)
Lemma estimate_inv a (p p' : pstate) P : estimate_covariance VC SV (Some a) p = (p', Ok (Some P)) ->
  exists v pl s X, nth_error (p_heap p) a = Some v /\ vconst VC v = false /\ 0 < vsize VC v /\ p_complete p = true /\ p_hvalid p = true /\
    variable_placement (p_graph p) (vid VC v) = Some pl /\ vp_index pl + vp_dim pl <= mrows (p_hess p) /\
    sv_solve_mat SV (p_solver p) (Mat (mrows (p_hess p)) (vp_dim pl) (fun i j => if (i =? vp_index pl + j)%nat then nlit 1 else nzero)) = (s, X) /\
    sv_ok SV s = true /\ p' = w_solver s p /\
    let P0 := Mat (vp_dim pl) (vp_dim pl) (fun i j => mat_at X (vp_index pl + i) j) in
    P = symmetrise P0 /\ all_finite P0 = true /\ exists mx, vmax (diag_of P0) = Ok mx /\ nltb cov_limit mx = false.
Proof.
  unfold estimate_covariance, hget. destruct (nth_error (p_heap p) a) as [v|] eqn:Hv; [|discriminate].
  destruct (vconst VC v) eqn:Hc; simpl; [discriminate|]. destruct (Nat.eqb_spec (vsize VC v) 0) as [Hz|Hz]; simpl; [discriminate|].
  destruct (p_complete p); simpl; [|discriminate]. destruct (p_hvalid p); simpl; [|discriminate].
  destruct (_ || _)%bool; [discriminate|]. destruct (variable_placement _ _) as [pl|] eqn:Hpl; [|discriminate].
  destruct (Nat.leb_spec (vp_index pl + vp_dim pl) (mrows (p_hess p))) as [Hle|]; simpl; [|discriminate].
  destruct (sv_solve_mat _ _ _) as [s X] eqn:Es. destruct (sv_ok SV s) eqn:Eo; simpl; [|discriminate].
  destruct (negb _); [discriminate|]. destruct (all_finite _) eqn:Ef; simpl; [|discriminate].
  destruct (vmax _) as [mx|e|u] eqn:Em; try discriminate. destruct (nltb _ mx) eqn:Ex; [discriminate|].
  intros E. inversion E; subst. exists v, pl, s, X. repeat (split; [auto; try lia|]). eauto.
Qed.
Lemma vmax_bound (HC : cov_order N) l mx : Forall (fun x : N => nfinite x = true) l -> vmax l = Ok mx -> nltb cov_limit mx = false ->
  Forall (fun x => nltb cov_limit x = false) l.
Proof.
  destruct l as [|x t]; [discriminate|]. simpl. intros Hf E. injection E as <-. inversion_clear Hf as [|? ? Hx Ht].
  revert x Hx. induction t as [|y t IH]; simpl; intros x Hx H; [auto|].
  inversion_clear Ht as [|? ? Hy Ht']. destruct (nltb x y) eqn:Exy.
  - specialize (IH Ht' y Hy H). inversion_clear IH as [|? ? A B]. constructor; [|constructor; auto].
    destruct (nltb cov_limit x) eqn:Ex; auto. rewrite (cv_lt HC x y Ex Exy) in A. discriminate.
  - specialize (IH Ht' x Hx H). inversion_clear IH as [|? ? A B]. constructor; auto. constructor; auto.
    apply (cv_trans HC x y); auto.
Qed.
Hypothesis Hok : vclass_ok VC.
Theorem covariance_guarded s st l a p P : cov_order N -> orun VC SV EV (ostart s st) l = p ->
  snd (estimate_covariance VC SV (Some a) p) = Ok (Some P) ->
  (exists v pl, nth_error (p_heap p) a = Some v /\ vconst VC v = false /\ 0 < vsize VC v /\
     variable_placement (p_graph p) (vid VC v) = Some pl /\ mrows P = vp_dim pl /\ mcols P = vp_dim pl) /\
  prepared (ostart s st) l /\
  (forall i, i < mrows P -> nltb cov_limit (mat_at P i i) = false) /\
  (forall l1 l2 h1 g1 v, finalized_history VC l1 l2 h1 (p_heap p) g1 (p_graph p) -> In a (get_all_variables (p_graph p)) ->
     nth_error (p_heap p) a = Some v -> mrows P = vsize VC v /\ mcols P = vsize VC v).
Proof.
  intros HC Hp E. destruct (estimate_covariance VC SV (Some a) p) as [p' r] eqn:E1. simpl in E. subst r.
  apply estimate_inv in E1. destruct E1 as (v & pl & s' & X & A1 & A2 & A3 & A4 & A5 & A6 & A7 & A8 & A9 & A10 & A11 & A12 & mx & A13 & A14).
  subst P. simpl. split; [exists v, pl; auto 10|]. split; [|split].
  - subst p. apply flags_history in A5; auto.
  - intros i Hi. rewrite Nat.leb_refl. clear A8. set (P0 := Mat _ _ _) in *.
    assert (Hfin : forall k, k < vp_dim pl -> nfinite (mat_at P0 k k) = true).
    { intros k Hk. unfold all_finite in A12. rewrite forallb_forall in A12. specialize (A12 k). rewrite forallb_forall in A12.
      apply A12; apply in_seq; simpl; lia. }
    assert (F : Forall (fun x => nltb cov_limit x = false) (diag_of P0)).
    { eapply vmax_bound; eauto. unfold diag_of. apply Forall_forall. intros x Hx. apply in_map_iff in Hx. destruct Hx as (k & <- & Hk). apply in_seq in Hk. apply Hfin. simpl in Hk. lia. }
    change (nltb cov_limit (nmul (nlit (1#2)) (nadd (mat_at P0 i i) (mat_at P0 i i))) = false).
    apply (cv_half HC); [apply Hfin; auto|]. rewrite Forall_forall in F. apply F. unfold diag_of. apply in_map_iff. exists i. split; auto. apply in_seq. simpl. lia.
  - intros l1 l2 h1 g1 w HF Hin Hw. destruct (columns_tile VC Hok _ _ _ _ _ _ HF) as (_ & T & _).
    apply In_nth_error in Hin. destruct Hin as (k & Hk). specialize (T k a Hk). rewrite A1 in Hw. inversion Hw; subst w.
    unfold idz in T. rewrite A1 in T. rewrite A6 in T. inversion T. simpl. unfold width. rewrite A1, A2. auto.
Qed.
End Cov.
