(** The optimiser on twin states. *)
From Coq Require Import List Arith ZArith QArith Bool Lia.
From Verif Require Import Base Sparse Graph Optimizer ListLemmas SpecTwin TwinGraph.
Import ListNotations.
Local Open Scope nat_scope.

Section TwinRun.
Context {N : num} {V : Type} (VC : vclass N V) {S : Type} (SV : solver N S).
Context (RV : addr -> V -> V -> Prop) (XR : addr -> list N -> list N -> Prop).
Hypothesis T : twinned VC RV XR.
Context (EV EV' : nat -> env (N:=N) (V:=V)).
Hypothesis HE : forall n, same_env RV (EV n) (EV' n).
Notation pstate := (pstate (N:=N) (V:=V) (S:=S)).
Notation M := (M (N:=N) (V:=V) (S:=S)).
Notation heaps := (heaps RV).
Notation graphs := (graphs (N:=N) RV).
Notation states := (states (N:=N) RV (S:=S)).

Definition mrel {A} (P : A -> A -> Prop) (m m' : M A) : Prop :=
  forall p p', states p p' -> states (fst (m p)) (fst (m' p')) /\ alike P (snd (m p)) (snd (m' p')).
Lemma mbind_rel {A B} (P : A -> A -> Prop) (Q : B -> B -> Prop) (m m' : M A) (f f' : A -> M B) :
  mrel P m m' -> (forall a a', P a a' -> mrel Q (f a) (f' a')) -> mrel Q (mbind m f) (mbind m' f').
Proof.
  intros H K p p' Hp. specialize (H p p' Hp). unfold mbind. destruct (m p) as [q [a|e|u]], (m' p') as [q' [a'|e'|u']]; cbn in *; destruct H as (Hq & X); try contradiction; auto.
  apply (K a a' X q q' Hq).
Qed.
Lemma ret_rel {A} (P : A -> A -> Prop) a a' : P a a' -> mrel P (ret a) (ret a').
Proof. intros H p p' Hp. cbn. auto. Qed.
Lemma get_rel {A} (f : pstate -> A) : (forall p p', states p p' -> f p = f p') -> mrel eq (get f) (get f).
Proof. intros H p p' Hp. cbn. auto. Qed.
Lemma lift_rel {A} (o : outcome A) : mrel eq (lift o) (lift o).
Proof. intros p p' Hp. cbn. split; auto. apply alike_refl. Qed.
Lemma upd_rel f f' : (forall p p', states p p' -> states (f p) (f' p')) -> mrel eq (mupd f) (mupd f').
Proof. intros H p p' Hp. cbn. auto. Qed.
Ltac ssplit H := destruct H as [Sh Sg S1 S2 S3 S4 S5 S6 S7 S8 S9 S10 S11 S12 S13 S14].
Ltac swrap := constructor; cbn; auto; try congruence.

Lemma residual1_rel : mrel eq (m_residual1 EV) (m_residual1 EV').
Proof.
  intros p p' Hp. ssplit Hp. unfold m_residual1. rewrite <- S8, <- S11, <- (residual_into_pair RV (EV (p_tick p)) (EV' (p_tick p)) _ _ _ _ _ (HE _) Sh Sg).
  destruct (compute_residual_into _ _ _ _) as [buf r]. cbn. split; [swrap|apply alike_refl].
Qed.
Lemma residual2_rel : mrel eq (m_residual2 EV) (m_residual2 EV').
Proof.
  intros p p' Hp. ssplit Hp. unfold m_residual2. rewrite <- S9, <- S11, <- (residual_into_pair RV (EV (p_tick p)) (EV' (p_tick p)) _ _ _ _ _ (HE _) Sh Sg).
  destruct (compute_residual_into _ _ _ _) as [buf r]. cbn. split; [swrap|apply alike_refl].
Qed.
Lemma sparse_rel : mrel eq (m_sparse VC) (m_sparse VC).
Proof.
  intros p p' Hp. ssplit Hp. unfold m_sparse. destruct (sparse_pair VC RV XR T _ _ _ _ Sh Sg) as (A & B).
  destruct (compute_sparse VC (p_heap p) (p_graph p)) as [g o], (compute_sparse VC (p_heap p') (p_graph p')) as [g' o']. cbn in *. subst o'. split; [swrap|apply alike_refl].
Qed.
Lemma factorize_rel H : mrel eq (m_factorize SV H) (m_factorize SV H).
Proof. intros p p' Hp. ssplit Hp. unfold m_factorize. rewrite <- S10. cbn. split; [swrap|reflexivity]. Qed.
Lemma solve_rel b : mrel eq (m_solve SV b) (m_solve SV b).
Proof. intros p p' Hp. ssplit Hp. unfold m_solve. rewrite <- S10. destruct (sv_solve SV (p_solver p) b). cbn. split; [swrap|reflexivity]. Qed.
Lemma vars_same g g' : graphs g g' -> get_all_variables g = get_all_variables g'.
Proof. intros (_ & H & _). exact H. Qed.
Lemma apply_rel d : mrel eq (m_apply VC d) (m_apply VC d).
Proof.
  intros p p' Hp. ssplit Hp. unfold m_apply. rewrite <- (vars_same _ _ Sg).
  destruct (inc_loop_pair VC RV XR T false _ _ (get_all_variables (p_graph p)) d Sg _ _ Sh) as (A & B).
  destruct (inc_loop VC false (p_heap p) _ _ d) as [h o], (inc_loop VC false (p_heap p') _ _ d) as [h' o']. cbn in *. subst o'. split; [swrap|apply alike_refl].
Qed.
Lemma fail_rel st : mrel eq (m_fail st) (m_fail st).
Proof. apply upd_rel. intros p p' Hp. ssplit Hp. swrap. Qed.
Lemma status_rel st : mrel eq (m_status st) (m_status st).
Proof. apply upd_rel. intros p p' Hp. ssplit Hp. swrap. Qed.
Lemma lambda_rel l : mrel eq (m_lambda l) (m_lambda l).
Proof. apply upd_rel. intros p p' Hp. ssplit Hp. swrap. Qed.
Lemma record_rel d r : mrel eq (m_record d r) (m_record d r).
Proof. apply upd_rel. intros p p' Hp. ssplit Hp. swrap. Qed.
Ltac getr := apply get_rel; intros ? ? Hgp; ssplit Hgp; congruence.
Ltac bindr t := eapply mbind_rel; [t|]; intros ? ? Heq; try subst.

Lemma gn_rel : mrel eq (gn_step VC SV EV) (gn_step VC SV EV').
Proof.
  unfold gn_step. bindr ltac:(apply residual1_rel). bindr ltac:(apply sparse_rel). bindr ltac:(getr). bindr ltac:(apply lift_rel). bindr ltac:(apply factorize_rel).
  match goal with |- mrel _ (if ?b then _ else _) _ => destruct b end; [apply fail_rel|]. bindr ltac:(getr). bindr ltac:(apply lift_rel). bindr ltac:(apply lift_rel).
  match goal with |- mrel _ (if ?b then _ else _) _ => destruct b end; [apply fail_rel|]. match goal with |- mrel _ (if ?b then _ else _) _ => destruct b end; [apply fail_rel|].
  bindr ltac:(apply solve_rel). match goal with |- mrel _ (if ?b then _ else _) _ => destruct b end; [apply fail_rel|]. bindr ltac:(getr).
  bindr ltac:(apply apply_rel). bindr ltac:(apply residual2_rel). bindr ltac:(getr). apply record_rel.
Qed.

(** values stored before a trial step *)
Fixpoint vals (vs : list addr) (xs xs' : list (list N)) : Prop :=
  match vs, xs, xs' with
  | [], [], [] => True
  | a :: vs, x :: xs, x' :: xs' => XR a x x' /\ vals vs xs xs'
  | _, _, _ => False
  end.
Lemma values_pair h h' vs : heaps h h' -> alike (vals vs) (values_of VC h vs) (values_of VC h' vs).
Proof.
  intros H. induction vs as [|a vs IH]; cbn; [exact I|]. eapply alike_bind; [apply (hget_pair RV); exact H|]. intros v v' Hv. eapply alike_bind; [exact IH|].
  intros xs xs' X. cbn. split; auto. apply (tw_value _ _ _ T). exact Hv.
Qed.
Lemma restore_pair vs : forall xs xs' h h', vals vs xs xs' -> heaps h h' ->
  heaps (fst (restore_loop VC h vs xs)) (fst (restore_loop VC h' vs xs')) /\ snd (restore_loop VC h vs xs) = snd (restore_loop VC h' vs xs').
Proof.
  induction vs as [|a vs IH]; intros [|x xs] [|x' xs'] h h' X H; cbn in X; try contradiction; cbn; auto. destruct X as (X1 & X2).
  destruct (hupd_pair RV h h' a (fun v => vset VC v x) (fun v => vset VC v x') H) as (A & B); [intros v v' Hv; apply (tw_set _ _ _ T); auto|].
  destruct (hupd h a (fun v => vset VC v x)) as [h1 [[]|e|u]], (hupd h' a (fun v => vset VC v x')) as [h1' [[]|e'|u']]; cbn in A, B; try discriminate; auto.
Qed.
Definition vals_of (xs xs' : list addr * list (list N)) : Prop := fst xs = fst xs' /\ vals (fst xs) (snd xs) (snd xs').

Lemma up_rel : mrel eq m_up m_up.
Proof.
  intros p p' Hp. unfold m_up. ssplit Hp. rewrite <- S1, <- S4. apply lambda_rel. swrap.
Qed.

(** on states in which the variable list is [vs] *)
Definition mrelw (vs : list addr) {A} (P : A -> A -> Prop) (m m' : M A) : Prop :=
  forall p p', states p p' -> get_all_variables (p_graph p) = vs -> states (fst (m p)) (fst (m' p')) /\ alike P (snd (m p)) (snd (m' p')).
Lemma weak_rel vs {A} (P : A -> A -> Prop) (m m' : M A) : mrel P m m' -> mrelw vs P m m'.
Proof. intros H p p' Hp _. apply H. exact Hp. Qed.
Lemma each_relw {A} (P : A -> A -> Prop) (m m' : M A) : (forall vs, mrelw vs P m m') -> mrel P m m'.
Proof. intros H p p' Hp. exact (H _ p p' Hp eq_refl). Qed.
Lemma bind_relw vs {A B} (P : A -> A -> Prop) (Q : B -> B -> Prop) (m m' : M A) (f f' : A -> M B) :
  mrelw vs P m m' -> (forall p, p_graph (fst (m p)) = p_graph p) -> (forall a a', P a a' -> mrelw vs Q (f a) (f' a')) -> mrelw vs Q (mbind m f) (mbind m' f').
Proof.
  intros H G K p p' Hp Hv. specialize (H p p' Hp Hv). specialize (G p). unfold mbind.
  destruct (m p) as [q [a|e|u]], (m' p') as [q' [a'|e'|u']]; cbn in *; destruct H as (Hq & X); try contradiction; auto.
  apply (K a a' X q q' Hq). congruence.
Qed.
Lemma bind_lastw vs {A B} (P : A -> A -> Prop) (Q : B -> B -> Prop) (m m' : M A) (f f' : A -> M B) :
  mrelw vs P m m' -> (forall a a', P a a' -> mrel Q (f a) (f' a')) -> mrelw vs Q (mbind m f) (mbind m' f').
Proof.
  intros H K p p' Hp Hv. specialize (H p p' Hp Hv). unfold mbind.
  destruct (m p) as [q [a|e|u]], (m' p') as [q' [a'|e'|u']]; cbn in *; destruct H as (Hq & X); try contradiction; auto. exact (K a a' X q q' Hq).
Qed.
Lemma values_relw vs : mrelw vs (vals vs) (fun p => (p, values_of VC (p_heap p) (get_all_variables (p_graph p)))) (fun p => (p, values_of VC (p_heap p) (get_all_variables (p_graph p)))).
Proof. intros p p' Hp Hv. cbn. split; auto. ssplit Hp. rewrite <- (vars_same _ _ Sg), Hv. apply values_pair. exact Sh. Qed.
Lemma restore_relw vs xs xs' : vals vs xs xs' -> mrelw vs eq (m_restore VC xs) (m_restore VC xs').
Proof.
  intros X p p' Hp Hv. ssplit Hp. unfold m_restore. rewrite <- (vars_same _ _ Sg), Hv. destruct (restore_pair vs xs xs' _ _ X Sh) as (A & B).
  destruct (restore_loop VC (p_heap p) vs xs) as [h o], (restore_loop VC (p_heap p') vs xs') as [h' o']. cbn in *. subst o'. split; [swrap|apply alike_refl].
Qed.
Lemma apply_graph d (p : pstate) : p_graph (fst (m_apply VC d p)) = p_graph p.
Proof. unfold m_apply. destruct (inc_loop _ _ _ _ _ _). reflexivity. Qed.
Lemma residual2_graph (p : pstate) : p_graph (fst (m_residual2 EV p)) = p_graph p.
Proof. unfold m_residual2. destruct (compute_residual_into _ _ _ _). reflexivity. Qed.

Lemma lm_loop_rel n J cost : forall dx, mrel eq (lm_loop VC SV EV n J cost dx) (lm_loop VC SV EV' n J cost dx).
Proof.
  induction n as [|n IH]; intros dx; cbn [lm_loop]; [apply ret_rel; reflexivity|].
  bindr ltac:(getr). bindr ltac:(getr). bindr ltac:(apply lift_rel). bindr ltac:(apply factorize_rel).
  match goal with |- mrel _ (if ?b then _ else _) _ => destruct b end; [bindr ltac:(apply up_rel); apply IH|]. bindr ltac:(getr). bindr ltac:(apply lift_rel). bindr ltac:(apply lift_rel).
  match goal with |- mrel _ (if ?b then _ else _) _ => destruct b end; [bindr ltac:(apply up_rel); apply IH|].
  bindr ltac:(apply solve_rel). match goal with |- mrel _ (if ?b then _ else _) _ => destruct b end; [bindr ltac:(apply up_rel); apply IH|]. bindr ltac:(getr).
  apply each_relw. intros vs.
  eapply bind_relw; [apply values_relw|reflexivity|]. intros xs xs' Hxs.
  eapply bind_relw; [apply weak_rel, apply_rel|apply apply_graph|]. intros ? ? _. eapply bind_relw; [apply weak_rel, residual2_rel|apply residual2_graph|]. intros ? ? _.
  eapply bind_relw; [apply weak_rel; getr|reflexivity|]. intros ? ? <-. match goal with |- mrelw _ _ (if ?b then _ else _) _ => destruct b end.
  { apply weak_rel. bindr ltac:(getr). bindr ltac:(apply lambda_rel). apply ret_rel. reflexivity. }
  eapply bind_lastw; [apply restore_relw; exact Hxs|]. intros ? ? _.
  bindr ltac:(getr). bindr ltac:(apply lambda_rel). match goal with |- mrel _ (if ?b then _ else _) _ => destruct b end; [apply ret_rel; reflexivity|apply IH].
Qed.

Lemma lm_rel : mrel eq (lm_step VC SV EV) (lm_step VC SV EV').
Proof.
  unfold lm_step. bindr ltac:(apply residual1_rel). bindr ltac:(apply sparse_rel). bindr ltac:(getr). bindr ltac:(getr). bindr ltac:(getr).
  eapply (mbind_rel eq); [match goal with |- mrel _ (if ?b then _ else _) _ => destruct b end; [apply lambda_rel|apply ret_rel; reflexivity]|]. intros ? ? _.
  bindr ltac:(apply lm_loop_rel). match goal with |- mrel _ (if ?b then _ else _) _ => destruct b end; [bindr ltac:(getr); apply record_rel|].
  bindr ltac:(getr). bindr ltac:(getr).
  eapply (mbind_rel eq); [match goal with |- mrel _ (if ?b then _ else _) _ => destruct b end; [|apply fail_rel]; apply upd_rel; intros ? ? Hq; ssplit Hq; swrap|]. intros ? ? _.
  eapply (mbind_rel eq); [apply upd_rel; intros ? ? Hq; ssplit Hq; swrap|]. intros ? ? _. apply record_rel.
Qed.
Lemma one_rel : mrel eq (one_step VC SV EV) (one_step VC SV EV').
Proof. intros p p' Hp. unfold one_step. rewrite <- (sg_set _ _ _ Hp). destruct (st_method (p_set p)); [apply gn_rel|apply lm_rel]; exact Hp. Qed.
Lemma opt_loop_rel n : mrel eq (opt_loop VC SV EV n) (opt_loop VC SV EV' n).
Proof.
  induction n as [|n IH]; intros p p' Hp; cbn [opt_loop]; [cbn; auto|]. destruct (one_rel p p' Hp) as (A & B).
  pose proof (sg_cur _ _ _ Hp) as Ec. rewrite <- Ec.
  destruct (one_step VC SV EV p) as [p1 [[]|e|u]], (one_step VC SV EV' p') as [p1' [[]|e'|u']]; cbn in A, B; try contradiction; try discriminate.
  - pose proof A as A0. ssplit A0. rewrite <- S1, <- S4, <- S3.
    destruct (ss_status (p_cur p1)); try (cbn; split; [exact A|reflexivity]);
      repeat match goal with |- context [if ?b then _ else _] => destruct b end; first [apply status_rel; exact A|apply fail_rel; exact A|apply IH; exact A].
  - apply fail_rel. ssplit A. swrap.
  - cbn. auto.
Qed.
Theorem optimize_rel : mrel eq (optimize VC SV EV) (optimize VC SV EV').
Proof.
  intros p p' Hp. unfold optimize. pose proof Hp as Hp0. ssplit Hp0. rewrite <- S2. destruct (negb (p_hasgraph p)); [cbn; auto|].
  cbn [w_caught w_cur p_tick p_heap p_graph]. rewrite <- S11. destruct (residual_pair RV (EV (p_tick p)) (EV' (p_tick p)) _ _ _ _ (HE _) Sh Sg) as (A & B).
  destruct (compute_residual (EV (p_tick p)) (p_heap p) (p_graph p)) as [g [r|e|u]], (compute_residual (EV' (p_tick p)) (p_heap p') (p_graph p')) as [g' [r'|e'|u']];
    cbn in A, B; try discriminate; [|cbn; split; [swrap|congruence]..].
  injection B as <-. cbn zeta.
  match goal with |- context [opt_loop VC SV EV ?n ?q] => match goal with |- context [opt_loop VC SV EV' ?n' ?q'] =>
    assert (Hq : states q q') by swrap; assert (En : n' = n) by (cbn; congruence); rewrite En; destruct (opt_loop_rel n q q' Hq) as (A2 & B2) end end.
  destruct (opt_loop VC SV EV _ _) as [p2 [[]|e|u]], (opt_loop VC SV EV' _ _) as [p2' [[]|e'|u']]; cbn in A2, B2; try discriminate; try contradiction; try (cbn; subst; auto; fail).
  cbn. split; [|reflexivity]. rewrite <- (sg_cur _ _ _ A2). clear - A2. ssplit A2. destruct (ss_status (p_cur p2)); swrap.
Qed.
Theorem prepare_rel : mrel eq (prepare (V:=V) SV) (prepare SV).
Proof.
  intros p p' Hp. unfold prepare. pose proof Hp as Hp0. ssplit Hp0. rewrite <- S5, <- S6. destruct (p_hvalid p); [cbn; auto|]. destruct (negb (p_complete p)); [cbn; auto|].
  revert p p' Hp Sh Sg S1 S2 S3 S4 S5 S6 S7 S8 S9 S10 S11 S12 S13 S14. intros p p' Hp _ _ _ _ _ _ _ _ _ _ _ _ _ _ _ _. revert p p' Hp.
  match goal with |- forall q q', states q q' -> states (fst (?m q)) (fst (?m' q')) /\ _ => change (mrel eq m m') end.
  eapply (mbind_rel eq). { intros p p' Hp. ssplit Hp. split; [cbn; swrap|]. cbn. unfold sparse_jacobian. destruct Sg as (_ & _ & _ & _ & _ & _ & _ & _ & _ & _ & Gsc). rewrite Gsc. apply alike_refl. }
  intros ? ? <-. eapply (mbind_rel eq); [apply upd_rel; intros ? ? Hq; ssplit Hq; swrap|]. intros ? ? _. bindr ltac:(apply factorize_rel).
  match goal with |- mrel _ (if ?b then _ else _) _ => destruct b end; [apply ret_rel; reflexivity|]. bindr ltac:(getr). bindr ltac:(apply lift_rel).
  apply upd_rel. intros ? ? Hq. ssplit Hq. swrap.
Qed.
Theorem estimate_rel q : mrel eq (estimate_covariance VC SV q) (estimate_covariance VC SV q).
Proof.
  intros p p' Hp. unfold estimate_covariance. destruct q as [a|]; [|cbn; auto]. pose proof Hp as Hp0. ssplit Hp0. pose proof (hget_pair RV _ _ a Sh) as Ha.
  destruct (hget (p_heap p) a) as [v|e|u], (hget (p_heap p') a) as [v'|e'|u']; cbn in Ha; try contradiction; try (subst; cbn; auto; fail).
  destruct (tw_same _ _ _ T a v v' Ha) as (E1 & E2 & E3). rewrite <- E1, <- E2, <- E3, <- S5, <- S6, <- S7, <- S10, <- (placement_same RV _ _ (vid VC v) Sg).
  repeat match goal with |- context [if ?b then (p, _) else _] => destruct b; [cbn; auto|] end.
  destruct (variable_placement (p_graph p) (vid VC v)) as [pl|]; [|cbn; auto]. destruct (negb _); [cbn; auto|]. destruct (sv_solve_mat SV (p_solver p) _) as [s X]. cbn zeta.
  assert (W : states (w_solver s p) (w_solver s p')) by swrap.
  repeat match goal with |- context [if ?b then (w_solver _ p, _) else _] => destruct b; [cbn [fst snd]; split; [exact W|reflexivity]|] end.
  destruct (vmax _) as [mx|e|u]; [|cbn [fst snd]; split; [exact W|reflexivity]..]. destruct (nltb _ mx); cbn [fst snd]; split; auto; reflexivity.
Qed.

(** ** Sessions *)
Lemma heaps_length h h' : heaps h h' -> length h = length h'.
Proof.
  intros H. destruct (Nat.lt_trichotomy (length h) (length h')) as [X|[X|X]]; auto; exfalso.
  - specialize (H (length h)). rewrite (proj2 (nth_error_None h _) (le_n _)) in H. destruct (nth_error h' (length h)) eqn:E; [exact H|]. apply nth_error_None in E. lia.
  - specialize (H (length h')). rewrite (proj2 (nth_error_None h' _) (le_n _)) in H. destruct (nth_error h (length h')) eqn:E; [exact H|]. apply nth_error_None in E. lia.
Qed.
Theorem ostep_rel o o' p p' : states p p' -> oop_pair RV XR (length (p_heap p)) o o' -> states (ostep VC SV EV p o) (ostep VC SV EV' p' o').
Proof.
  intros Hp P. destruct o; destruct o'; cbn in P; try contradiction; try discriminate P; cbn [ostep].
  - pose proof Hp as Hp0. ssplit Hp0. rewrite <- S11. destruct (step_pair VC RV XR T (EV (p_tick p)) (EV' (p_tick p)) _ _ _ _ o o0 (HE _) Sh Sg P) as (A & B & _).
    destruct (step VC (EV (p_tick p)) (p_heap p, p_graph p) o) as [[h g] x], (step VC (EV' (p_tick p)) (p_heap p', p_graph p') o0) as [[h' g'] x']. cbn in A, B. swrap.
  - injection P as <- <-. ssplit Hp. swrap.
  - apply optimize_rel. exact Hp.
  - apply prepare_rel. exact Hp.
  - injection P as <-. apply estimate_rel. exact Hp.
Qed.
End TwinRun.
