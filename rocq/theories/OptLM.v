(** Levenberg-Marquardt steps: inversion of one attempt, rollback, cost. *)
From Coq Require Import List Arith ZArith QArith Bool Lia Permutation.
From Verif Require Import Base Sparse Graph SpecGraph SpecOpt ListLemmas GraphLayout GraphFin GraphBasic GraphVec Optimizer OptLemmas OptWork.
Import ListNotations.
Local Open Scope nat_scope.

Section LM.
Context {N : num} {V : Type} (VC : vclass N V) {S : Type} (SV : solver N S).
Notation graph := (graph (N:=N) (V:=V)).
Notation env := (env (N:=N) (V:=V)).
Notation pstate := (pstate (N:=N) (V:=V) (S:=S)).
Notation M := (M (N:=N) (V:=V) (S:=S)).
Context (EV : nat -> env).
Hypothesis Hok : vclass_ok VC.
Hypothesis HE : forall n, env_ok (EV n).

Definition bad {A} (r : outcome A) : Prop := match r with Ok _ => False | _ => True end.

(** states differing at most in the damping parameter, the solver, buffers and ghosts *)
Definition lam_eq (c c' : stats (N:=N)) : Prop :=
  ss_valid c' = ss_valid c /\ ss_status c' = ss_status c /\ ss_chi2 c' = ss_chi2 c /\ ss_delta c' = ss_delta c /\
  ss_resnorm c' = ss_resnorm c /\ ss_iter c' = ss_iter c.
Definition sim (p q : pstate) : Prop :=
  p_graph q = p_graph p /\ p_set q = p_set p /\ p_init q = p_init p /\ p_r1 q = p_r1 p /\ lam_eq (p_cur p) (p_cur q).
Lemma lam_eq_refl c : lam_eq c c. Proof. repeat split. Qed.
Lemma lam_eq_trans a b c : lam_eq a b -> lam_eq b c -> lam_eq a c.
Proof. intros (A1&A2&A3&A4&A5&A6) (B1&B2&B3&B4&B5&B6). repeat split; congruence. Qed.
Lemma sim_refl p : sim p p. Proof. split; auto. split; auto. split; auto. split; auto. apply lam_eq_refl. Qed.
Lemma sim_trans a b c : sim a b -> sim b c -> sim a c.
Proof. intros (A1&A2&A3&A4&A5) (B1&B2&B3&B4&B5). split; [congruence|]. split; [congruence|]. split; [congruence|]. split; [congruence|]. eapply lam_eq_trans; eauto. Qed.

(** outcome of one attempt *)
Inductive attempt (n : nat) (J : mat N) (cost : N) (p p' : pstate) (r : outcome (bool * list N)) : Prop :=
| at_err : bad r -> p_heap p' = p_heap p -> attempt n J cost p p' r
| at_retry p1 dx1 : p_heap p1 = p_heap p -> sim p p1 -> lm_loop VC SV EV n J cost dx1 p1 = (p', r) -> attempt n J cost p p' r
| at_inc dx1 o : inc_loop VC false (p_heap p) (p_graph p) (get_all_variables (p_graph p)) dx1 = (p_heap p', o) -> bad r ->
    attempt n J cost p p' r
| at_accept dx1 k buf : inc_loop VC false (p_heap p) (p_graph p) (get_all_variables (p_graph p)) dx1 = (p_heap p', Ok tt) ->
    compute_residual_into (EV k) (p_heap p') (p_graph p) buf = (p_r2 p', Ok tt) ->
    nltb (nmul (nlit (1#2)) (sqnorm (p_r2 p'))) cost = true -> sim p p' -> r = Ok (true, dx1) -> attempt n J cost p p' r
| at_reject dx1 h1 h2 xs o : values_of VC (p_heap p) (get_all_variables (p_graph p)) = Ok xs ->
    inc_loop VC false (p_heap p) (p_graph p) (get_all_variables (p_graph p)) dx1 = (h1, Ok tt) ->
    restore_loop VC h1 (get_all_variables (p_graph p)) xs = (h2, o) ->
    (o <> Ok tt -> bad r /\ p_heap p' = h2) ->
    (o = Ok tt -> exists p1, p_heap p1 = h2 /\ sim p p1 /\
       (p' = p1 /\ r = Ok (false, dx1) \/ lm_loop VC SV EV n J cost dx1 p1 = (p', r))) ->
    attempt n J cost p p' r.

Ltac sims := repeat first [apply sim_refl | split; auto | apply lam_eq_refl].
Lemma lm_attempt n J cost dx p p' r : lm_loop VC SV EV (Datatypes.S n) J cost dx p = (p', r) -> attempt n J cost p p' r.
Proof.
  cbn [lm_loop]. unfold mbind at 1, get at 1. unfold mbind at 1, get at 1. unfold mbind at 1, lift at 1.
  destruct (jtr _ _) as [b0|e|u]; intros E; [|inversion E; subst; apply at_err; simpl; auto..].
  unfold mbind at 1, m_factorize at 1 in E.
  match type of E with context [negb ?b] => destruct b end; cbn [negb] in E.
  2: { eapply at_retry; [| |exact E]; [reflexivity|]. sims. }
  unfold mbind at 1, get at 1 in E. unfold mbind at 1, lift at 1 in E.
  match type of E with context [vmin ?d] => destruct (vmin d) as [mn|e|u] end; [|inversion E; subst; apply at_err; simpl; auto..].
  unfold mbind at 1, lift at 1 in E.
  match type of E with context [vmax ?d] => destruct (vmax d) as [mx|e|u] end; [|inversion E; subst; apply at_err; simpl; auto..].
  match type of E with context [if ?b then _ else _] => destruct b end.
  { eapply at_retry; [| |exact E]; [reflexivity|]. sims. }
  unfold mbind at 1, m_solve at 1 in E. destruct (sv_solve SV _ _) as [s x].
  match type of E with context [negb ?b] => destruct b end; cbn [negb] in E.
  2: { eapply at_retry; [| |exact E]; [reflexivity|]. sims. }
  unfold mbind at 1, get at 1 in E. cbv zeta in E. set (dx1 := map _ (fst (x, _))) in *.
  unfold mbind at 1 in E.
  match type of E with context [values_of VC ?h ?vs] => change h with (p_heap p) in E; change vs with (get_all_variables (p_graph p)) in E end.
  destruct (values_of VC (p_heap p) (get_all_variables (p_graph p))) as [xs|e|u] eqn:Ev; [|inversion E; subst; apply at_err; simpl; auto..].
  unfold mbind at 1, m_apply at 1 in E. cbn [p_heap p_graph w_solver w_nfact] in E.
  destruct (inc_loop VC false (p_heap p) (p_graph p) (get_all_variables (p_graph p)) dx1) as [h1 o1] eqn:Ei.
  destruct o1 as [[]|e|u]; [|inversion E; subst; eapply at_inc; simpl; eauto..].
  unfold mbind at 1, m_residual2 at 1 in E. cbn [p_heap p_graph w_heap w_solver w_nfact p_r2 p_tick] in E.
  destruct (compute_residual_into _ _ _ _) as [buf o2] eqn:Er.
  destruct o2 as [[]|e|u]; [|inversion E; subst; eapply at_inc; simpl; eauto..].
  unfold mbind at 1, get at 1 in E. cbn [p_r2 w_tick w_r2] in E.
  destruct (nltb _ cost) eqn:Ec.
  { unfold mbind, get, m_lambda, mupd, ret in E. cbn beta iota in E. apply pair_equal_spec in E. destruct E as [<- <-].
    eapply at_accept; simpl; eauto. sims. }
  unfold mbind at 1, m_restore at 1 in E. cbn [p_heap p_graph w_tick w_r2 w_heap w_solver w_nfact] in E.
  destruct (restore_loop VC h1 (get_all_variables (p_graph p)) xs) as [h2 o3] eqn:Es.
  eapply at_reject; eauto.
  - intros Ho. destruct o3 as [[]|e|u]; [congruence|inversion E; subst; simpl; auto..].
  - intros ->. unfold mbind at 1, get at 1 in E. unfold mbind at 1, m_lambda at 1, mupd at 1 in E.
    destruct (nleb _ _); [|eexists; split; [|split; [|right; exact E]]; [reflexivity|sims]].
    inversion E; subst. eexists; split; [|split; [|left; split; reflexivity]]; [reflexivity|sims].
Qed.

(** ** Rollback *)
Section Rollback.
Context (I : V -> Prop).
Hypothesis HI : undoable VC I.
Definition heldI (h : @heap V) : Prop := forall a v, nth_error h a = Some v -> I v.
Definition moved (h h1 : @heap V) (vs : list addr) : Prop :=
  length h1 = length h /\
  forall a v, nth_error h a = Some v -> exists v1, nth_error h1 a = Some v1 /\ (In a vs -> vset VC v1 (vval VC v) = Ok v) /\ (~ In a vs -> v1 = v).

Lemma heldI_lupd h a v : heldI h -> I v -> heldI (lupd a v h).
Proof.
  intros H Hv b w Hb. rewrite lupd_nth in Hb. destruct ((a =? b) && (a <? length h)); [congruence|eauto].
Qed.
Lemma inc_moved ck h (g : graph) vs dx h1 r : NoDup vs -> heldI h -> inc_loop VC ck h g vs dx = (h1, r) -> moved h h1 vs /\ heldI h1.
Proof.
  revert h. induction vs as [|a t IH]; simpl; intros h ND Hh E.
  - inversion E; subst. split; auto. split; auto. intros b v Hb. exists v. split; auto. split; [intros []|auto].
  - inversion ND as [|? ? Hnin ND']; subst.
    assert (Same : moved h h (a :: t)).
    { split; auto. intros b v Hb. exists v. split; auto. split; auto. intros _. apply (un_self _ _ HI). eauto. }
    assert (Skip : inc_loop VC ck h g t dx = (h1, r) -> moved h h1 (a :: t) /\ heldI h1).
    { intros Et. destruct (IH h ND' Hh Et) as ((L & Hm) & Hh1). split; auto. split; auto.
      intros b v Hb. destruct (Hm b v Hb) as (v1 & A1 & A2 & A3). exists v1. split; auto. split.
      - intros [->|Hin]; auto. rewrite (A3 Hnin). apply (un_self _ _ HI). eauto.
      - simpl. tauto. }
    unfold hget in E. destruct (nth_error h a) as [v|] eqn:Ha; [|inversion E; subst; auto].
    destruct (vconst VC v); [auto|]. destruct (variable_placement g (vid VC v)) as [pl|]; [|auto].
    destruct (ck && _); [inversion E; subst; auto|].
    destruct (segment _ _ dx) as [s|e|u]; try (inversion E; subst; auto; fail).
    unfold hupd, hget in E. rewrite Ha in E. destruct (vinc VC v s) as [v'|e|u] eqn:Ei; try (inversion E; subst; auto; fail).
    destruct (un_inc _ _ HI v s v') as (Iv' & U); eauto.
    assert (Hal : a < length h) by (apply nth_error_Some; congruence).
    destruct (IH (lupd a v' h) ND' (heldI_lupd _ _ _ Hh Iv') E) as ((L & Hm) & Hh1). rewrite lupd_length in L.
    split; auto. split; auto. intros b w Hb. destruct (Nat.eq_dec a b) as [->|Hne].
    + destruct (Hm b v') as (v1 & A1 & A2 & A3); [apply lupd_nth_same; auto|]. rewrite (A3 Hnin) in A1. exists v'. split; auto.
      split; [|intros []; simpl; auto]. intros _. congruence.
    + destruct (Hm b w) as (v1 & A1 & A2 & A3); [rewrite lupd_nth_other; auto|]. exists v1. split; auto. split.
      * intros [?|?]; [congruence|auto].
      * simpl. tauto.
Qed.
Lemma moved_restore h h1 vs xs : NoDup vs -> moved h h1 vs -> values_of VC h vs = Ok xs -> restore_loop VC h1 vs xs = (h, Ok tt).
Proof.
  revert h1 xs. induction vs as [|a t IH]; simpl; intros h1 xs ND (L & Hm) E.
  - inversion E; subst. f_equal. apply list_ext_nth. intros i. destruct (nth_error h i) as [v|] eqn:Hi.
    + destruct (Hm i v Hi) as (v1 & A1 & _ & A3). rewrite A1, A3; auto.
    + apply nth_error_None. apply nth_error_None in Hi. lia.
  - inversion ND as [|? ? Hnin ND']; subst. unfold hget in E. destruct (nth_error h a) as [v|] eqn:Ha; [|discriminate]. simpl in E.
    destruct (values_of VC h t) as [xt| |] eqn:Et; inversion E; subst.
    destruct (Hm a v Ha) as (v1 & A1 & A2 & _). unfold hupd, hget. rewrite A1, (A2 (or_introl eq_refl)).
    apply IH; auto. split; [rewrite lupd_length; auto|].
    intros b w Hb. destruct (Nat.eq_dec a b) as [->|Hne].
    + exists v. rewrite lupd_nth_same by (apply nth_error_Some; congruence). split; auto. split; [intros Hin; contradiction|congruence].
    + destruct (Hm b w Hb) as (w1 & B1 & B2 & B3). exists w1. rewrite lupd_nth_other by auto. split; auto. split; [intros Hn; apply B2; simpl; auto|].
      intros Hn. apply B3. simpl. intros [?|?]; auto.
Qed.

(** an attempt sequence ends with an accepted step (lower cost) or with the variables as before *)
Lemma lm_loop_spec n : forall J cost dx p p' acc dx', fin VC (p_heap p) (p_graph p) -> heldI (p_heap p) ->
  lm_loop VC SV EV n J cost dx p = (p', Ok (acc, dx')) ->
  heldI (p_heap p') /\ sim p p' /\
  if acc then stacked (p_heap p') (get_all_factors (p_graph p)) (p_r2 p') /\ nltb (nmul (nlit (1#2)) (sqnorm (p_r2 p'))) cost = true
  else p_heap p' = p_heap p.
Proof.
  induction n; intros J cost dx p p' acc dx' Hf Hh E.
  - inversion E; subst. split; auto. split; auto. apply sim_refl.
  - pose proof (vars_nodup VC _ _ Hf) as ND. apply lm_attempt in E. destruct E as [B _|p1 dx1 A1 A2 A3|dx1 o A1 B|dx1 k buf A1 A2 A3 A4 A5|dx1 h1 h2 xs o A1 A2 A3 A4 A5].
    + contradiction.
    + assert (Hf1 : fin VC (p_heap p1) (p_graph p1)) by (destruct A2 as (-> & _); rewrite A1; auto).
      assert (Hh1 : heldI (p_heap p1)) by (rewrite A1; auto).
      destruct (IHn _ _ _ _ _ _ _ Hf1 Hh1 A3) as (B1 & B2 & B3). split; auto. split; [eapply sim_trans; eauto|].
      destruct A2 as (G & _). rewrite G in B3. destruct acc; auto. congruence.
    + contradiction.
    + inversion A5; subst. destruct (inc_moved _ _ _ _ _ _ _ ND Hh A1) as (Hm & Hh1). split; auto. split; auto. split; auto.
      eapply residual_into_inv; eauto.
      (* the graph is still finalized with the incremented heap *)
      destruct (traced_inc VC EV HE _ _ (p_graph p) _ _ _ _ A1) as (l & Hl & Hr).
      pose proof (run_value VC Hok l (p_heap p, p_graph p) Hl Hf) as (F & _). rewrite Hr in F. exact F.
    + destruct (inc_moved _ _ _ _ _ _ _ ND Hh A2) as (Hm & Hh1). pose proof (moved_restore _ _ _ _ ND Hm A1) as R. rewrite R in A3. inversion A3; subst.
      destruct (A5 eq_refl) as (p1 & C1 & C2 & C3). destruct C3 as [(-> & C3)|C3].
      * inversion C3; subst. rewrite C1. split; auto.
      * assert (Hf1 : fin VC (p_heap p1) (p_graph p1)) by (destruct C2 as (-> & _); rewrite C1; auto).
        assert (Hh2 : heldI (p_heap p1)) by (rewrite C1; auto).
        destruct (IHn _ _ _ _ _ _ _ Hf1 Hh2 C3) as (B1 & B2 & B3). split; auto. split; [eapply sim_trans; eauto|].
        destruct C2 as (G & _). rewrite G in B3. destruct acc; auto. congruence.
Qed.
End Rollback.
End LM.
