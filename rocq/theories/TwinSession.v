(** Whole sessions on twin problems. *)
From Coq Require Import List Arith ZArith Bool Lia.
From Verif Require Import Base Sparse Graph ListLemmas Optimizer OptLemmas OptRun SpecTwin TwinGraph TwinRun.
Import ListNotations.
Set Bullet Behavior "Strict Subproofs".

Section Len.
Context {N : num} {V : Type} (VC : vclass N V) {S : Type} (SV : solver N S) (EV : nat -> env (N:=N) (V:=V)).
Notation pstate := (pstate (N:=N) (V:=V) (S:=S)).
Notation M := (M (N:=N) (V:=V) (S:=S)).
(** no call but the creation of a variable changes the number of objects *)
Definition hlen (p p' : pstate) : Prop := length (p_heap p') = length (p_heap p).
Lemma hlen_trans p1 p2 p3 : hlen p1 p2 -> hlen p2 p3 -> hlen p1 p3.
Proof. unfold hlen. congruence. Qed.
Lemma hl_id {A} (m : M A) : (forall p, p_heap (fst (m p)) = p_heap p) -> resp hlen m.
Proof. intros H p p' r E. specialize (H p). rewrite E in H. cbn in H. unfold hlen. congruence. Qed.
Lemma hl_apply dx : resp hlen (m_apply VC dx).
Proof. intros p p' r E. unfold m_apply in E. destruct (inc_loop _ _ _ _ _ _) as [h o] eqn:C. inversion E; subst. unfold hlen. cbn. eapply inc_length; eauto. Qed.
Lemma restore_length h vs xs h' r : restore_loop VC h vs xs = (h', r) -> length h' = length h.
Proof.
  revert h xs. induction vs as [|a t IH]; cbn [restore_loop]; intros h xs E; [inversion E; auto|].
  destruct xs as [|x xs]; [inversion E; auto|]. destruct (hupd h a _) as [h1 o] eqn:U. apply hupd_length in U.
  destruct o as [[]|e|u]; [apply IH in E; congruence|inversion E; subst; auto..].
Qed.
Lemma hl_restore xs : resp hlen (m_restore VC xs).
Proof. intros p p' r E. unfold m_restore in E. destruct (restore_loop _ _ _ _) as [h o] eqn:C. inversion E; subst. unfold hlen. cbn. eapply restore_length; eauto. Qed.
Lemma hl_residual1 : resp hlen (m_residual1 EV). Proof. apply hl_id. intros p. unfold m_residual1. destruct (compute_residual_into _ _ _ _); auto. Qed.
Lemma hl_residual2 : resp hlen (m_residual2 EV). Proof. apply hl_id. intros p. unfold m_residual2. destruct (compute_residual_into _ _ _ _); auto. Qed.
Lemma hl_sparse : resp hlen (m_sparse VC). Proof. apply hl_id. intros p. unfold m_sparse. destruct (compute_sparse _ _ _); auto. Qed.
Lemma hl_solve b : resp hlen (m_solve SV b). Proof. apply hl_id. intros p. unfold m_solve. destruct (sv_solve _ _ _); auto. Qed.
Ltac hlr := repeat first
  [ apply (resp_bind hlen hlen_trans); [|intros ?] | match goal with |- resp hlen (if ?b then _ else _) => destruct b end
  | apply hl_apply | apply hl_restore | apply hl_residual1 | apply hl_residual2 | apply hl_sparse | apply hl_solve ]; try (apply hl_id; intros q; reflexivity).
Lemma hl_gn : resp hlen (gn_step VC SV EV). Proof. unfold gn_step. hlr. Qed.
Lemma hl_loop n : forall J c dx, resp hlen (lm_loop VC SV EV n J c dx).
Proof. induction n as [|n IH]; intros; cbn [lm_loop]; hlr; apply IH. Qed.
Lemma hl_lm : resp hlen (lm_step VC SV EV). Proof. unfold lm_step. generalize 5%nat. intros n5. hlr; apply hl_loop. Qed.
Lemma hl_optimize : resp hlen (optimize VC SV EV).
Proof.
  intros p p' r E. unfold optimize in E. destruct (negb _); [inversion E; subst; reflexivity|].
  destruct (compute_residual _ _ _) as [g o]. destruct o as [r0|e|u]; try (inversion E; subst; reflexivity).
  match type of E with context [opt_loop _ _ _ ?n ?q] => destruct (opt_loop VC SV EV n q) as [p2 o] eqn:E2; set (p1 := q) in * end.
  assert (X : length (p_heap p2) = length (p_heap p)).
  { change (p_heap p) with (p_heap p1). symmetry.
    eapply (OptRun.opt_loop_rel VC SV EV (fun h h' => length h = length h') (fun _ => True)); [reflexivity|intros; congruence| |exact I|exact E2].
    intros q q' r' _ Eq. split; auto. symmetry. unfold one_step in Eq. destruct (st_method _); [eapply hl_gn; eauto|eapply hl_lm; eauto]. }
  destruct o as [[]|e|u]; inversion E; subst; unfold hlen; auto. destruct (ss_status (p_cur p2)); exact X.
Qed.
Lemma hl_prepare : resp hlen (prepare (V:=V) SV).
Proof.
  intros p p' r. unfold prepare. destruct (p_hvalid p); [intros E; inversion E; reflexivity|]. destruct (negb _); [intros E; inversion E; reflexivity|].
  revert p p' r. match goal with |- forall p p' r, ?m p = (p', r) -> _ => change (resp hlen m) end. hlr.
Qed.
Lemma hl_estimate q : resp hlen (estimate_covariance VC SV q).
Proof.
  apply hl_id. intros p. unfold estimate_covariance. destruct q as [a|]; [|reflexivity]. destruct (hget (p_heap p) a) as [v|e|u]; try reflexivity.
  repeat match goal with |- context [if ?b then (p, _) else _] => destruct b; [reflexivity|] end.
  destruct (variable_placement _ _) as [pl|]; [|reflexivity]. destruct (negb _); [reflexivity|]. destruct (sv_solve_mat SV (p_solver p) _) as [s X]. cbn zeta.
  repeat match goal with |- context [if ?b then (w_solver _ p, _) else _] => destruct b; [reflexivity|] end.
  destruct (vmax _) as [mx|e|u]; [|reflexivity..]. destruct (nltb _ mx); reflexivity.
Qed.
Lemma set_length h vs : forall off x h' r, set_vector_loop VC h vs off x = (h', r) -> length h' = length h.
Proof.
  revert h. induction vs as [|a t IH]; cbn [set_vector_loop]; intros h off x h' r E; [inversion E; auto|].
  destruct (hget h a) as [v|e|u]; try (inversion E; subst; auto; fail). destruct (vconst VC v); [eapply IH; eauto|].
  destruct (segment _ _ x) as [s|e|u]; try (inversion E; subst; auto; fail). destruct (hupd h a _) as [h1 o] eqn:U. apply hupd_length in U.
  destruct o as [[]|e|u]; [apply IH in E; congruence|inversion E; subst; auto..].
Qed.
Lemma step_length E h g (o : op) : length (fst (fst (step VC E (h, g) o))) = match o with ONew _ => 1 | _ => 0 end + length h.
Proof.
  destruct o; cbn [step]; rewrite ?Nat.add_0_l;
    try (match goal with |- context [let '(_, _) := hupd ?h ?a ?f in _] => destruct (hupd h a f) as [h' r] eqn:C end; cbn; eapply hupd_length; eassumption);
    try (match goal with |- context [let '(_, _) := set_variable_values_from_vector ?VC ?h ?g ?x in _] => destruct (set_variable_values_from_vector VC h g x) as [h' r] eqn:C end; cbn; eapply set_length; exact C);
    try (match goal with |- context [let '(_, _) := apply_increment ?VC ?h ?g ?x in _] => destruct (apply_increment VC h g x) as [h' r] eqn:C end; cbn; unfold apply_increment in C;
         repeat match type of C with (if ?b then _ else _) = _ => destruct b end; try (inversion C; subst; reflexivity); eapply inc_length; eauto);
    try (match goal with |- context [let '(_, _) := ?c in _] => destruct c end; cbn; reflexivity); try reflexivity.
  cbn. rewrite app_length. cbn. lia.
Qed.
Lemma ostep_length p o : length (p_heap (ostep VC SV EV p o)) = makes o + length (p_heap p).
Proof.
  destruct o; cbn [ostep makes].
  - pose proof (step_length (EV (p_tick p)) (p_heap p) (p_graph p) o) as H. destruct (step VC _ _ o) as [[h g] x]. cbn in *. exact H.
  - reflexivity.
  - destruct (optimize VC SV EV p) as [p' r] eqn:E. cbn. eapply hl_optimize; eauto.
  - destruct (prepare SV p) as [p' r] eqn:E. cbn. eapply hl_prepare; eauto.
  - match goal with |- context [estimate_covariance VC SV ?q p] => destruct (estimate_covariance VC SV q p) as [p' r] eqn:E end. cbn. eapply hl_estimate; eauto.
Qed.
End Len.

Section Session.
Context {N : num} {V : Type} (VC : vclass N V) {S : Type} (SV : solver N S).
Context (RV : addr -> V -> V -> Prop) (XR : addr -> list N -> list N -> Prop) (T : twinned VC RV XR).
Context (EV EV' : nat -> env (N:=N) (V:=V)) (HE : forall n, same_env RV (EV n) (EV' n)).
Theorem session_pair l : forall l' p p', states RV p p' -> sessions RV XR (length (p_heap p)) l l' -> states RV (orun VC SV EV p l) (orun VC SV EV' p' l').
Proof.
  induction l as [|o t IH]; intros [|o' t'] p p' Hp Hs; cbn in Hs; try contradiction; [exact Hp|]. destruct Hs as (A & B). cbn [orun fold_left].
  apply IH; [eapply ostep_rel; eauto|]. rewrite ostep_length. exact B.
Qed.
Lemma start_pair (s : S) st : states RV (ostart (N:=N) (V:=V) s st) (ostart s st).
Proof. constructor; try reflexivity; [intros a; cbn; destruct a; exact I|apply graphs_empty]. Qed.
Theorem sessions_pair (s : S) st l l' : sessions RV XR 0 l l' -> states RV (orun VC SV EV (ostart s st) l) (orun VC SV EV' (ostart s st) l').
Proof. intros H. apply session_pair; [apply start_pair|exact H]. Qed.
End Session.
