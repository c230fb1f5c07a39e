(** Frame lemmas for the optimiser. *)
From Coq Require Import List Arith ZArith QArith Bool Lia Permutation.
From Verif Require Import Base Sparse Graph SpecGraph SpecOpt ListLemmas GraphLayout GraphFin GraphBasic GraphVec Optimizer.
Import ListNotations.
Local Open Scope nat_scope.

Section Opt.
Context {N : num} {V : Type} (VC : vclass N V) {S : Type} (SV : solver N S).
Notation graph := (graph (N:=N) (V:=V)).
Notation env := (env (N:=N) (V:=V)).
Notation op := (op (N:=N) (V:=V)).
Notation pstate := (pstate (N:=N) (V:=V) (S:=S)).
Notation M := (M (N:=N) (V:=V) (S:=S)).
Context (EV : nat -> env).
Hypothesis Hok : vclass_ok VC.
Hypothesis HE : forall n, env_ok (EV n).

(** ** The heap and the graph change through value operations only *)
Definition vops (l : list (env * op)) : Prop := Forall (fun eo => env_ok (fst eo) /\ value_op (snd eo)) l.
Definition traced (s s' : @heap V * graph) : Prop := exists l, vops l /\ run VC s l = s'.

Lemma run_app s l1 l2 : run VC s (l1 ++ l2) = run VC (run VC s l1) l2.
Proof. revert s. induction l1 as [|[E o] t IH]; simpl; auto. Qed.
Lemma traced_refl s : traced s s.
Proof. exists []. split; [constructor|reflexivity]. Qed.
Lemma traced_trans s1 s2 s3 : traced s1 s2 -> traced s2 s3 -> traced s1 s3.
Proof. intros (l1 & A1 & B1) (l2 & A2 & B2). exists (l1 ++ l2). split; [apply Forall_app; auto|]. rewrite run_app. congruence. Qed.
Lemma traced_one E s o s' : env_ok E -> value_op o -> fst (step VC E s o) = s' -> traced s s'.
Proof. intros H1 H2 H3. exists [(E, o)]. split; [constructor; auto; constructor|exact H3]. Qed.

Lemma traced_inc ck h (g : graph) vs dx h' r : inc_loop VC ck h g vs dx = (h', r) -> traced (h, g) (h', g).
Proof.
  revert h. induction vs as [|a t IH]; simpl; intros h E; [inversion E; subst; apply traced_refl|].
  unfold hget in E. destruct (nth_error h a) as [v|] eqn:Ha; [|inversion E; subst; apply traced_refl].
  destruct (vconst VC v); [auto|]. destruct (variable_placement g (vid VC v)) as [p|]; [|auto].
  destruct (ck && _); [inversion E; subst; apply traced_refl|].
  destruct (segment _ _ dx) as [s| |]; try (inversion E; subst; apply traced_refl).
  destruct (hupd h a (fun v => vinc VC v s)) as [h1 r1] eqn:U.
  assert (T : traced (h, g) (h1, g)).
  { apply (traced_one (EV 0) _ (OIncVal a s)); simpl; auto. rewrite U. reflexivity. }
  destruct r1 as [[]|e|u]; [eapply traced_trans; eauto|inversion E; subst; auto..].
Qed.
Lemma traced_restore h (g : graph) vs xs h' r : restore_loop VC h vs xs = (h', r) -> traced (h, g) (h', g).
Proof.
  revert h xs. induction vs as [|a t IH]; simpl; intros h xs E; [inversion E; subst; apply traced_refl|].
  destruct xs as [|x xt]; [inversion E; subst; apply traced_refl|].
  destruct (hupd h a (fun v => vset VC v x)) as [h1 r1] eqn:U.
  assert (T : traced (h, g) (h1, g)).
  { apply (traced_one (EV 0) _ (OSetVal a x)); simpl; auto. rewrite U. reflexivity. }
  destruct r1 as [[]|e|u]; [eapply traced_trans; eauto|inversion E; subst; auto..].
Qed.

(** the parts of the state a step does not touch *)
Definition same_frame (p p' : pstate) : Prop :=
  traced (p_heap p, p_graph p) (p_heap p', p_graph p') /\
  p_set p' = p_set p /\ p_init p' = p_init p /\ p_hasgraph p' = p_hasgraph p /\ p_complete p' = p_complete p /\
  p_hvalid p' = p_hvalid p /\ p_hess p' = p_hess p /\ p_caught p' = p_caught p.
Definition frames {A} (m : M A) : Prop := forall p p' r, m p = (p', r) -> same_frame p p'.

Lemma same_frame_refl p : same_frame p p.
Proof. split; [apply traced_refl|]. repeat split; auto. Qed.
Lemma same_frame_trans p1 p2 p3 : same_frame p1 p2 -> same_frame p2 p3 -> same_frame p1 p3.
Proof.
  intros (A & A1 & A2 & A3 & A4 & A5 & A6 & A7) (B & B1 & B2 & B3 & B4 & B5 & B6 & B7).
  split; [eapply traced_trans; eauto|]. repeat split; congruence.
Qed.
Lemma frames_ret {A} (a : A) : frames (ret a).
Proof. intros p p' r E. inversion E; subst. apply same_frame_refl. Qed.
Lemma frames_get {A} (f : pstate -> A) : frames (get f).
Proof. intros p p' r E. inversion E; subst. apply same_frame_refl. Qed.
Lemma frames_read {A} (f : pstate -> outcome A) : frames (fun p => (p, f p)).
Proof. intros p p' r E. inversion E; subst. apply same_frame_refl. Qed.
Lemma frames_lift {A} (o : outcome A) : frames (lift o).
Proof. intros p p' r E. inversion E; subst. apply same_frame_refl. Qed.
Lemma frames_bind {A B} (m : M A) (f : A -> M B) : frames m -> (forall a, frames (f a)) -> frames (mbind m f).
Proof.
  intros Hm Hf p p' r E. unfold mbind in E. destruct (m p) as [p1 [a|e|u]] eqn:Em.
  - eapply same_frame_trans; [eapply Hm; eauto|eapply Hf; eauto].
  - inversion E; subst. eapply Hm; eauto.
  - inversion E; subst. eapply Hm; eauto.
Qed.
Lemma frames_cur (f : pstate -> stats) : frames (fun p => (w_cur (f p) p, Ok tt)).
Proof. intros p p' r E. inversion E; subst. split; [apply traced_refl|]. repeat split; auto. Qed.
Lemma frames_w_r2 x : frames (mupd (w_r2 x)).
Proof. intros p p' r E. inversion E; subst. split; [apply traced_refl|]. repeat split; auto. Qed.
Lemma frames_residual1 : frames (m_residual1 EV).
Proof.
  intros p p' r E. unfold m_residual1 in E. destruct (compute_residual_into _ _ _ _) as [b o] eqn:C. inversion E; subst.
  split; [|repeat split; auto]. simpl. apply (traced_one (EV (p_tick p)) _ (OResidualInto (p_r1 p))); simpl; auto. rewrite C. reflexivity.
Qed.
Lemma frames_residual2 : frames (m_residual2 EV).
Proof.
  intros p p' r E. unfold m_residual2 in E. destruct (compute_residual_into _ _ _ _) as [b o] eqn:C. inversion E; subst.
  split; [|repeat split; auto]. simpl. apply (traced_one (EV (p_tick p)) _ (OResidualInto (p_r2 p))); simpl; auto. rewrite C. reflexivity.
Qed.
Lemma frames_sparse : frames (m_sparse VC).
Proof.
  intros p p' r E. unfold m_sparse in E. destruct (compute_sparse VC _ _) as [g o] eqn:C. inversion E; subst.
  split; [|repeat split; auto]. simpl. apply (traced_one (EV (p_tick p)) _ OSparse); simpl; auto. rewrite C. reflexivity.
Qed.
Lemma frames_factorize H : frames (m_factorize SV H).
Proof. intros p p' r E. inversion E; subst. split; [apply traced_refl|]. repeat split; auto. Qed.
Lemma frames_solve b : frames (m_solve SV b).
Proof.
  intros p p' r E. unfold m_solve in E. destruct (sv_solve _ _ _) as [s x]. inversion E; subst.
  split; [apply traced_refl|]. repeat split; auto.
Qed.
Lemma frames_apply dx : frames (m_apply VC dx).
Proof.
  intros p p' r E. unfold m_apply in E. destruct (inc_loop _ _ _ _ _ _) as [h o] eqn:C. inversion E; subst.
  split; [|repeat split; auto]. simpl. eapply traced_inc; eauto.
Qed.
Lemma frames_restore xs : frames (m_restore VC xs).
Proof.
  intros p p' r E. unfold m_restore in E. destruct (restore_loop _ _ _ _) as [h o] eqn:C. inversion E; subst.
  split; [|repeat split; auto]. simpl. eapply traced_restore; eauto.
Qed.
Lemma frames_fail st : frames (m_fail st).
Proof. apply frames_cur. Qed.
Lemma frames_status st : frames (m_status st).
Proof. apply frames_cur. Qed.
Lemma frames_lambda l : frames (m_lambda l).
Proof. apply frames_cur. Qed.
Lemma frames_record d r : frames (m_record d r).
Proof. apply frames_cur. Qed.
Lemma frames_up : frames m_up.
Proof. intros p p' r E. inversion E; subst. split; [apply traced_refl|]. repeat split; auto. Qed.

Ltac frm := repeat first
  [ apply frames_bind; [|intros ?] | apply frames_ret | apply frames_get | apply frames_lift | apply frames_residual1 | apply frames_residual2
  | apply frames_sparse | apply frames_factorize | apply frames_solve | apply frames_apply | apply frames_restore | apply frames_fail
  | apply frames_status | apply frames_lambda | apply frames_record | apply frames_up | apply frames_w_r2 | apply frames_cur | apply frames_read
  | match goal with |- frames (if ?b then _ else _) => destruct b end ].

Lemma frames_gn : frames (gn_step VC SV EV).
Proof. unfold gn_step. frm. Qed.
Lemma frames_lm_loop n : forall J c dx, frames (lm_loop VC SV EV n J c dx).
Proof. induction n; intros J c dx; cbn [lm_loop]; frm; apply IHn. Qed.
Lemma frames_lm : frames (lm_step VC SV EV).
Proof. unfold lm_step. generalize 5%nat; intros n5. frm; try apply frames_lm_loop. Qed.
Lemma frames_one : frames (one_step VC SV EV).
Proof. intros p p' r E. unfold one_step in E. destruct (st_method _); [eapply frames_gn|eapply frames_lm]; eauto. Qed.

(** ** generic rule: a transitive, reflexive relation respected by the primitives *)
Section Rel.
Context (R : pstate -> pstate -> Prop).
Hypothesis Rrefl : forall p, R p p.
Hypothesis Rtrans : forall p1 p2 p3, R p1 p2 -> R p2 p3 -> R p1 p3.
Definition resp {A} (m : M A) : Prop := forall p p' r, m p = (p', r) -> R p p'.
Lemma resp_id {A} (m : M A) : (forall p, fst (m p) = p) -> resp m.
Proof. intros H p p' r E. specialize (H p). rewrite E in H. simpl in H. subst. auto. Qed.
Lemma resp_bind {A B} (m : M A) (f : A -> M B) : resp m -> (forall a, resp (f a)) -> resp (mbind m f).
Proof.
  intros Hm Hf p p' r E. unfold mbind in E. destruct (m p) as [p1 [a|e|u]] eqn:Em.
  - eapply Rtrans; [eapply Hm; eauto|eapply Hf; eauto].
  - inversion E; subst. eapply Hm; eauto.
  - inversion E; subst. eapply Hm; eauto.
Qed.
End Rel.

(** ** Inversion of a successful residual computation *)
Lemma residual_loop_inv h L buf buf' : residual_loop h L buf = (buf', Ok tt) ->
  Forall (fun e : nat * fplacement => exists (f : factor (N:=N) (V:=V)) r, fp_factor (snd e) = Some f /\ f_res_ref f h = Ok r /\ length r = fp_rdim (snd e)) L.
Proof.
  revert buf. induction L as [|[k fp] t IH]; simpl; intros buf E; constructor.
  - simpl. destruct (fp_factor fp) as [f|]; [|discriminate]. destruct (f_res_ref f h) as [r| |] eqn:Er; try discriminate.
    exists f, r. split; auto. split; auto. unfold write_segment in E. destruct (_ <=? _); [|discriminate].
    destruct (Nat.eqb_spec (length r) (fp_rdim fp)); auto. discriminate.
  - destruct (fp_factor fp) as [f|]; [|discriminate]. destruct (f_res_ref f h) as [r| |]; try discriminate.
    destruct (write_segment _ _ _ _); try discriminate. eauto.
Qed.
Lemma residual_into_inv E h (g : graph) buf r : env_ok E -> fin VC h g ->
  compute_residual_into E h g buf = (r, Ok tt) -> stacked h (get_all_factors g) r.
Proof.
  intros He Hf H. assert (Hall : exists rs, Forall2 (fun f x => f_res_ref f h = Ok x /\ length x = f_rsize f) (get_all_factors g) rs).
  { unfold compute_residual_into in H. destruct (negb _); [discriminate|]. apply residual_loop_inv in H.
    rewrite Forall_forall in H. destruct (order_entries VC E h g He Hf) as (_ & Hall & HL).
    assert (Hin : forall k f, nth_error (get_all_factors g) k = Some f -> exists x, f_res_ref f h = Ok x /\ length x = f_rsize f).
    { intros k f Hk. assert (Hlt : k < length (get_all_factors g)) by (apply nth_error_Some; congruence).
      apply Hall in Hlt. apply in_map_iff in Hlt. destruct Hlt as ((k0, fp) & Ek & Hx). simpl in Ek. subst k0.
      destruct (HL _ _ Hx) as (f1 & A1 & A2 & A3 & A4). destruct (H _ Hx) as (f' & x & B1 & B2 & B3). simpl in B1, B3.
      exists x. split; congruence. }
    revert Hin. generalize (get_all_factors g) as fs. intros fs. induction fs as [|f t IH]; intros Hin.
    - exists []. constructor.
    - destruct (Hin 0 f eq_refl) as (x & Hx). destruct IH as (rs & Hrs). { intros k f' Hk. apply (Hin (Datatypes.S k) f'). exact Hk. }
      exists (x :: rs). constructor; auto. }
  destruct Hall as (rs & Hrs). exists rs. split; auto.
  pose proof (residual_into_spec VC E h g buf rs He Hf Hrs) as X. congruence.
Qed.
Lemma stacked_fun h (fs : list (factor (N:=N) (V:=V))) r r' : stacked h fs r -> stacked h fs r' -> r = r'.
Proof.
  intros (rs & A & ->) (rs' & B & ->). f_equal. revert rs' B. induction A as [|f x fs rs (A1 & _) _ IH]; intros rs' B; inversion B as [|? ? ? ? [B1 _]]; subst; auto.
  f_equal; auto. congruence.
Qed.
End Opt.
