(** Work bounds, statuses and failed Gauss-Newton steps. *)
From Coq Require Import List Arith ZArith QArith Bool Lia Permutation.
From Verif Require Import Base Sparse Graph SpecGraph SpecOpt ListLemmas GraphLayout GraphFin GraphBasic GraphVec Optimizer OptLemmas.
Import ListNotations.
Local Open Scope nat_scope.

Section Work.
Context {N : num} {V : Type} (VC : vclass N V) {S : Type} (SV : solver N S).
Notation graph := (graph (N:=N) (V:=V)).
Notation env := (env (N:=N) (V:=V)).
Notation pstate := (pstate (N:=N) (V:=V) (S:=S)).
Notation M := (M (N:=N) (V:=V) (S:=S)).
Context (EV : nat -> env).

(** ** Counting factorisations and iterations *)
Definition counts {A} (k i : nat) (m : M A) : Prop :=
  forall p p' r, m p = (p', r) -> p_nfact p' <= p_nfact p + k /\ ss_iter (p_cur p') <= ss_iter (p_cur p) + i /\ p_set p' = p_set p.
Lemma counts_bind {A B} k1 i1 k2 i2 (m : M A) (f : A -> M B) : counts k1 i1 m -> (forall a, counts k2 i2 (f a)) -> counts (k1 + k2) (i1 + i2) (mbind m f).
Proof.
  intros Hm Hf p p' r E. unfold mbind in E. destruct (m p) as [p1 [a|e|u]] eqn:Em; pose proof (Hm _ _ _ Em) as (A1 & A2 & A3).
  - pose proof (Hf _ _ _ _ E) as (B1 & B2 & B3). repeat split; try lia. congruence.
  - inversion E; subst. repeat split; auto; lia.
  - inversion E; subst. repeat split; auto; lia.
Qed.
Lemma counts_mono {A} k i k' i' (m : M A) : counts k i m -> k <= k' -> i <= i' -> counts k' i' m.
Proof. intros H K I p p' r E. destruct (H _ _ _ E) as (A1 & A2 & A3). repeat split; auto; lia. Qed.
Lemma counts_bind0 {A B} k i (m : M A) (f : A -> M B) : counts 0 0 m -> (forall a, counts k i (f a)) -> counts k i (mbind m f).
Proof. intros H1 H2. apply (counts_bind 0 0 k i); auto. Qed.
Lemma counts_id {A} (m : M A) : (forall p, p_nfact (fst (m p)) = p_nfact p /\ ss_iter (p_cur (fst (m p))) = ss_iter (p_cur p) /\ p_set (fst (m p)) = p_set p) -> counts 0 0 m.
Proof. intros H p p' r E. specialize (H p). rewrite E in H. simpl in H. destruct H as (A1 & A2 & A3). repeat split; auto; lia. Qed.
Ltac cnt0 := apply counts_id; intros p; simpl; auto.
Lemma counts_ret {A} (a : A) : counts 0 0 (ret a).           Proof. cnt0. Qed.
Lemma counts_get {A} (f : pstate -> A) : counts 0 0 (get f).           Proof. cnt0. Qed.
Lemma counts_lift {A} (o : outcome A) : counts 0 0 (lift o).           Proof. cnt0. Qed.
Lemma counts_read {A} (f : pstate -> outcome A) : counts 0 0 (fun p => (p, f p)).           Proof. cnt0. Qed.
Lemma counts_residual1 : counts 0 0 (m_residual1 EV).
Proof. apply counts_id; intros p. unfold m_residual1. destruct (compute_residual_into _ _ _ _). simpl. auto. Qed.
Lemma counts_residual2 : counts 0 0 (m_residual2 EV).
Proof. apply counts_id; intros p. unfold m_residual2. destruct (compute_residual_into _ _ _ _). simpl. auto. Qed.
Lemma counts_sparse : counts 0 0 (m_sparse VC).
Proof. apply counts_id; intros p. unfold m_sparse. destruct (compute_sparse _ _ _). simpl. auto. Qed.
Lemma counts_apply dx : counts 0 0 (m_apply VC dx).
Proof. apply counts_id; intros p. unfold m_apply. destruct (inc_loop _ _ _ _ _ _). simpl. auto. Qed.
Lemma counts_restore xs : counts 0 0 (m_restore VC xs).
Proof. apply counts_id; intros p. unfold m_restore. destruct (restore_loop _ _ _ _). simpl. auto. Qed.
Lemma counts_solve b : counts 0 0 (m_solve SV b).
Proof. apply counts_id; intros p. unfold m_solve. destruct (sv_solve _ _ _). simpl. auto. Qed.
Lemma counts_fail st : counts 0 0 (m_fail st).           Proof. cnt0. Qed.
Lemma counts_status st : counts 0 0 (m_status st).           Proof. cnt0. Qed.
Lemma counts_lambda l : counts 0 0 (m_lambda l).           Proof. cnt0. Qed.
Lemma counts_up : counts 0 0 m_up.           Proof. cnt0. Qed.
Lemma counts_w_r2 x : counts 0 0 (mupd (w_r2 x)).           Proof. cnt0. Qed.
Lemma counts_success : counts 0 0 (mupd (fun p => let c := p_cur p in
             w_cur (Stats true SUCCESS (ss_chi2 c) (ss_delta c) (ss_resnorm c) (ss_iter c) (ss_lambda c)) p)).
Proof. cnt0. Qed.
Lemma counts_factorize H : counts 1 0 (m_factorize SV H).
Proof. intros p p' r E. inversion E; subst. simpl. repeat split; lia. Qed.
Lemma counts_record d r : counts 0 1 (m_record d r).
Proof. intros p p' r' E. inversion E; subst. simpl. repeat split; lia. Qed.

Lemma counts_bind1 {A B} k i (m : M A) (f : A -> M B) : counts 1 0 m -> (forall a, counts k i (f a)) -> counts (Datatypes.S k) i (mbind m f).
Proof. intros H1 H2. apply (counts_bind 1 0 k i); auto. Qed.
Ltac prim0 := first [ apply counts_ret | apply counts_get | apply counts_lift | apply counts_residual1 | apply counts_residual2 | apply counts_sparse
  | apply counts_apply | apply counts_restore | apply counts_solve | apply counts_fail | apply counts_status | apply counts_lambda | apply counts_up
  | apply counts_w_r2 | apply counts_success | apply counts_read ].
Ltac cnt := repeat first
  [ apply counts_bind1; [apply counts_factorize|intros ?] | apply counts_bind0; [solve [prim0 | match goal with |- counts 0 0 (if ?b then _ else _) => destruct b end; prim0]|intros ?]
  | match goal with |- counts _ _ (if ?b then _ else _) => destruct b end
  | eapply counts_mono; [prim0| |]; lia | eapply counts_mono; [apply counts_record| |]; lia ].
Lemma counts_gn : counts 1 1 (gn_step VC SV EV).
Proof. unfold gn_step. cnt. Qed.
Lemma counts_lm_loop n : forall J c dx, counts n 0 (lm_loop VC SV EV n J c dx).
Proof. induction n; intros J c dx; cbn [lm_loop]; cnt; apply IHn. Qed.
Lemma counts_lm : counts 5 1 (lm_step VC SV EV).
Proof.
  unfold lm_step. cnt. apply (counts_bind 5 0 0 1); [apply counts_lm_loop|intros res]. cnt.
Qed.
(** factorisations per iteration *)
Definition per_iter (m : method) : nat := match m with GaussNewton => 1 | LevenbergMarquardt => 5 end.
Lemma counts_one p p' r : one_step VC SV EV p = (p', r) ->
  p_nfact p' <= p_nfact p + per_iter (st_method (p_set p)) /\ ss_iter (p_cur p') <= ss_iter (p_cur p) + 1 /\ p_set p' = p_set p.
Proof. unfold one_step. destruct (st_method (p_set p)); intros E; [apply counts_gn in E|apply counts_lm in E]; exact E. Qed.
Lemma counts_opt_loop n : forall p p' r, opt_loop VC SV EV n p = (p', r) ->
  p_nfact p' <= p_nfact p + n * per_iter (st_method (p_set p)) /\ ss_iter (p_cur p') <= ss_iter (p_cur p) + n /\ p_set p' = p_set p.
Proof.
  induction n; intros p p' r E; cbn [opt_loop] in E.
  - inversion E; subst. simpl. repeat split; lia.
  - destruct (one_step VC SV EV p) as [p1 o] eqn:E1. pose proof (counts_one _ _ _ E1) as (A1 & A2 & A3).
    assert (Hst : forall x, p' = x -> p_nfact x = p_nfact p1 -> ss_iter (p_cur x) = ss_iter (p_cur p1) -> p_set x = p_set p1 ->
       p_nfact p' <= p_nfact p + Datatypes.S n * per_iter (st_method (p_set p)) /\ ss_iter (p_cur p') <= ss_iter (p_cur p) + Datatypes.S n /\ p_set p' = p_set p).
    { intros x -> B1 B2 B3. simpl. repeat split; try lia. congruence. }
    assert (Hgo : forall q, opt_loop VC SV EV n p1 = (p', q) ->
       p_nfact p' <= p_nfact p + Datatypes.S n * per_iter (st_method (p_set p)) /\ ss_iter (p_cur p') <= ss_iter (p_cur p) + Datatypes.S n /\ p_set p' = p_set p).
    { intros q Eq. apply IHn in Eq. destruct Eq as (B1 & B2 & B3). rewrite A3 in B1. simpl. repeat split; try lia. congruence. }
    destruct o as [[]|e|u]; [|inversion E; subst; eapply Hst; reflexivity..].
    destruct (ss_status (p_cur p1)); try (inversion E; subst; eapply Hst; reflexivity).
    all: repeat match type of E with (if ?b then _ else _) = _ => destruct b end; try (inversion E; subst; eapply Hst; reflexivity); eapply Hgo; exact E.
Qed.
Theorem optimize_bounded p p' r : p_hasgraph p = true -> optimize VC SV EV p = (p', r) ->
  p_nfact p' <= p_nfact p + st_max_iter (p_set p) * per_iter (st_method (p_set p)) /\ ss_iter (p_cur p') <= st_max_iter (p_set p).
Proof.
  intros Hg E. unfold optimize in E. rewrite Hg in E. simpl in E.
  destruct (compute_residual _ _ _) as [g [r0|e|u]]; [|inversion E; subst; simpl; split; lia..].
  match type of E with context [opt_loop _ _ _ _ ?q] => destruct (opt_loop VC SV EV (st_max_iter (p_set p)) q) as [p2 o] eqn:E2 end.
  apply counts_opt_loop in E2. simpl in E2. destruct E2 as (A1 & A2 & A3).
  destruct o as [[]|e|u]; inversion E; subst; auto.
  destruct (ss_status (p_cur p2)); simpl; auto.
Qed.

(** ** Statuses *)
Definition failure (s : status) : Prop := s = FAILED \/ s = SINGULAR_HESSIAN \/ s = ILL_CONDITIONED.
Definition healthy (c : stats (N:=N)) : Prop := ss_valid c = true /\ (ss_status c = RUNNING \/ ss_status c = SUCCESS).
Definition failed (c : stats (N:=N)) : Prop := ss_valid c = false /\ failure (ss_status c).

Lemma bind_ok {A B} (m : M A) (f : A -> M B) p p' b : mbind m f p = (p', Ok b) ->
  exists p1 a, m p = (p1, Ok a) /\ f a p1 = (p', Ok b).
Proof. unfold mbind. destruct (m p) as [p1 [a|e|u]]; intros E; inversion E; eauto. Qed.

(** status and validity flag are untouched *)
Definition vst (p p' : pstate) : Prop := ss_valid (p_cur p') = ss_valid (p_cur p) /\ ss_status (p_cur p') = ss_status (p_cur p).
Lemma vst_refl p : vst p p.           Proof. split; auto. Qed.
Lemma vst_trans p1 p2 p3 : vst p1 p2 -> vst p2 p3 -> vst p1 p3.
Proof. intros [A B] [C D]. split; congruence. Qed.
Lemma vst_id {A} (m : M A) : (forall p, vst p (fst (m p))) -> resp vst m.
Proof. intros H p p' r E. specialize (H p). rewrite E in H. exact H. Qed.
Lemma vst_ret {A} (a : A) : resp vst (ret a).           Proof. apply vst_id; intros; split; auto. Qed.
Lemma vst_get {A} (f : pstate -> A) : resp vst (get f).           Proof. apply vst_id; intros; split; auto. Qed.
Lemma vst_lift {A} (o : outcome A) : resp vst (lift o).           Proof. apply vst_id; intros; split; auto. Qed.
Lemma vst_read {A} (f : pstate -> outcome A) : resp vst (fun p => (p, f p)).           Proof. apply vst_id; intros; split; auto. Qed.
Lemma vst_residual1 : resp vst (m_residual1 EV).
Proof. apply vst_id; intros p. unfold m_residual1. destruct (compute_residual_into _ _ _ _). split; auto. Qed.
Lemma vst_residual2 : resp vst (m_residual2 EV).
Proof. apply vst_id; intros p. unfold m_residual2. destruct (compute_residual_into _ _ _ _). split; auto. Qed.
Lemma vst_sparse : resp vst (m_sparse VC).
Proof. apply vst_id; intros p. unfold m_sparse. destruct (compute_sparse _ _ _). split; auto. Qed.
Lemma vst_apply dx : resp vst (m_apply VC dx).
Proof. apply vst_id; intros p. unfold m_apply. destruct (inc_loop _ _ _ _ _ _). split; auto. Qed.
Lemma vst_restore xs : resp vst (m_restore VC xs).
Proof. apply vst_id; intros p. unfold m_restore. destruct (restore_loop _ _ _ _). split; auto. Qed.
Lemma vst_solve b : resp vst (m_solve SV b).
Proof. apply vst_id; intros p. unfold m_solve. destruct (sv_solve _ _ _). split; auto. Qed.
Lemma vst_factorize H : resp vst (m_factorize SV H).           Proof. apply vst_id; intros; split; auto. Qed.
Lemma vst_lambda l : resp vst (m_lambda l).           Proof. apply vst_id; intros; split; auto. Qed.
Lemma vst_record d r : resp vst (m_record d r).           Proof. apply vst_id; intros; split; auto. Qed.
Lemma vst_up : resp vst m_up.           Proof. apply vst_id; intros; split; auto. Qed.
Lemma vst_w_r2 x : resp vst (mupd (w_r2 x)).           Proof. apply vst_id; intros; split; auto. Qed.
Ltac vst1 := first [ apply vst_ret | apply vst_get | apply vst_lift | apply vst_residual1 | apply vst_residual2 | apply vst_sparse
  | apply vst_apply | apply vst_restore | apply vst_solve | apply vst_lambda | apply vst_up | apply vst_record | apply vst_factorize
  | apply vst_w_r2 | apply vst_read ].
Ltac vsts := repeat first [ apply (resp_bind vst vst_trans); [|intros ?] | vst1 | match goal with |- resp vst (if ?b then _ else _) => destruct b end ].
Lemma vst_lm_loop n : forall J c dx, resp vst (lm_loop VC SV EV n J c dx).
Proof. induction n; intros J c dx; cbn [lm_loop]; vsts; apply IHn. Qed.

(** one step keeps the statistics healthy or fails *)
Definition hf (p p' : pstate) : Prop := healthy (p_cur p) -> healthy (p_cur p') \/ failed (p_cur p').
Lemma healthy_vst p p' : vst p p' -> healthy (p_cur p) -> healthy (p_cur p').
Proof. intros [A B] [C D]. split; [congruence|]. rewrite B. exact D. Qed.
Lemma resp_bind_l {A B} (m : M A) (f : A -> M B) : resp vst m -> (forall a, resp hf (f a)) -> resp hf (mbind m f).
Proof.
  intros Hm Hf p p' r E Hp. unfold mbind in E. destruct (m p) as [p1 [a|e|u]] eqn:Em; pose proof (healthy_vst _ _ (Hm _ _ _ Em) Hp) as Hp1.
  - eapply Hf; eauto.
  - inversion E; subst. auto.
  - inversion E; subst. auto.
Qed.
Lemma hf_vst {A} (m : M A) : resp vst m -> resp hf m.
Proof. intros H p p' r E Hp. left. eapply healthy_vst; eauto. Qed.
Lemma hf_fail st : failure st -> resp hf (m_fail st).
Proof. intros H p p' r E Hp. inversion E; subst. right. split; auto. Qed.
Lemma hf_gn : resp hf (gn_step VC SV EV).
Proof.
  unfold gn_step. repeat first [ apply resp_bind_l; [solve [vst1]|intros ?]
    | match goal with |- resp hf (if ?b then _ else _) => destruct b end
    | apply hf_fail; unfold failure; tauto | apply hf_vst; solve [vst1] ].
Qed.
Lemma resp_bind_r {A B} (m : M A) (f : A -> M B) : resp hf m -> (forall a, resp vst (f a)) -> resp hf (mbind m f).
Proof.
  intros Hm Hf p p' r E Hp. unfold mbind in E. destruct (m p) as [p1 [a|e|u]] eqn:Em; pose proof (Hm _ _ _ Em Hp) as Hp1.
  - pose proof (Hf _ _ _ _ E) as [A1 A2]. destruct Hp1 as [[H1 H2]|[H1 H2]]; [left|right]; split; try congruence; rewrite A2; auto.
  - inversion E; subst. auto.
  - inversion E; subst. auto.
Qed.
Lemma hf_lm : resp hf (lm_step VC SV EV).
Proof.
  unfold lm_step. do 5 (apply resp_bind_l; [vst1|intros ?]).
  apply resp_bind_l; [destruct (_ =? _); vst1|intros ?]. apply resp_bind_l; [apply vst_lm_loop|intros res].
  destruct (fst res); [apply hf_vst; vsts|]. do 2 (apply resp_bind_l; [vst1|intros ?]).
  apply resp_bind_r; [|intros; vsts].
  destruct (nltb _ _).
  - intros p p' r E Hp. inversion E; subst. left. split; simpl; auto.
  - apply hf_fail. destruct (nleb _ _); unfold failure; tauto.
Qed.
Lemma hf_one p p' r : one_step VC SV EV p = (p', r) -> hf p p'.
Proof. unfold one_step. destruct (st_method _); [apply hf_gn|apply hf_lm]. Qed.

Definition final_ok (c : stats (N:=N)) : Prop :=
  (healthy c) \/ failed c \/ ss_status c = DIVERGED.
Lemma final_opt_loop n : forall p p', healthy (p_cur p) -> opt_loop VC SV EV n p = (p', Ok tt) -> final_ok (p_cur p').
Proof.
  induction n; intros p p' Hp E; cbn [opt_loop] in E; [inversion E; subst; left; auto|].
  destruct (one_step VC SV EV p) as [p1 [[]|e|u]] eqn:E1; [| |discriminate].
  - pose proof (hf_one _ _ _ E1 Hp) as H1.
    assert (Hs : ss_status (p_cur p1) = RUNNING \/ ss_status (p_cur p1) = SUCCESS -> healthy (p_cur p1)).
    { intros Hs. destruct H1 as [H1|[_ H1]]; auto. exfalso. destruct Hs as [Hs|Hs]; rewrite Hs in H1; destruct H1 as [?|[?|?]]; discriminate. }
    destruct (ss_status (p_cur p1)) eqn:Es.
    3,4,6: inversion E; subst; destruct H1 as [[_ [?|?]]|H1]; [congruence..|]; right; left; auto.
    3: { exfalso. destruct H1 as [[_ [?|?]]|[_ [?|[?|?]]]]; congruence. }
    all: assert (Hh : healthy (p_cur p1)) by (apply Hs; auto).
    all: destruct (nltb _ (st_step_tol _)); [inversion E; subst; left; split; simpl; auto; apply Hh|].
    all: destruct (nltb _ nzero); [inversion E; subst; destruct (nleb _ _); [right; right; auto|left; split; simpl; auto; apply Hh]|].
    all: destruct (nltb _ (st_res_tol _)); [inversion E; subst; left; split; simpl; auto; apply Hh|].
    all: destruct (nltb _ _); [inversion E; subst; right; right; auto|].
    all: eapply IHn; eauto.
  - inversion E; subst. right. left. split; auto. unfold failure; auto.
Qed.
Theorem optimize_status p p' : optimize VC SV EV p = (p', Ok tt) ->
  ss_status (p_cur p') <> RUNNING /\
  (ss_status (p_cur p') = SUCCESS -> ss_valid (p_cur p') = true) /\
  (failure (ss_status (p_cur p')) -> ss_valid (p_cur p') = false) /\
  (ss_valid (p_cur p') = false -> failure (ss_status (p_cur p')) \/ ss_status (p_cur p') = DIVERGED).
Proof.
  intros E. unfold optimize in E. destruct (negb _); [discriminate|].
  destruct (compute_residual _ _ _) as [g [r0|e|u]]; [|inversion E..].
  match type of E with context [opt_loop _ _ _ ?n ?q] => destruct (opt_loop VC SV EV n q) as [p2 o] eqn:E2 end.
  destruct o as [[]|e|u]; inversion E; subst; clear E.
  apply final_opt_loop in E2; [|split; simpl; auto].
  destruct E2 as [[A [B|B]]|[[A B]|A]].
  - rewrite B. simpl. repeat split; auto; try congruence. intros [?|[?|?]]; congruence.
  - rewrite B. simpl. rewrite A, B. repeat split; auto; try congruence. intros [?|[?|?]]; congruence.
  - assert (ss_status (p_cur p2) <> RUNNING) by (destruct B as [B|[B|B]]; congruence).
    destruct (ss_status (p_cur p2)) eqn:Es; try congruence; simpl; rewrite ?Es, ?A; repeat split; auto; try congruence; destruct B as [?|[?|?]]; congruence.
  - rewrite A. simpl. rewrite A. repeat split; auto; try congruence. intros [?|[?|?]]; congruence.
Qed.

(** ** A failed Gauss-Newton step *)
Ltac bind H := let p1 := fresh "p" in let a := fresh "a" in let E := fresh "E" in
  apply bind_ok in H; destruct H as (p1 & a & E & H).
Lemma gn_failed p p' : gn_step VC SV EV p = (p', Ok tt) -> healthy (p_cur p) -> failure (ss_status (p_cur p')) ->
  p_heap p' = p_heap p /\ ss_iter (p_cur p') = ss_iter (p_cur p) /\ ss_chi2 (p_cur p') = ss_chi2 (p_cur p) /\
  ss_resnorm (p_cur p') = ss_resnorm (p_cur p).
Proof.
  intros H Hp Hf.
  assert (K : forall {A} (m : M A), (forall p, p_heap (fst (m p)) = p_heap p /\ p_cur (fst (m p)) = p_cur p) -> forall p p' r, m p = (p', r) -> p_heap p' = p_heap p /\ p_cur p' = p_cur p).
  { intros A m Hm q q' r Eq. specialize (Hm q). rewrite Eq in Hm. auto. }
  unfold gn_step in H.
  bind H. apply K in E; [|intros q; unfold m_residual1; destruct (compute_residual_into _ _ _ _); auto].
  bind H. apply K in E0; [|intros q; unfold m_sparse; destruct (compute_sparse _ _ _); auto].
  bind H. apply K in E1; [|auto]. bind H. apply K in E2; [|auto]. bind H. apply K in E3; [|auto].
  assert (C : p_heap p4 = p_heap p /\ p_cur p4 = p_cur p) by (split; destruct E, E0, E1, E2, E3; congruence).
  clear E E0 E1 E2 E3. destruct C as (C1 & C2).
  destruct (negb a3); [inversion H; subst; simpl; rewrite C2; auto|].
  bind H. apply K in E; [|auto]. bind H. apply K in E0; [|auto]. bind H. apply K in E1; [|auto].
  assert (D : p_heap p7 = p_heap p /\ p_cur p7 = p_cur p) by (split; destruct E, E0, E1; congruence).
  clear E E0 E1. destruct D as (D1 & D2).
  destruct (nltb a5 _); [inversion H; subst; simpl; rewrite D2; auto|].
  destruct (nltb _ _); [inversion H; subst; simpl; rewrite D2; auto|].
  bind H. apply K in E; [|intros q; unfold m_solve; destruct (sv_solve _ _ _); auto].
  destruct E as (E1 & E2).
  destruct (negb _); [inversion H; subst; simpl; rewrite E2, D2, E1, D1; auto|].
  (* the step was applied: the status did not change *)
  exfalso. assert (Hv : vst p8 p').
  { revert H. match goal with |- ?m p8 = _ -> _ => assert (R : resp vst m) by (vsts) end. apply R. }
  destruct Hv as [_ Hv]. rewrite E2, D2 in Hv. destruct Hp as [_ Hs]. rewrite Hv in Hf.
  destruct Hs as [Hs|Hs]; rewrite Hs in Hf; destruct Hf as [?|[?|?]]; discriminate.
Qed.
End Work.
