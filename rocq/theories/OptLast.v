(** Which Jacobian a graph holds after optimize(): that of the values at the start of the last iteration. *)
From Coq Require Import List Arith ZArith QArith Bool Lia.
From Verif Require Import Base Sparse Graph SpecGraph SpecOpt SpecEnds Optimizer OptLemmas OptWork OptRun OptMore OptEnds.
Import ListNotations.
Local Open Scope nat_scope.

Section Last.
Context {N : num} {V : Type} (VC : vclass N V) {S : Type} (SV : solver N S).
Notation graph := (graph (N:=N) (V:=V)).
Notation env := (env (N:=N) (V:=V)).
Notation pstate := (pstate (N:=N) (V:=V) (S:=S)).
Notation M := (M (N:=N) (V:=V) (S:=S)).
Context (EV : nat -> env).
Hypothesis HE : forall n, env_ok (EV n).
Ltac bindn H p1 a E := apply bind_ok in H; destruct H as (p1 & a & E & H).

(** ** everything but the Jacobian evaluation leaves the graph alone *)
Definition graphless {A} (m : M A) : Prop := forall p p' a, m p = (p', Ok a) -> p_graph p' = p_graph p.
Lemma gl_bind {A B} (m : M A) (f : A -> M B) : graphless m -> (forall a, graphless (f a)) -> graphless (mbind m f).
Proof. intros H1 H2 p p' b H. bindn H q a E. rewrite (H2 _ _ _ _ H). eauto. Qed.
Ltac gl1 := intros ?p ?q ?a ?H; inversion H; subst; reflexivity.
Lemma gl_residual1 : graphless (m_residual1 EV).
Proof. intros p p' a H. unfold m_residual1 in H. destruct (compute_residual_into _ _ _ _); inversion H; reflexivity. Qed.
Lemma gl_residual2 : graphless (m_residual2 EV).
Proof. intros p p' a H. unfold m_residual2 in H. destruct (compute_residual_into _ _ _ _); inversion H; reflexivity. Qed.
Lemma gl_solve b : graphless (m_solve SV b).
Proof. intros p p' a H. unfold m_solve in H. destruct (sv_solve _ _ _); inversion H; reflexivity. Qed.
Lemma gl_apply dx : graphless (m_apply VC dx).
Proof. intros p p' a H. unfold m_apply in H. destruct (inc_loop _ _ _ _ _ _); inversion H; reflexivity. Qed.
Lemma gl_restore xs : graphless (m_restore VC xs).
Proof. intros p p' a H. unfold m_restore in H. destruct (restore_loop _ _ _ _); inversion H; reflexivity. Qed.
Ltac gl := repeat match goal with
  | |- graphless (mbind _ _) => apply gl_bind; [|intros ?a]
  | |- graphless (if ?b then _ else _) => destruct b
  | |- graphless (m_residual1 _) => apply gl_residual1
  | |- graphless (m_residual2 _) => apply gl_residual2
  | |- graphless (m_solve _ _) => apply gl_solve
  | |- graphless (m_apply _ _) => apply gl_apply
  | |- graphless (m_restore _ _) => apply gl_restore
  | |- graphless (lm_loop _ _ _ _ _ _ _) => fail 1
  | |- graphless _ => solve [gl1]
  end.
Lemma gl_lm_loop n : forall J c dx, graphless (lm_loop VC SV EV n J c dx).
Proof. induction n; intros J c dx; cbn [lm_loop]; gl; apply IHn. Qed.
Ltac gl' := repeat (gl; try apply gl_lm_loop).

Definition evaluated (p : pstate) (g : graph) : Prop :=
  exists Mx, compute_sparse VC (p_heap p) (p_graph p) = (g, Ok Mx) /\ sparse_jacobian g = Ok Mx.
Lemma sparse_held h (g g' : graph) Mx : compute_sparse VC h g = (g', Ok Mx) -> sparse_jacobian g' = Ok Mx.
Proof.
  unfold compute_sparse. destruct (negb _); [discriminate|]. destruct (negb _); [discriminate|]. cbv zeta.
  destruct (sparse_factors_loop _ _ _ _ _ _ _ _) as [[comps data] [[]|e|u]]; [|discriminate..].
  destruct (sc_valid _).
  - destruct (copy_sparse _ _ _ _) as [m [[]|e|u]]; [|discriminate..]. intros E. injection E as <- <-. reflexivity.
  - destruct (populate _ _ _ _ _) as [m|e|u]; [|discriminate..]. intros E. injection E as <- <-. reflexivity.
Qed.
Lemma m_sparse_held (p p' : pstate) J : m_sparse VC p = (p', Ok J) -> evaluated p (p_graph p').
Proof.
  unfold m_sparse. destruct (compute_sparse VC (p_heap p) (p_graph p)) as [g o] eqn:E. intros H. injection H as <- Ho.
  destruct o as [Mx|e|u]; try discriminate. exists Mx. split; [exact E|]. exact (sparse_held _ _ _ _ E).
Qed.
Lemma residual1_heap (p p' : pstate) a : m_residual1 EV p = (p', a) -> p_heap p' = p_heap p /\ p_graph p' = p_graph p.
Proof. unfold m_residual1. destruct (compute_residual_into _ _ _ _). intros H. injection H as <- _. auto. Qed.
Lemma gn_held (p p' : pstate) : gn_step VC SV EV p = (p', Ok tt) -> evaluated p (p_graph p').
Proof.
  intros H. unfold gn_step in H. bindn H q1 a1 Q1. apply residual1_heap in Q1. destruct Q1 as (A & B).
  bindn H q2 J Q2. apply m_sparse_held in Q2. unfold evaluated in Q2. rewrite A, B in Q2.
  assert (p_graph p' = p_graph q2) as ->; [|exact Q2]. revert H.
  match goal with |- ?m q2 = _ -> _ => cut (graphless m); [intros G E; exact (G _ _ _ E)|] end. gl'.
Qed.
Lemma lm_held (p p' : pstate) : lm_step VC SV EV p = (p', Ok tt) -> evaluated p (p_graph p').
Proof.
  intros H. unfold lm_step in H. bindn H q1 a1 Q1. apply residual1_heap in Q1. destruct Q1 as (A & B).
  bindn H q2 J Q2. apply m_sparse_held in Q2. unfold evaluated in Q2. rewrite A, B in Q2.
  assert (p_graph p' = p_graph q2) as ->; [|exact Q2]. revert H. generalize 5%nat. intros n5.
  match goal with |- ?m q2 = _ -> _ => cut (graphless m); [intros G E; exact (G _ _ _ E)|] end. gl'.
Qed.
Lemma step_held (p p' : pstate) : one_step VC SV EV p = (p', Ok tt) -> evaluated p (p_graph p').
Proof. unfold one_step. destruct (st_method _); [apply gn_held|apply lm_held]. Qed.

(** ** the last iteration of the loop *)
Lemma loop_last n : forall (p p' : pstate), healthy (p_cur p) -> p_caught p = false ->
  opt_loop VC SV EV (Datatypes.S n) p = (p', Ok tt) -> p_caught p' = false ->
  exists j q p1, j <= n /\ at_iteration VC SV EV p j q /\ p_caught q = false /\ one_step VC SV EV q = (p1, Ok tt) /\ p_heap p' = p_heap p1 /\ p_graph p' = p_graph p1 /\
    (ss_iter (p_cur p') = ss_iter (p_cur p) + Datatypes.S j \/ ss_iter (p_cur p') = ss_iter (p_cur p) + j /\ failure (ss_status (p_cur p')) /\ p_heap p' = p_heap q).
Proof.
  induction n as [|n IH]; intros p p' Hp Hc0 E Hc.
  all: change (opt_loop VC SV EV (Datatypes.S ?k) p) with (let prev := p_cur p in match one_step VC SV EV p with
    | (p1, UB u) => (p1, UB u) | (p1, Throw _) => m_fail FAILED (w_caught true p1)
    | (p1, Ok _) => let st := p_set p1 in let cur := p_cur p1 in
      match ss_status cur with
      | SINGULAR_HESSIAN | ILL_CONDITIONED | FAILED => (p1, Ok tt)
      | _ => if nltb (ss_delta cur) (st_step_tol st) then m_status SUCCESS p1 else
        let impr := nsub (ss_resnorm prev) (ss_resnorm cur) in
        if nltb impr nzero then m_status (if nleb (ss_resnorm (p_init p1)) (ss_resnorm cur) then DIVERGED else SUCCESS) p1
        else if nltb impr (st_res_tol st) then m_status SUCCESS p1
        else if nltb (nmul (nlit 10) (ss_resnorm (p_init p1))) (ss_resnorm cur) then m_fail DIVERGED p1
        else opt_loop VC SV EV k p1
      end end) in E; cbv zeta in E.
  all: destruct (one_step VC SV EV p) as [p1 [[]|e|u]] eqn:E1; [|inversion E; subst; discriminate|discriminate].
  all: pose proof (frames_one VC SV EV HE _ _ _ E1) as (_ & F1 & F4 & _ & _ & _ & _ & F2); pose proof (hf_one VC SV EV _ _ _ E1 Hp) as H1.
  all: assert (A0 : at_iteration VC SV EV p 0 p) by (split; [reflexivity|]; split; [exact Hp|]; split; [lia|]; auto).
  all: assert (Fail : failure (ss_status (p_cur p1)) -> p' = p1 ->
    exists j q p1, j <= 0 /\ at_iteration VC SV EV p j q /\ p_caught q = false /\ one_step VC SV EV q = (p1, Ok tt) /\ p_heap p' = p_heap p1 /\ p_graph p' = p_graph p1 /\
    (ss_iter (p_cur p') = ss_iter (p_cur p) + Datatypes.S j \/ ss_iter (p_cur p') = ss_iter (p_cur p) + j /\ failure (ss_status (p_cur p')) /\ p_heap p' = p_heap q))
    by (intros Ff ->; exists 0, p, p1; split; [lia|]; split; [exact A0|]; split; [exact Hc0|]; split; [exact E1|]; split; [reflexivity|]; split; [reflexivity|];
      unfold one_step in E1; destruct (st_method (p_set p)); [right; destruct (gn_failed VC SV EV _ _ E1 Hp Ff) as (X & Y & _); rewrite Y; split; [lia|]; auto|left; rewrite (lm_iter VC SV EV _ _ E1); lia]).
  all: assert (Stop : healthy (p_cur p1) -> p_heap p' = p_heap p1 -> p_graph p' = p_graph p1 -> ss_iter (p_cur p') = ss_iter (p_cur p1) ->
    exists j q p1, j <= 0 /\ at_iteration VC SV EV p j q /\ p_caught q = false /\ one_step VC SV EV q = (p1, Ok tt) /\ p_heap p' = p_heap p1 /\ p_graph p' = p_graph p1 /\
    (ss_iter (p_cur p') = ss_iter (p_cur p) + Datatypes.S j \/ ss_iter (p_cur p') = ss_iter (p_cur p) + j /\ failure (ss_status (p_cur p')) /\ p_heap p' = p_heap q))
    by (intros Hh X Y Z; exists 0, p, p1; split; [lia|]; split; [exact A0|]; split; [exact Hc0|]; split; [exact E1|]; split; [exact X|]; split; [exact Y|];
      left; rewrite Z, (step_iter VC SV EV _ _ E1 Hh); lia).
  - destruct (ss_status (p_cur p1)) eqn:Es; try (apply Fail; [unfold failure; tauto|inversion E; reflexivity]).
    3: { exfalso. destruct H1 as [[_ [?|?]]|[_ [?|[?|?]]]]; congruence. }
    all: assert (Hh : healthy (p_cur p1)) by (destruct H1 as [H1|[_ [?|[?|?]]]]; auto; congruence).
    all: repeat match type of E with (if ?b then _ else _) = _ => destruct b end; inversion E; subst; apply Stop; auto.
  - assert (Up : (exists j q p1, j <= 0 /\ at_iteration VC SV EV p j q /\ p_caught q = false /\ one_step VC SV EV q = (p1, Ok tt) /\ p_heap p' = p_heap p1 /\ p_graph p' = p_graph p1 /\
    (ss_iter (p_cur p') = ss_iter (p_cur p) + Datatypes.S j \/ ss_iter (p_cur p') = ss_iter (p_cur p) + j /\ failure (ss_status (p_cur p')) /\ p_heap p' = p_heap q)) ->
      exists j q p1, j <= Datatypes.S n /\ at_iteration VC SV EV p j q /\ p_caught q = false /\ one_step VC SV EV q = (p1, Ok tt) /\ p_heap p' = p_heap p1 /\ p_graph p' = p_graph p1 /\
    (ss_iter (p_cur p') = ss_iter (p_cur p) + Datatypes.S j \/ ss_iter (p_cur p') = ss_iter (p_cur p) + j /\ failure (ss_status (p_cur p')) /\ p_heap p' = p_heap q))
      by (intros (j & q & w & X & Y); exists j, q, w; split; [lia|exact Y]).
    destruct (ss_status (p_cur p1)) eqn:Es; try (apply Up, Fail; [unfold failure; tauto|inversion E; reflexivity]).
    3: { exfalso. destruct H1 as [[_ [?|?]]|[_ [?|[?|?]]]]; congruence. }
    all: assert (Hh : healthy (p_cur p1)) by (destruct H1 as [H1|[_ [?|[?|?]]]]; auto; congruence).
    all: pose proof (step_iter VC SV EV _ _ E1 Hh) as Hi.
    all: destruct (nltb (ss_delta (p_cur p1)) (st_step_tol (p_set p1))) eqn:C1; [inversion E; subst; apply Up, Stop; auto|].
    all: destruct (nltb (nsub (ss_resnorm (p_cur p)) (ss_resnorm (p_cur p1))) nzero) eqn:C2; [inversion E; subst; apply Up, Stop; auto|].
    all: destruct (nltb (nsub (ss_resnorm (p_cur p)) (ss_resnorm (p_cur p1))) (st_res_tol (p_set p1))) eqn:C3; [inversion E; subst; apply Up, Stop; auto|].
    all: destruct (nltb (nmul (nlit 10) (ss_resnorm (p_init p1))) (ss_resnorm (p_cur p1))) eqn:C4; [inversion E; subst; apply Up, Stop; auto|].
    all: destruct (IH p1 p') as (j & q & w & K1 & K2 & K3 & K4 & K5 & K6 & K7); auto; [congruence|].
    all: exists (Datatypes.S j), q, w; split; [lia|]; split; [|split; [exact K3|split; [exact K4|split; [exact K5|split; [exact K6|]]]]].
    2,4: rewrite Hi in K7; destruct K7 as [K7|(K7 & K8)]; [left|right; split; [|exact K8]]; rewrite K7; lia.
    all: destruct K2 as (L1 & L2 & L3 & L4 & L5); split; [cbn [opt_loop]; rewrite E1, Es, C1, C2, C3, C4; exact L1|]; split; [exact L2|]; split; [rewrite L3, Hi; lia|]; split; congruence.
Qed.

Theorem last_jacobian (p p' : pstate) : optimize VC SV EV p = (p', Ok tt) -> p_caught p' = false -> 1 <= st_max_iter (p_set p) ->
  exists j q Mx, j < st_max_iter (p_set p) /\
    optimize VC SV EV (limit j p) = (q, Ok tt) /\ p_caught q = false /\ ss_status (p_cur q) = SUCCESS /\ ss_iter (p_cur q) = j /\
    (ss_iter (p_cur p') = Datatypes.S j \/ ss_iter (p_cur p') = j /\ failure (ss_status (p_cur p')) /\ p_heap p' = p_heap q) /\
    compute_sparse VC (p_heap q) (p_graph q) = (p_graph p', Ok Mx) /\ sparse_jacobian (p_graph p') = Ok Mx.
Proof.
  intros E Hc Hn. apply optimize_ok in E. destruct E as (Hg & g & r & p2 & C & E & ->).
  destruct (end_stats p2) as (D1 & D2 & D3 & D4 & D5 & D6). cbn zeta in *. rewrite D5 in Hc.
  destruct (st_max_iter (p_set p)) as [|n]; [lia|].
  destruct (loop_last n (begin_run g r p) p2) as (j & q & w & K1 & K2 & K3 & K4 & K5 & K6 & K7); auto; [split; simpl; auto|].
  destruct (step_held _ _ K4) as (Mx & S1 & S2).
  assert (Hp : p_heap (end_run p2) = p_heap p2 /\ p_graph (end_run p2) = p_graph p2) by (unfold end_run; destruct (ss_status (p_cur p2)); auto). destruct Hp as (P1 & P2).
  assert (Hq : p_heap (end_run (limit j q)) = p_heap q /\ p_graph (end_run (limit j q)) = p_graph q) by (unfold end_run; destruct (ss_status (p_cur (limit j q))); auto). destruct Hq as (Q1 & Q2).
  destruct (end_stats (limit j q)) as (_ & _ & Z3 & _ & Z5 & Z6).
  exists j, (end_run (limit j q)), Mx. split; [lia|]. rewrite Q1, Q2, P1, P2, K6. split; [|split; [rewrite Z5; exact K3|split; [apply Z6; apply K2|split; [|split; [|split; [exact S1|exact S2]]]]]].
  - destruct K2 as (L1 & _). apply optimize_ok. split; [exact Hg|]. exists g, r, (limit j q). split; [exact C|]. split; auto.
    change (begin_run g r (limit j p)) with (limit j (begin_run g r p)). change (st_max_iter (p_set (limit j p))) with j.
    rewrite comm_opt_loop, L1. reflexivity.
  - rewrite Z3. destruct K2 as (_ & _ & L3 & _). exact L3.
  - simpl ss_iter in K7 at 2. rewrite D3. destruct K7 as [K7|(K7 & K8 & K9)]; [left; exact K7|right; split; [exact K7|]]. split; [|exact K9].
    unfold end_run. destruct K8 as [X|[X|X]]; rewrite X; simpl; rewrite X; unfold failure; auto.
Qed.
End Last.
