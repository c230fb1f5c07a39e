(** Sessions on displaced problems. *)
From Coq Require Import List Arith ZArith Bool Reals Lra Lia.
From Verif Require Import Base Sparse Graph ListLemmas Geom Vars Real FactorsLin FactorsGeo FactorLib Optimizer SpecTwin TwinGraph TwinRun TwinSession SpecMoved MovedVars MovedFactors.
Import ListNotations.
Local Open Scope R_scope.
Set Bullet Behavior "Strict Subproofs".

Section Moved.
Context (tr org : addr -> nat -> R).
Notation RV := (moved_var tr org).
Notation XR := (fun a : addr => by_vec (tr a)).
Lemma op_moved n o o' : moved_op tr org n o o' -> oop_pair (N:=RN) RV XR n o o'.
Proof.
  destruct o as [o|b st| | |q], o' as [o'|b' st'| | |q']; cbn [moved_op oop_pair]; try (destruct o as [ |[?|]| | | | | | | | | | | | | ]); try (destruct o' as [ |[?|]| | | | | | | | | | | | | ]);
    cbn [op_pair]; intros P; try contradiction; try discriminate P; try (injection P as <-; reflexivity); try (injection P as ->; reflexivity); try exact P; try reflexivity.
  all: match goal with P : ex _ |- _ => destruct P as (lf & lf1 & -> & -> & P); exact (factor_alike tr org lf lf1 P) | _ => congruence end.
Qed.
Lemma session_moved l : forall l' n, moved_session tr org n l l' -> sessions (N:=RN) RV XR n l l'.
Proof. induction l as [|o t IH]; intros [|o' t'] n H; cbn in *; auto. destruct H as (A & B). split; [apply op_moved; exact A|apply IH; exact B]. Qed.
Lemma heap_moved h h' : heaps RV h h' <-> moved_heap tr org h h'.
Proof.
  split.
  - intros H. split; [symmetry; apply (heaps_length RV); exact H|]. intros a v E. specialize (H a). rewrite E in H. destruct (nth_error h' a); [eauto|contradiction].
  - intros (L & H) a. destruct (nth_error h a) as [v|] eqn:E; [destruct (H a v E) as (v' & -> & X); exact X|]. apply nth_error_None in E. rewrite (proj2 (nth_error_None h' a)); [exact I|lia].
Qed.
Context {S : Type} (SV : solver RN S) (EV EV' : nat -> env (N:=RN) (V:=lvar RN)).
Hypothesis HE : forall n, moved_env tr org (EV n) (EV' n).
Lemma alike_same {A} (x y : outcome A) : alike eq x y -> x = y.
Proof. destruct x, y; cbn; intros H; try contradiction; congruence. Qed.
Theorem displaced (s : S) st l l' : moved_session tr org 0 l l' ->
  let p := orun (lib RN) SV EV (ostart s st) l in let p' := orun (lib RN) SV EV' (ostart s st) l' in
  moved_heap tr org (p_heap p) (p_heap p') /\
  p_init p = p_init p' /\ p_cur p = p_cur p' /\ p_complete p = p_complete p' /\ p_hvalid p = p_hvalid p' /\ p_caught p = p_caught p' /\
  snd (optimize (lib RN) SV EV p) = snd (optimize (lib RN) SV EV' p') /\
  (forall q, snd (estimate_covariance (lib RN) SV q p) = snd (estimate_covariance (lib RN) SV q p')) /\
  forall E E' o o', moved_env tr org E E' -> moved_op tr org (length (p_heap p)) (OOp o) (OOp o') ->
    same_answer o (snd (step (lib RN) E (p_heap p, p_graph p) o)) (snd (step (lib RN) E' (p_heap p', p_graph p') o')).
Proof.
  intros H p p'. pose proof (sessions_pair (lib RN) SV RV XR (lib_twinned tr org) EV EV' HE s st l l' (session_moved l l' 0 H)) as T. fold p p' in T.
  pose proof T as [Sh Sg S1 S2 S3 S4 S5 S6 S7 S8 S9 S10 S11 S12 S13 S14].
  split; [apply heap_moved; exact Sh|]. repeat (split; [assumption|]).
  split; [apply alike_same; apply (optimize_rel (lib RN) SV RV XR (lib_twinned tr org) EV EV' HE p p' T)|].
  split; [intros q; apply alike_same; apply (estimate_rel (lib RN) SV RV XR (lib_twinned tr org) q p p' T)|].
  intros E E' o o' HEE P. apply (step_pair (lib RN) RV XR (lib_twinned tr org) E E' _ _ _ _ o o' HEE Sh Sg). exact (op_moved _ _ _ P).
Qed.
End Moved.
