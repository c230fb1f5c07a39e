(** Runs over IEEE doubles for C57 and C62: ends by tolerance, by the iteration limit and by divergence. *)
From Coq Require Import List Arith ZArith QArith Bool.
From Verif Require Import Base Sparse Graph SpecGraph SpecOpt Geom Vars VarsLemmas FactorsLin Optimizer OptLemmas OptMore Float OptToy OptInst OptCases SpecEnds.
Import ListNotations.

(** at most one iteration allowed, default tolerances: the first step goes from 7 to 23/6 *)
Definition one_start : bstate (B0 * bool) := start (lib B0) (solver1 B0) env0 (nzero, true) (defaults GaussNewton 1) case_ops.
Definition one_end := optimize (lib B0) (solver1 B0) EV0 one_start.
Definition tol : B0 := nlit (1#1000000).
Lemma one_facts : let p := fst one_end in snd one_end = Ok tt /\ p_caught p = false /\ ss_status (p_cur p) = SUCCESS /\ ss_iter (p_cur p) = 1%nat /\
  nltb (ss_delta (p_cur p)) (nlit 3) = false /\ nltb (decrease (p_init p) (p_cur p)) (nlit 1) = false.
Proof. vm_compute. auto 10. Qed.
Lemma one_pair : optimize (lib B0) (solver1 B0) EV0 one_start = (fst one_end, Ok tt).
Proof. destruct one_facts as (E & _). revert E. unfold one_end. destruct (optimize _ _ _ _) as [p o]. cbn. intros ->. reflexivity. Qed.
(** default settings: the second step is below the tolerance *)
Lemma two_facts : let p := fst (case_end GaussNewton) in nltb (ss_delta (p_cur p)) tol = true.
Proof. vm_compute. auto. Qed.
(** steps of the wrong sign *)
Definition away_start : bstate (B0 * bool) := start (lib B0) (solver_neg B0) env0 (nzero, true) (defaults GaussNewton 10) case_ops.
Definition away_end := optimize (lib B0) (solver_neg B0) EV0 away_start.
Lemma away_facts : let p := fst away_end in snd away_end = Ok tt /\ p_caught p = false /\ ss_status (p_cur p) = DIVERGED /\ ss_iter (p_cur p) = 1%nat.
Proof. vm_compute. auto 10. Qed.
Lemma away_pair : optimize (lib B0) (solver_neg B0) EV0 away_start = (fst away_end, Ok tt).
Proof. destruct away_facts as (E & _). revert E. unfold away_end. destruct (optimize _ _ _ _) as [p o]. cbn. intros ->. reflexivity. Qed.
