(** The runs of PartCase and UnitsCase do not fail. *)
From Coq Require Import List Arith ZArith QArith Bool Reals Lra Lia.
From Verif Require Import Base Sparse Graph SpecGraph SpecOpt Geom Vars VarsLemmas FactorsLin Optimizer Real SpecSolver OptToy Ldlt LdltSolver OptReal LdltCase FactorLib SpecShape SpecSteps OptWork OrderCase PartCase UnitsCase.
Import ListNotations.
Local Open Scope nat_scope.
Set Bullet Behavior "Strict Subproofs".

Lemma whole_sound : exists p', optimize (lib RN) RS EV0 whole = (p', Ok tt) /\ p_caught p' = false /\ ~ failure (ss_status (p_cur p')).
Proof.
  apply (o_run RS pops whole (pjac 2) RS_factorising backwards_sized whole_hist eq_refl eq_refl eq_refl); [|exact whole_jac|exact whole_posed].
  constructor; [apply p_never; auto|constructor; [apply p_never; auto|constructor]].
Qed.
Lemma alone_sound : exists p', optimize (lib RN) LS EV0 alone = (p', Ok tt) /\ p_caught p' = false /\ ~ failure (ss_status (p_cur p')).
Proof.
  apply (o_run LS pops' alone (pjac 1) LS_factorising natural_sized alone_hist eq_refl eq_refl eq_refl); [|exact alone_jac|exact alone_posed].
  constructor; [apply p_never; auto|constructor].
Qed.
Lemma ustart_sound : exists p', optimize (lib RN) LS EV0 ustart = (p', Ok tt) /\ p_caught p' = false /\ ~ failure (ss_status (p_cur p')).
Proof.
  apply (o_run LS uops ustart ujac LS_factorising natural_sized ustart_hist eq_refl eq_refl eq_refl); [|exact ujacobian|exact u_posed].
  apply Forall_cons; [exists (LGenericPrior 10 0 [15%R] 10%R)|apply Forall_cons; [exists (LGenericBetween 11 0 1 2 1 10%R)|apply Forall_nil]]; (split; [reflexivity|]);
    (split; [|exact (fun H => H)]); cbn [well_used]; unfold var_at, of_size; repeat split; (eexists; split; [reflexivity|split; reflexivity]).
Qed.
