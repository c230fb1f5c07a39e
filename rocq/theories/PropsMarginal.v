(** C81, C82, C83: the covariances do not depend on the order of insertion, nor on unconnected parts of the graph, and follow the units (exact arithmetic, Gauss-Newton). *)
From Coq Require Import List Arith ZArith QArith Bool Permutation Reals Lra Lia.
From Verif Require Import Base Sparse Graph SpecGraph SpecOpt Geom Vars VarsLemmas FactorsLin FactorLib SpecShape Optimizer Real SpecSolver SpecSteps OptStepsLib SpecTwin SpecUnits SpecPart PartLib SpecMarginal OptWork MarginalRun MarginalUnits.
From Verif Require Import OptToy Ldlt LdltSolver OptReal LdltCase OptDefined Gram OrderCase PartCase UnitsCase MarginalCase.
Import ListNotations.
Local Open Scope nat_scope.
Set Bullet Behavior "Strict Subproofs".

Theorem C81_insertion_order_covariances : forall {V : Type} (VC : vclass RN V) {S S' : Type} (SV : solver RN S) (SV' : solver RN S') (EV EV' : nat -> env (N:=RN) (V:=V)),
  vclass_ok VC -> (forall n, env_ok (EV n)) -> (forall n, env_ok (EV' n)) -> factorising_solver SV -> factorising_solver SV' ->
  forall l1 l1' l2 l2' h1 h1' g1 g1' (p p' : pstate (N:=RN) (V:=V) (S:=S)) (q q' : pstate (N:=RN) (V:=V) (S:=S')),
  finalized_history VC l1 l2 h1 (p_heap p) g1 (p_graph p) -> unfinalized VC ([], empty_graph) l1 ->
  finalized_history VC l1' l2' h1' (p_heap q) g1' (p_graph q) -> unfinalized VC ([], empty_graph) l1' ->
  let vs := get_all_variables (p_graph p) in let fs := get_all_factors (p_graph p) in
  Permutation vs (get_all_variables (p_graph q)) -> Permutation fs (get_all_factors (p_graph q)) -> p_heap p = p_heap q -> p_set p = p_set q ->
  Forall (factor_wf VC (p_heap p) vs) fs -> some_active VC (p_heap p) fs -> Forall buf_indep fs -> shape_contract VC (p_heap p) fs ->
  st_method (p_set p) = GaussNewton -> 1 <= st_max_iter (p_set p) -> p_hvalid p = false -> p_hvalid q = false ->
  optimize VC SV EV p = (p', Ok tt) -> optimize VC SV' EV' q = (q', Ok tt) ->
  ~ failure (ss_status (p_cur p')) -> ~ failure (ss_status (p_cur q')) ->
  exists p1 q1, prepare SV p' = (p1, Ok tt) /\ prepare SV' q' = (q1, Ok tt) /\
    forall b, In b vs -> 0 < width VC (p_heap p) b -> same_answer (snd (estimate_covariance VC SV (Some b) p1)) (snd (estimate_covariance VC SV' (Some b) q1)).
Proof. exact @order_covariances. Qed.

Theorem C82_covariances_in_other_units : forall (u : addr -> nat -> R) (k : R), (forall a i, (0 < u a i)%R) -> (0 < k)%R ->
  forall {S S' : Type} (SV : solver RN S) (SV' : solver RN S') (EV EV' : nat -> env (N:=RN) (V:=lvar RN)),
  (forall n, env_ok (EV n)) -> (forall n, env_ok (EV' n)) -> factorising_solver SV -> factorising_solver SV' ->
  forall l1 l1' l2 l2' h1 h1' g1 g1' (p p' : pstate (N:=RN) (V:=lvar RN) (S:=S)) (q q' : pstate (N:=RN) (V:=lvar RN) (S:=S')),
  finalized_history (lib RN) l1 l2 h1 (p_heap p) g1 (p_graph p) -> unfinalized (lib RN) ([], empty_graph) l1 -> careful ([], empty_graph) l1 -> careful (h1, g1) l2 ->
  finalized_history (lib RN) l1' l2' h1' (p_heap q) g1' (p_graph q) -> unfinalized (lib RN) ([], empty_graph) l1' -> careful ([], empty_graph) l1' -> careful (h1', g1') l2' ->
  let vs := get_all_variables (p_graph p) in let fs := get_all_factors (p_graph p) in let fs' := get_all_factors (p_graph q) in
  heaps (rescaled_var u) (p_heap p) (p_heap q) -> get_all_variables (p_graph q) = vs -> Forall2 (same_measurement u k) fs fs' ->
  Forall (factor_wf (lib RN) (p_heap p) vs) fs -> some_active (lib RN) (p_heap p) fs ->
  st_method (p_set p) = GaussNewton -> st_method (p_set q) = GaussNewton -> st_rate (p_set p) = st_rate (p_set q) ->
  1 <= st_max_iter (p_set p) -> 1 <= st_max_iter (p_set q) -> p_hvalid p = false -> p_hvalid q = false ->
  optimize (lib RN) SV EV p = (p', Ok tt) -> optimize (lib RN) SV' EV' q = (q', Ok tt) -> ~ failure (ss_status (p_cur p')) -> ~ failure (ss_status (p_cur q')) ->
  ss_iter (p_cur p') = ss_iter (p_cur q') ->
  exists p1 q1, prepare SV p' = (p1, Ok tt) /\ prepare SV' q' = (q1, Ok tt) /\
    forall b, In b vs -> 0 < width (lib RN) (p_heap p) b -> exists P Q, let n := width (lib RN) (p_heap p) b in
      mrows P = n /\ mcols P = n /\ mrows Q = n /\ mcols Q = n /\
      (forall i j, i < n -> j < n -> mat_at Q i j = (k * k * (u b i * u b j) * mat_at P i j)%R) /\
      answer n P (snd (estimate_covariance (lib RN) SV (Some b) p1)) /\ answer n Q (snd (estimate_covariance (lib RN) SV' (Some b) q1)).
Proof. exact @units_covariances. Qed.

Theorem C83_unconnected_part_covariances : forall {V : Type} (VC : vclass RN V) {S S' : Type} (SV : solver RN S) (SV' : solver RN S') (EV EV' : nat -> env (N:=RN) (V:=V)),
  vclass_ok VC -> (forall n, env_ok (EV n)) -> (forall n, env_ok (EV' n)) -> factorising_solver SV -> factorising_solver SV' ->
  forall l1 l1' l2 l2' h1 h1' g1 g1' (p p' : pstate (N:=RN) (V:=V) (S:=S)) (q q' : pstate (N:=RN) (V:=V) (S:=S')),
  finalized_history VC l1 l2 h1 (p_heap p) g1 (p_graph p) -> unfinalized VC ([], empty_graph) l1 ->
  finalized_history VC l1' l2' h1' (p_heap q) g1' (p_graph q) -> unfinalized VC ([], empty_graph) l1' ->
  let vs := get_all_variables (p_graph p) in let fs := get_all_factors (p_graph p) in
  let vs' := get_all_variables (p_graph q) in let fs' := get_all_factors (p_graph q) in
  p_heap p = p_heap q -> part_of_graph VC (p_heap p) vs vs' fs fs' ->
  Forall (factor_wf VC (p_heap p) vs) fs -> Forall (factor_wf VC (p_heap p) vs') fs' -> some_active VC (p_heap p) fs' ->
  Forall buf_indep fs -> shape_contract VC (p_heap p) fs -> Forall reads_only fs' ->
  st_method (p_set p) = GaussNewton -> st_method (p_set q) = GaussNewton -> st_rate (p_set p) = st_rate (p_set q) ->
  1 <= st_max_iter (p_set p) -> 1 <= st_max_iter (p_set q) -> p_hvalid p = false -> p_hvalid q = false ->
  optimize VC SV EV p = (p', Ok tt) -> optimize VC SV' EV' q = (q', Ok tt) -> ~ failure (ss_status (p_cur p')) -> ~ failure (ss_status (p_cur q')) ->
  ss_iter (p_cur p') = ss_iter (p_cur q') ->
  exists p1 q1, prepare SV p' = (p1, Ok tt) /\ prepare SV' q' = (q1, Ok tt) /\
    forall b, In b vs' -> 0 < width VC (p_heap p) b -> same_answer (snd (estimate_covariance VC SV (Some b) p1)) (snd (estimate_covariance VC SV' (Some b) q1)).
Proof. exact @part_covariances. Qed.

(** x = 7 and y = 1, x measured as 3 and y - x as 2; the second graph was filled in the opposite order and its unknowns are eliminated in the opposite order *)
Example C81_case : exists p' q' p1 q1, optimize (lib RN) RS EV0 ostart = (p', Ok tt) /\ optimize (lib RN) LS EV0 ostart' = (q', Ok tt) /\
  prepare RS p' = (p1, Ok tt) /\ prepare LS q' = (q1, Ok tt) /\
  same_answer (snd (estimate_covariance (lib RN) RS (Some 1) p1)) (snd (estimate_covariance (lib RN) LS (Some 1) q1)).
Proof.
  destruct ostart_run as (p' & E & _ & Nf). destruct ostart_run' as (q' & E' & _ & Nf'). destruct o_lists as (V1 & V2 & F1 & F2 & Eh & Es & Em).
  destruct ostart_hist as (A & B & C & D & F). destruct ostart_hist' as (A' & B' & _). destruct (lib_history _ _ _ _ _ _ A C I) as (G1 & G2).
  destruct (C81_insertion_order_covariances (lib RN) RS LS EV0 EV0 lib_ok EV0_ok EV0_ok RS_factorising LS_factorising _ _ _ _ _ _ _ _ ostart p' ostart' q' A B A' B') as (p1 & q1 & X1 & X2 & X3); [..|idtac]; [| |exact Eh|exact Es|exact D|exact F|exact G1|exact G2|exact Em|exact (le_n 1)|reflexivity|reflexivity|exact E|exact E'|exact Nf|exact Nf'|].
  - rewrite V1, V2. exact (Permutation_rev [0; 1; 2]).
  - rewrite F1, F2. exact (Permutation_rev [of1; of2]).
  - exists p', q', p1, q1. split; [exact E|]. split; [exact E'|]. split; [exact X1|]. split; [exact X2|]. apply X3.
    + rewrite V1. cbn. auto.
    + change (p_heap ostart) with oheap. exact Nat.lt_0_1.
Qed.

(** the same graph, and the graph in units of one fifth and with twice the standard deviations: variances are multiplied by 4 * 25 *)
Example C82_case : exists p' q' p1 q1 P Q, optimize (lib RN) RS EV0 ostart = (p', Ok tt) /\ optimize (lib RN) LS EV0 ustart = (q', Ok tt) /\
  prepare RS p' = (p1, Ok tt) /\ prepare LS q' = (q1, Ok tt) /\
  answer 1 P (snd (estimate_covariance (lib RN) RS (Some 1) p1)) /\ answer 1 Q (snd (estimate_covariance (lib RN) LS (Some 1) q1)) /\ (mat_at Q 0 0 = 100 * mat_at P 0 0)%R.
Proof.
  destruct ostart_run as (p' & E & Hc & Nf). destruct ustart_sound as (q' & E' & Hc' & Nf').
  pose proof (one_iteration RS EV0 EV0_ok ostart p' E Hc Nf eq_refl) as Hi. pose proof (one_iteration LS EV0 EV0_ok ustart q' E' Hc' Nf' eq_refl) as Hi'.
  destruct ostart_hist as (A & B & C & D & F). destruct ustart_hist as (A' & B' & C' & _).
  destruct (C82_covariances_in_other_units u5 2 ltac:(intros a i; unfold u5; lra) ltac:(lra) RS LS EV0 EV0 EV0_ok EV0_ok RS_factorising LS_factorising _ _ _ _ _ _ _ _ ostart p' ustart q' A B C I A' B' C' I
    u_heaps eq_refl u_measured D F eq_refl eq_refl (eq_trans (y := st_rate (lset GaussNewton 1)) eq_refl eq_refl) (le_n 1) (le_n 1) eq_refl eq_refl E E' Nf Nf' (eq_trans Hi (eq_sym Hi'))) as (p1 & q1 & X1 & X2 & X3).
  destruct (X3 1) as (P & Q & X). { change (get_all_variables (p_graph ostart)) with [0; 1; 2]. cbn. auto. } { change (p_heap ostart) with oheap. exact Nat.lt_0_1. }
  destruct X as (_ & _ & _ & _ & Y & Z1 & Z2). exists p', q', p1, q1, P, Q. split; [exact E|]. split; [exact E'|]. split; [exact X1|]. split; [exact X2|]. split; [exact Z1|]. split; [exact Z2|].
  rewrite (Y 0 0); [unfold u5; lra|apply Nat.lt_0_1|apply Nat.lt_0_1].
Qed.

(** x = 7 and y = 1 are both measured against the constant 2; y and its measurement are missing from the second graph *)
Example C83_case : exists p' q' p1 q1, optimize (lib RN) RS EV0 whole = (p', Ok tt) /\ optimize (lib RN) LS EV0 alone = (q', Ok tt) /\
  prepare RS p' = (p1, Ok tt) /\ prepare LS q' = (q1, Ok tt) /\
  same_answer (snd (estimate_covariance (lib RN) RS (Some 0) p1)) (snd (estimate_covariance (lib RN) LS (Some 0) q1)).
Proof.
  destruct whole_sound as (p' & E & Hc & Nf). destruct alone_sound as (q' & E' & Hc' & Nf').
  pose proof (one_iteration RS EV0 EV0_ok whole p' E Hc Nf eq_refl) as Hi. pose proof (one_iteration LS EV0 EV0_ok alone q' E' Hc' Nf' eq_refl) as Hi'.
  destruct whole_hist as (A & B & C & D & F). destruct alone_hist as (A' & B' & C' & D' & F'). destruct (lib_history _ _ _ _ _ _ A C I) as (G1 & G2).
  assert (Rd : Forall reads_only (get_all_factors (p_graph alone))).
  { change (get_all_factors (p_graph alone)) with [pf1]. constructor; [|constructor]. exact (lib_reads_only (LGenericBetween (N:=RN) 10 2 0 2 1 1%R)). }
  destruct (C83_unconnected_part_covariances (lib RN) RS LS EV0 EV0 lib_ok EV0_ok EV0_ok RS_factorising LS_factorising _ _ _ _ _ _ _ _ whole p' alone q' A B A' B'
    (eq_trans (y:=oheap) eq_refl eq_refl) p_part D D' F' G1 G2 Rd eq_refl eq_refl (eq_trans (y := st_rate (lset GaussNewton 1)) eq_refl eq_refl) (le_n 1) (le_n 1) eq_refl eq_refl E E' Nf Nf' (eq_trans Hi (eq_sym Hi'))) as (p1 & q1 & X1 & X2 & X3).
  exists p', q', p1, q1. split; [exact E|]. split; [exact E'|]. split; [exact X1|]. split; [exact X2|]. apply X3.
  - change (get_all_variables (p_graph alone)) with [2; 0]. cbn. auto.
  - change (p_heap whole) with oheap. exact Nat.lt_0_1.
Qed.

Print Assumptions C81_insertion_order_covariances.
Print Assumptions C82_covariances_in_other_units.
Print Assumptions C83_unconnected_part_covariances.
