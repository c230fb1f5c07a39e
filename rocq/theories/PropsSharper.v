(** Property C101: at an optimum, holding a variable constant or adding a measurement that agrees never makes the others less certain, whatever the factors.  Statements use SpecGraph, SpecOpt, SpecSteps, SpecRest, SpecPinned, SpecHeld, SpecGrown and SpecAgree. *)
From Coq Require Import List Arith ZArith QArith Bool Reals Lra Lia Permutation.
From Verif Require Import Base Sparse Graph SpecGraph SpecOpt Geom Vars VarsLemmas FactorLib SpecShape FactorSafe Optimizer OptWork OptMore Real RSum SpecSolver SpecSteps OptStepsLib SpecCov SpecBlocks SpecMarginal SpecFree SpecGrown SpecPinned SpecRest SpecAgree SpecHeld Sharper.
From Verif Require Import OptToy Ldlt LdltSolver OptReal LdltCase OrderCase RestCase AgreeCase HeldCase SharperCase.
Import ListNotations.
Local Open Scope nat_scope.
Set Bullet Behavior "Strict Subproofs".

(** the values of [p] are an optimum; [q] has the same variables with the same values and the same factors, of any classes of the library, with more of the variables constant.  Every covariance [p] reports for a variable that is still optimised is reported for [q] and is no larger there *)
Theorem C101_held_no_larger : forall {S S' : Type} (SV : solver RN S) (SV' : solver RN S') (EV EV' : nat -> env (N:=RN) (V:=lvar RN)), (forall n, env_ok (EV n)) -> (forall n, env_ok (EV' n)) -> factorising_solver SV -> factorising_solver SV' ->
  forall l1 l1' l2 l2' h1 h1' g1 g1' (p p' : pstate (N:=RN) (V:=lvar RN) (S:=S)) (q q' : pstate (N:=RN) (V:=lvar RN) (S:=S')),
  finalized_history (lib RN) l1 l2 h1 (p_heap p) g1 (p_graph p) -> unfinalized (lib RN) ([], empty_graph) l1 -> careful ([], empty_graph) l1 -> careful (h1, g1) l2 ->
  finalized_history (lib RN) l1' l2' h1' (p_heap q) g1' (p_graph q) -> unfinalized (lib RN) ([], empty_graph) l1' -> careful ([], empty_graph) l1' -> careful (h1', g1') l2' ->
  let vs := get_all_variables (p_graph p) in let fs := get_all_factors (p_graph p) in let vs' := get_all_variables (p_graph q) in let fs' := get_all_factors (p_graph q) in
  held_still (p_heap p) (p_heap q) -> same_graph vs vs' fs fs' -> Forall (fun f => exists lf, f = build lf) fs ->
  stationary (lib RN) (p_heap p) vs fs -> all_rest (lib RN) (p_heap p) vs -> all_rest (lib RN) (p_heap q) vs' ->
  Forall (factor_wf (lib RN) (p_heap p) vs) fs -> some_active (lib RN) (p_heap p) fs -> Forall (factor_wf (lib RN) (p_heap q) vs') fs' -> some_active (lib RN) (p_heap q) fs' ->
  (let st := p_set p in st_method st = GaussNewton \/ (forall a v, nth_error (p_heap p) a = Some v -> real_kind (l_kind v)) /\ (0 < st_lambda0 st)%R /\ (0 < st_up st)%R /\ (0 < st_max_lambda st)%R) ->
  (let st := p_set q in st_method st = GaussNewton \/ (forall a v, nth_error (p_heap q) a = Some v -> real_kind (l_kind v)) /\ (0 < st_lambda0 st)%R /\ (0 < st_up st)%R /\ (0 < st_max_lambda st)%R) ->
  1 <= st_max_iter (p_set p) -> 1 <= st_max_iter (p_set q) -> p_hvalid p = false -> p_hvalid q = false ->
  optimize (lib RN) SV EV p = (p', Ok tt) -> optimize (lib RN) SV' EV' q = (q', Ok tt) -> p_caught p' = false -> p_caught q' = false ->
  exists p1 q1, prepare SV p' = (p1, Ok tt) /\ prepare SV' q' = (q1, Ok tt) /\
    forall b, In b vs -> 0 < width (lib RN) (p_heap q) b -> no_larger (snd (estimate_covariance (lib RN) SV (Some b) p1)) (snd (estimate_covariance (lib RN) SV' (Some b) q1)).
Proof. exact @held_sharper. Qed.

(** the values of [p] are an optimum; [q] has the same values and further measurements that agree with them, maybe of further variables.  Unless a further variable can move unnoticed, in which case [q] reports no covariance at all, every covariance [p] reports is reported for [q] and is no larger there *)
Theorem C101_agreeing_no_larger : forall {V : Type} (VC : vclass RN V) {S S' : Type} (SV : solver RN S) (SV' : solver RN S') (EV EV' : nat -> env (N:=RN) (V:=V)), vclass_ok VC -> (forall n, env_ok (EV n)) -> (forall n, env_ok (EV' n)) -> factorising_solver SV -> factorising_solver SV' ->
  forall (I I' : V -> Prop) l1 l1' l2 l2' h1 h1' g1 g1' (p p' : pstate (N:=RN) (V:=V) (S:=S)) (q q' : pstate (N:=RN) (V:=V) (S:=S')),
  finalized_history VC l1 l2 h1 (p_heap p) g1 (p_graph p) -> unfinalized VC ([], empty_graph) l1 ->
  finalized_history VC l1' l2' h1' (p_heap q) g1' (p_graph q) -> unfinalized VC ([], empty_graph) l1' ->
  let vs := get_all_variables (p_graph p) in let fs := get_all_factors (p_graph p) in let vs' := get_all_variables (p_graph q) in let fs' := get_all_factors (p_graph q) in
  p_heap q = p_heap p -> grown_agreeing (p_heap p) vs vs' fs fs' -> stationary VC (p_heap p) vs fs -> all_rest VC (p_heap p) vs' ->
  Forall (factor_wf VC (p_heap p) vs) fs -> some_active VC (p_heap p) fs -> Forall buf_indep fs -> shape_contract VC (p_heap p) fs ->
  Forall (factor_wf VC (p_heap q) vs') fs' -> some_active VC (p_heap q) fs' -> Forall buf_indep fs' -> shape_contract VC (p_heap q) fs' ->
  (let st := p_set p in st_method st = GaussNewton \/ undoable VC I /\ (forall a v, nth_error (p_heap p) a = Some v -> I v) /\ (0 < st_lambda0 st)%R /\ (0 < st_up st)%R /\ (0 < st_max_lambda st)%R) ->
  (let st := p_set q in st_method st = GaussNewton \/ undoable VC I' /\ (forall a v, nth_error (p_heap q) a = Some v -> I' v) /\ (0 < st_lambda0 st)%R /\ (0 < st_up st)%R /\ (0 < st_max_lambda st)%R) ->
  1 <= st_max_iter (p_set p) -> 1 <= st_max_iter (p_set q) -> p_hvalid p = false -> p_hvalid q = false ->
  optimize VC SV EV p = (p', Ok tt) -> optimize VC SV' EV' q = (q', Ok tt) -> p_caught p' = false -> p_caught q' = false ->
  exists p1 q1, prepare SV p' = (p1, Ok tt) /\ prepare SV' q' = (q1, Ok tt) /\
    (newcomer_adrift VC (p_heap p) vs vs' fs' /\ (forall a, In a vs' -> snd (estimate_covariance VC SV' (Some a) q1) = Ok None) \/
     forall b, In b vs -> 0 < width VC (p_heap p) b -> no_larger (snd (estimate_covariance VC SV (Some b) p1)) (snd (estimate_covariance VC SV' (Some b) q1))).
Proof. exact @agreeing_sharper. Qed.

(** x at 4 with priors 3 and 5, y at 6 and y - x measured as 2: y has variance 3/2; with x held constant it has a variance of at most that, with both methods *)
Example C101_held_case : forall m, exists p' q' p1 q1 P Q, optimize (lib RN) LS EV0 (kstart false GaussNewton) = (p', Ok tt) /\ optimize (lib RN) LS EV0 (kstart true m) = (q', Ok tt) /\
  prepare LS p' = (p1, Ok tt) /\ prepare LS q' = (q1, Ok tt) /\
  snd (estimate_covariance (lib RN) LS (Some 1) p1) = Ok (Some P) /\ snd (estimate_covariance (lib RN) LS (Some 1) q1) = Ok (Some Q) /\
  mat_at P 0 0 = (3/2)%R /\ (mat_at Q 0 0 <= 3/2)%R.
Proof.
  intros m. destruct (k_run false GaussNewton) as (p' & E & Hc). destruct (k_run true m) as (q' & E' & Hc'). destruct (k_covariance p' E Hc) as (p1 & P & Hp & HP & HP0 & HP1).
  destruct (kstart_hist false GaussNewton) as (A & B & C & D & F). destruct (kstart_hist true m) as (A' & B' & C' & D' & F').
  destruct (k_lists false GaussNewton) as (Ev & Ef & Eh). destruct (k_lists true m) as (Ev' & Ef' & Eh').
  destruct (C101_held_no_larger LS LS EV0 EV0 EV0_ok EV0_ok LS_factorising LS_factorising _ _ _ _ _ _ _ _ (kstart false GaussNewton) p' (kstart true m) q' A B C I A' B' C' I) as (p2 & q1 & Hp2 & Hq1 & G); auto.
  - rewrite Eh, Eh'. exact k_held.
  - rewrite Ev, Ev', Ef, Ef'. exact k_same.
  - rewrite Ef. exact k_lib.
  - rewrite Ev, Ef, Eh. exact k_stationary.
  - rewrite Ev, Eh. exact (k_rest false).
  - rewrite Ev', Eh'. exact (k_rest true).
  - cbn zeta. destruct m; [left; reflexivity|right]. rewrite Eh'. split; [intros [|[|[|a]]] v Hv; [| | |destruct a; discriminate Hv]; injection Hv as <-; exact I|]. cbn. split; [lra|]. split; [lra|lra].
  - rewrite Ev, Eh' in G. rewrite Hp in Hp2. injection Hp2 as <-.
    destruct (G 1 (or_intror (or_introl eq_refl)) (Nat.lt_0_succ 0) P HP) as (Q & HQ & HQ0 & _ & Hz).
    exists p', q', p1, q1, P, Q. do 7 (split; [assumption|]). specialize (Hz [1%R]). unfold quad_form in Hz. rewrite HQ0, HP0 in Hz. cbn in Hz. change (car RN) with R in *. lra.
Qed.
(** x at 4 with priors 3 and 5 has variance 1/2; with a further measurement of 4 it has a variance of at most that *)
Example C101_agreeing_case : forall m, exists p' q' p1 q1 P Q, optimize (lib RN) LS EV0 tonce = (p', Ok tt) /\ optimize (lib RN) LS EV0 (ustart m) = (q', Ok tt) /\
  prepare LS p' = (p1, Ok tt) /\ prepare LS q' = (q1, Ok tt) /\
  snd (estimate_covariance (lib RN) LS (Some 0) p1) = Ok (Some P) /\ snd (estimate_covariance (lib RN) LS (Some 0) q1) = Ok (Some Q) /\
  mat_at P 0 0 = (1/2)%R /\ (mat_at Q 0 0 <= 1/2)%R.
Proof.
  intros m. destruct tonce_run as (p' & E & Hs & Hh). destruct (u_run m) as (q' & E' & Hc').
  destruct tonce_hist as (A & B & C & D & F). destruct (ustart_hist m) as (A' & B' & C' & D' & F').
  pose proof (RestRun.uncaught (lib RN) LS EV0 lib_ok EV0_ok _ _ _ _ tonce p' A E Hs) as Hc. destruct (t_covariance p' E Hc Hh) as (p1 & P & Hp & HP & HP0 & HP1).
  destruct (lib_history _ _ _ _ _ _ A C I) as (G1 & G2). destruct (lib_history _ _ _ _ _ _ A' C' I) as (G1' & G2').
  assert (X : forall a v, nth_error (p_heap (ustart m)) a = Some v -> real_kind (l_kind v)).
  { change (p_heap (ustart m)) with theap. intros a v Hv. destruct a as [|a]; [injection Hv as <-; exact I|destruct a; discriminate]. }
  assert (M : let st := p_set (ustart m) in st_method st = GaussNewton \/ undoable (lib RN) (fun v => real_kind (l_kind v)) /\ (forall a v, nth_error (p_heap (ustart m)) a = Some v -> real_kind (l_kind v)) /\ (0 < st_lambda0 st)%R /\ (0 < st_up st)%R /\ (0 < st_max_lambda st)%R).
  { cbn zeta. destruct m; [left; reflexivity|right]. split; [exact lib_real|]. split; [exact X|]. cbn. split; [lra|]. split; [lra|lra]. }
  assert (Hn : 1 <= st_max_iter (p_set (ustart m))) by (cbn; lia).
  destruct (C101_agreeing_no_larger (lib RN) LS LS EV0 EV0 lib_ok EV0_ok EV0_ok LS_factorising LS_factorising (fun _ => True) (fun v => real_kind (l_kind v)) _ _ _ _ _ _ _ _ tonce p' (ustart m) q' A B A' B' eq_refl u_grown t_stationary t_rest D F G1 G2 D' F' G1' G2'
    (or_introl eq_refl) M (le_n 1) Hn eq_refl eq_refl E E' Hc Hc') as (p2 & q1 & Hp2 & Hq1 & [((d & a & c & _ & Ha & Hn2 & _) & _)|G]); [exfalso; exact (Hn2 Ha)|].
  rewrite Hp in Hp2. injection Hp2 as <-.
  destruct (G 0 (or_introl eq_refl) (Nat.lt_0_succ 0) P HP) as (Q & HQ & HQ0 & _ & Hz).
  exists p', q', p1, q1, P, Q. do 7 (split; [assumption|]). specialize (Hz [1%R]). unfold quad_form in Hz. rewrite HQ0, HP0 in Hz. cbn in Hz. change (car RN) with R in *. lra.
Qed.
Print Assumptions C101_held_no_larger.
Print Assumptions C101_agreeing_no_larger.
