(** Concrete optimiser runs over IEEE doubles with the library's GenericVariable, GenericPriorFactor and
    GenericBetweenFactor, and a solver for 1x1 systems in place of Eigen's.  Used by the examples and refutations. *)
From Coq Require Import List Arith ZArith QArith Bool Permutation.
From Verif Require Import Base Sparse Graph SpecGraph SpecOpt Geom Vars VarsLemmas FactorsLin Optimizer OptLemmas Float.
Import ListNotations.

(** libm functions are not called by these runs *)
Definition L0 : libm := Libm (fun x => x) (fun x => x) (fun x => x) (fun x => x) (fun x _ => x).
Definition B0 : num := BN L0.
Definition bz (z : Z) : B0 := b_of_Z z.
Definition bq (q : Q) : B0 := b_of_Q q.

(** LDL^T of a 1x1 matrix: the state holds the entry and info() *)
Definition solver1 (N : num) : solver N (N * bool) :=
  Solver N (N * bool)
    (fun _ H => (mat_at H 0 0, (mrows H =? 1)%nat && (mcols H =? 1)%nat && (nltb nzero (mat_at H 0 0) || nltb (mat_at H 0 0) nzero)))
    snd (fun s => [fst s])
    (fun s b => (s, [ndiv (nth 0 b nzero) (fst s)]))
    (fun s B => (s, Mat 1 (mcols B) (fun _ j => ndiv (mat_at B 0 j) (fst s)))).
(** a solver whose factorisation always fails *)
Definition solver_bad (N : num) : solver N unit :=
  Solver N unit (fun _ _ => tt) (fun _ => false) (fun _ => []) (fun s b => (s, b)) (fun s B => (s, B)).
(** a solver that reports success and returns steps of the wrong sign *)
Definition solver_neg (N : num) : solver N (N * bool) :=
  Solver N (N * bool) (sv_compute (solver1 N)) snd (fun s => [fst s])
    (fun s b => (s, [nneg (ndiv (nth 0 b nzero) (fst s))]))
    (sv_solve_mat (solver1 N)).

Section Setup.
Context {N : num}.
Notation env := (env (N:=N) (V:=lvar N)).
Definition env0 : env := Env (fun l => l) (fun n => repeat nzero n).
Lemma env0_ok : env_ok env0.
Proof. split; intros; simpl; [apply Permutation_refl|apply repeat_length]. Qed.
(** x: id 1, optimised; c: id 2, constant; d: id 3, constant.  Factors: prior on x (two of them), between x and c. *)
Definition problem (x0 p1 p2 c d s : N) : list (op (N:=N) (V:=lvar N)) :=
  [ ONew (LVar 1 false (KGeneric [x0])); ONew (LVar 2 false (KGeneric [c])); ONew (LVar 3 false (KGeneric [d]));
    OSetConst 1%nat true; OSetConst 2%nat true;
    OAddVar (Some 0%nat); OAddVar (Some 1%nat); OAddVar (Some 2%nat);
    OAddFactor (Some (generic_prior (lib N) 10 0%nat [p1] s)); OAddFactor (Some (generic_prior (lib N) 11 0%nat [p2] nunit));
    OAddFactor (Some (generic_between (lib N) 12 0%nat 1%nat 2%nat 1 nunit)) ].
Definition defaults (m : method) (n : nat) : settings (N:=N) :=
  Settings m n (nlit (1#1000000)) (nlit (1#1000000)) (nlit (1#1000)) (nlit 100000) (nlit 10) (nlit (1#2)) nunit.
End Setup.


(** ** Runs of the constructed problems *)
Section Runs.
Context {N : num} {V : Type} (VC : vclass N V) {S : Type} (SV : solver N S) (E : env (N:=N) (V:=V)).
Notation op := (op (N:=N) (V:=V)).
Notation pstate := (pstate (N:=N) (V:=V) (S:=S)).
(** call the operations, finalize_structure() and setup() *)
Definition start (s : S) (st : settings (N:=N)) (l : list op) : pstate :=
  orun VC SV (fun _ => E) (ostart s st) (map OOp (l ++ [OFinalize]) ++ [OSetup true st]).
Lemma orun_ops l : forall p : pstate, let p' := orun VC SV (fun _ => E) p (map OOp l) in
  (p_heap p', p_graph p') = run VC (p_heap p, p_graph p) (map (fun o => (E, o)) l).
Proof.
  induction l as [|o l IH]; intros p; [reflexivity|]. cbn zeta. cbn [map]. change (orun VC SV (fun _ => E) p (OOp o :: map OOp l)) with
    (orun VC SV (fun _ => E) (ostep VC SV (fun _ => E) p (OOp o)) (map OOp l)). rewrite IH.
  cbn [run ostep]. destruct (step VC E (p_heap p, p_graph p) o) as [[h g] ans] eqn:Es. cbn [fst]. reflexivity.
Qed.
(** the constructed graph is finalized *)
Lemma start_finalized s st l :
  let s0 := run VC ([], empty_graph) (map (fun o => (E, o)) l) in
  snd (finalize_structure VC (fst s0) (snd s0)) = Ok tt ->
  finalized_history VC (map (fun o => (E, o)) l) [] (fst s0) (p_heap (start s st l))
    (fst (finalize_structure VC (fst s0) (snd s0))) (p_graph (start s st l)).
Proof.
  intros s0 H.
  assert (Eq : (p_heap (start s st l), p_graph (start s st l)) = (fst s0, fst (finalize_structure VC (fst s0) (snd s0)))).
  { unfold start, orun. rewrite fold_left_app. cbn [fold_left ostep]. unfold setup, mupd. cbn [fst].
    pose proof (orun_ops (l ++ [OFinalize]) (ostart s st)) as R. cbn zeta in R. cbn [p_heap p_graph ostart] in R.
    cbn [p_heap p_graph w_setup]. unfold orun in R. etransitivity; [exact R|]. rewrite map_app, run_app.
    match goal with |- run VC ?x _ = _ => change x with s0 end.
    clearbody s0. destruct s0 as [h g]. cbn [run map fst snd]. unfold step. destruct (finalize_structure VC h g) as [g' r]. reflexivity. }
  injection Eq as E1 E2. exists (snd s0). rewrite E1, E2. split; [apply surjective_pairing|].
  split; [rewrite <- H; apply surjective_pairing|]. split; [constructor|reflexivity].
Qed.
End Runs.

(** ** Doubles *)
Notation bop := (op (N:=B0) (V:=lvar B0)).
Notation bstate S := (pstate (N:=B0) (V:=lvar B0) (S:=S)).
Definition EV0 {N} : nat -> env (N:=N) (V:=lvar N) := fun _ => env0.
Lemma EV0_ok {N} : forall n, env_ok (EV0 (N:=N) n). Proof. intros n. apply env0_ok. Qed.
Definition sf (x : B0) : SpecFloat.spec_float := @BinarySingleNaN.B2SF 53 1024 x.
