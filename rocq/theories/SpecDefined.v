(** Specification: what the solver class, the factors and the variables owe the optimiser so that no call is undefined. *)
From Coq Require Import List Arith.
From Verif Require Import Base Graph SpecGraph Optimizer Vars FactorLib SpecShape.
Import ListNotations.

(** the solver's vectors and matrices have the size of the matrix factorised last: D and the solutions after a factorisation that succeeded *)
Record sizes {N : num} {S : Type} (SV : solver N S) (size : S -> nat -> Prop) : Prop := {
  sz_compute : forall s H, mcols H = mrows H -> size (sv_compute SV s H) (mrows H);
  sz_D : forall s n, size s n -> sv_ok SV s = true -> length (sv_D SV s) = n;
  sz_solve : forall s n b, size s n -> sv_ok SV s = true -> length b = n -> length (snd (sv_solve SV s b)) = n;
  sz_solve_keeps : forall s n b, size s n -> size (fst (sv_solve SV s b)) n;
  sz_mat : forall s n B, size s n -> mrows B = n -> sv_ok SV (fst (sv_solve_mat SV s B)) = true ->
    mrows (snd (sv_solve_mat SV s B)) = n /\ mcols (snd (sv_solve_mat SV s B)) = mcols B;
  sz_mat_keeps : forall s n B, size s n -> size (fst (sv_solve_mat SV s B)) n
}.
Definition sized_solver {N : num} {S : Type} (SV : solver N S) : Prop := exists size, sizes SV size.

Section Defined.
Context {N : num} {V : Type} (VC : vclass N V).
Notation factor := (factor (N:=N) (V:=V)).

(** the heaps in [P] can be computed with: the factors' functions are defined there and keep the size contract, variables have values of
    their own size, increments and assignments of the right size are defined, and lead to heaps in [P] again *)
Record workable (fs : list factor) (P : @heap V -> Prop) : Prop := {
  wk_factors : forall h, P h -> Forall (factor_safe VC h) fs;
  wk_value : forall h a v, P h -> nth_error h a = Some v -> length (vval VC v) = vsize VC v;
  wk_inc : forall h a v x, P h -> nth_error h a = Some v -> length x = vsize VC v ->
    (forall u, vinc VC v x <> UB u) /\ (forall v', vinc VC v x = Ok v' -> P (lupd a v' h));
  wk_set : forall h a v x, P h -> nth_error h a = Some v -> length x = vsize VC v ->
    (forall u, vset VC v x <> UB u) /\ (forall v', vset VC v x = Ok v' -> P (lupd a v' h))
}.
(** nothing in [P] throws either *)
Record answering (fs : list factor) (P : @heap V -> Prop) : Prop := {
  an_residuals : forall h f, P h -> In f fs -> exists r, f_res_ref f h = Ok r;
  an_jacobians : forall h f, P h -> In f fs -> exists js, f_jac f h [] = (js, Ok tt);
  an_inc : forall h a v x, P h -> nth_error h a = Some v -> length x = vsize VC v -> exists v', vinc VC v x = Ok v';
  an_set : forall h a v x, P h -> nth_error h a = Some v -> length x = vsize VC v -> exists v', vset VC v x = Ok v'
}.

(** calls of a session with a finalized graph over variables [vs]: vectors have the right size, addresses are those of live objects,
    covariances are asked for variables of the graph, and the structure stays as it is *)
Definition proper {S : Type} (P : @heap V -> Prop) (vs : list addr) (p : pstate (N:=N) (V:=V) (S:=S)) (o : oop (N:=N) (V:=V)) : Prop :=
  match o with
  | OOp (ONew v) => P (p_heap p ++ [v])
  | OOp (OSetVal a x) | OOp (OIncVal a x) => exists v, nth_error (p_heap p) a = Some v /\ length x = vsize VC v
  | OOp (OSetVec x) => length x = total_cols VC (p_heap p) vs
  | OOp o => value_op o
  | OEstimate (Some a) => In a vs
  | _ => True
  end.
(** undefined behaviour of one call *)
Definition undefined_call {S : Type} (SV : solver N S) (EV : nat -> env (N:=N) (V:=V)) (p : pstate (N:=N) (V:=V) (S:=S)) (o : oop (N:=N) (V:=V)) : Prop :=
  match o with
  | OOp o => undefined (snd (step VC (EV (p_tick p)) (p_heap p, p_graph p) o))
  | OSetup b st => exists u, snd (setup b st p) = UB u
  | OOptimize => exists u, snd (optimize VC SV EV p) = UB u
  | OPrepare => exists u, snd (prepare SV p) = UB u
  | OEstimate q => exists u, snd (estimate_covariance VC SV q p) = UB u
  end.
(** a session all of whose calls are proper *)
Fixpoint proper_session {S : Type} (SV : solver N S) (EV : nat -> env (N:=N) (V:=V)) (P : @heap V -> Prop) (vs : list addr)
  (p : pstate (N:=N) (V:=V) (S:=S)) (l : list (oop (N:=N) (V:=V))) : Prop :=
  match l with
  | [] => True
  | o :: t => proper P vs p o /\ proper_session SV EV P vs (ostep VC SV EV p o) t
  end.
End Defined.

(** heaps on which the factors [fs], all of library classes, can be used: values have the shape of their class and every factor gets
    variables of the classes and sizes it is documented to take *)
Definition usable {N : num} (fs : list (factor (N:=N) (V:=lvar N))) (h : @heap (lvar N)) : Prop :=
  (forall a v, nth_error h a = Some v -> in_shape (l_kind v)) /\ Forall (fun f => exists lf, f = build lf /\ well_used h lf) fs.
