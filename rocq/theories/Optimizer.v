(** SparseOptimizer: /repo/src/factorama/sparse_optimizer.hpp and sparse_optimizer.cpp.
    Simplifications: verbose output, wall-clock measurement and the unused members (check_rank_deficiency, rank,
    J_pattern_) are dropped; [int]/[size_t] are unbounded.  The matrix products are computed on dense copies. *)
From Coq Require Import List Arith ZArith QArith Bool.
From Verif Require Import Base Sparse Graph.
Import ListNotations.

(** Eigen::SimplicialLDLT<SparseMatrix<double>> is an oracle with an internal state of type [S]: nothing is assumed about
    what [compute], [info() == Success], [vectorD] and [solve] return. *)
Record solver (N : num) (S : Type) : Type := Solver {
  sv_compute : S -> mat N -> S;
  sv_ok : S -> bool;
  sv_D : S -> list N;
  sv_solve : S -> list N -> S * list N;
  sv_solve_mat : S -> mat N -> S * mat N
}.
Arguments sv_compute {N S} _ _ _.
Arguments sv_ok {N S} _ _.
Arguments sv_D {N S} _ _.
Arguments sv_solve {N S} _ _ _.
Arguments sv_solve_mat {N S} _ _ _.

(** sparse_optimizer.hpp:22-30 *)
Inductive status : Set := SUCCESS | RUNNING | SINGULAR_HESSIAN | ILL_CONDITIONED | DIVERGED | FAILED.
(** sparse_optimizer.hpp:13-17 *)
Inductive method : Set := GaussNewton | LevenbergMarquardt.

Section Optimizer.
Context {N : num} {V : Type} (VC : vclass N V) {S : Type} (SV : solver N S).
Notation graph := (graph (N:=N) (V:=V)).
Notation env := (env (N:=N) (V:=V)).
(** environment (hash-map order, junk in resized vectors) of the n-th call made by the optimiser *)
Context (EV : nat -> env).

(** sparse_optimizer.hpp:38-71 *)
Record settings : Type := Settings {
  st_method : method; st_max_iter : nat; st_step_tol : N; st_res_tol : N;
  st_lambda0 : N; st_max_lambda : N; st_up : N; st_down : N; st_rate : N }.
(** sparse_optimizer.hpp:78-89 *)
Record stats : Type := Stats {
  ss_valid : bool; ss_status : status; ss_chi2 : N; ss_delta : N; ss_resnorm : N; ss_iter : nat; ss_lambda : N }.
(** OptimizerStats{} *)
Definition stats0 : stats := Stats false RUNNING (nlit (-1)) (nlit (-1)) (nlit (-1)) 0 (nlit (1#1000)).

(** The optimiser object together with the graph it points to and the variable objects.  Four ghost fields do not exist
    in the code: [p_tick] (number of environment-dependent calls), [p_nfact] (number of sparse_solver_.compute calls),
    [p_caught] (the catch block of sparse_optimizer.cpp:204-209 was entered) and [p_nbad] (number of Levenberg-Marquardt
    attempts that ended at lines 358-364, 373-381 or 386-391: factorisation, conditioning or solve failure). *)
Record pstate : Type := PState {
  p_heap : @heap V; p_graph : graph;
  p_set : settings; p_hasgraph : bool; p_init : stats; p_cur : stats; p_complete : bool;
  p_hvalid : bool; p_hess : mat N;
  p_r1 : list N; p_r2 : list N; p_solver : S;
  p_tick : nat; p_nfact : nat; p_caught : bool; p_nbad : nat }.

Definition w_heap (h : heap) (p : pstate) := PState h (p_graph p) (p_set p) (p_hasgraph p) (p_init p) (p_cur p) (p_complete p) (p_hvalid p) (p_hess p) (p_r1 p) (p_r2 p) (p_solver p) (p_tick p) (p_nfact p) (p_caught p) (p_nbad p).
Definition w_graph (g : graph) (p : pstate) := PState (p_heap p) g (p_set p) (p_hasgraph p) (p_init p) (p_cur p) (p_complete p) (p_hvalid p) (p_hess p) (p_r1 p) (p_r2 p) (p_solver p) (p_tick p) (p_nfact p) (p_caught p) (p_nbad p).
Definition w_init (s : stats) (p : pstate) := PState (p_heap p) (p_graph p) (p_set p) (p_hasgraph p) s (p_cur p) (p_complete p) (p_hvalid p) (p_hess p) (p_r1 p) (p_r2 p) (p_solver p) (p_tick p) (p_nfact p) (p_caught p) (p_nbad p).
Definition w_cur (s : stats) (p : pstate) := PState (p_heap p) (p_graph p) (p_set p) (p_hasgraph p) (p_init p) s (p_complete p) (p_hvalid p) (p_hess p) (p_r1 p) (p_r2 p) (p_solver p) (p_tick p) (p_nfact p) (p_caught p) (p_nbad p).
Definition w_complete (b : bool) (p : pstate) := PState (p_heap p) (p_graph p) (p_set p) (p_hasgraph p) (p_init p) (p_cur p) b (p_hvalid p) (p_hess p) (p_r1 p) (p_r2 p) (p_solver p) (p_tick p) (p_nfact p) (p_caught p) (p_nbad p).
Definition w_hvalid (b : bool) (p : pstate) := PState (p_heap p) (p_graph p) (p_set p) (p_hasgraph p) (p_init p) (p_cur p) (p_complete p) b (p_hess p) (p_r1 p) (p_r2 p) (p_solver p) (p_tick p) (p_nfact p) (p_caught p) (p_nbad p).
Definition w_hess (m : mat N) (p : pstate) := PState (p_heap p) (p_graph p) (p_set p) (p_hasgraph p) (p_init p) (p_cur p) (p_complete p) (p_hvalid p) m (p_r1 p) (p_r2 p) (p_solver p) (p_tick p) (p_nfact p) (p_caught p) (p_nbad p).
Definition w_r1 (r : list N) (p : pstate) := PState (p_heap p) (p_graph p) (p_set p) (p_hasgraph p) (p_init p) (p_cur p) (p_complete p) (p_hvalid p) (p_hess p) r (p_r2 p) (p_solver p) (p_tick p) (p_nfact p) (p_caught p) (p_nbad p).
Definition w_r2 (r : list N) (p : pstate) := PState (p_heap p) (p_graph p) (p_set p) (p_hasgraph p) (p_init p) (p_cur p) (p_complete p) (p_hvalid p) (p_hess p) (p_r1 p) r (p_solver p) (p_tick p) (p_nfact p) (p_caught p) (p_nbad p).
Definition w_solver (s : S) (p : pstate) := PState (p_heap p) (p_graph p) (p_set p) (p_hasgraph p) (p_init p) (p_cur p) (p_complete p) (p_hvalid p) (p_hess p) (p_r1 p) (p_r2 p) s (p_tick p) (p_nfact p) (p_caught p) (p_nbad p).
Definition w_tick (p : pstate) := PState (p_heap p) (p_graph p) (p_set p) (p_hasgraph p) (p_init p) (p_cur p) (p_complete p) (p_hvalid p) (p_hess p) (p_r1 p) (p_r2 p) (p_solver p) (Datatypes.S (p_tick p)) (p_nfact p) (p_caught p) (p_nbad p).
Definition w_nfact (p : pstate) := PState (p_heap p) (p_graph p) (p_set p) (p_hasgraph p) (p_init p) (p_cur p) (p_complete p) (p_hvalid p) (p_hess p) (p_r1 p) (p_r2 p) (p_solver p) (p_tick p) (Datatypes.S (p_nfact p)) (p_caught p) (p_nbad p).
Definition w_caught (b : bool) (p : pstate) := PState (p_heap p) (p_graph p) (p_set p) (p_hasgraph p) (p_init p) (p_cur p) (p_complete p) (p_hvalid p) (p_hess p) (p_r1 p) (p_r2 p) (p_solver p) (p_tick p) (p_nfact p) b (p_nbad p).
Definition w_nbad (p : pstate) := PState (p_heap p) (p_graph p) (p_set p) (p_hasgraph p) (p_init p) (p_cur p) (p_complete p) (p_hvalid p) (p_hess p) (p_r1 p) (p_r2 p) (p_solver p) (p_tick p) (p_nfact p) (p_caught p) (Datatypes.S (p_nbad p)).
Definition w_setup (b : bool) (s : settings) (p : pstate) := PState (p_heap p) (p_graph p) s b (p_init p) (p_cur p) false false (p_hess p) (p_r1 p) (p_r2 p) (p_solver p) (p_tick p) (p_nfact p) (p_caught p) (p_nbad p).

(** calls that may throw keep the state reached so far *)
Definition M (A : Type) : Type := pstate -> pstate * outcome A.
Definition ret {A} (a : A) : M A := fun p => (p, Ok a).
Definition mbind {A B} (m : M A) (f : A -> M B) : M B := fun p =>
  match m p with
  | (p', Ok a) => f a p'
  | (p', Throw e) => (p', Throw e)
  | (p', UB u) => (p', UB u)
  end.
Definition mupd (f : pstate -> pstate) : M unit := fun p => (f p, Ok tt).
Definition get {A} (f : pstate -> A) : M A := fun p => (p, Ok (f p)).
Definition lift {A} (o : outcome A) : M A := fun p => (p, o).
Notation "'let!' x := a 'in' b" := (mbind a (fun x => b))
  (at level 200, x pattern, a at level 100, b at level 200, right associativity).

(** graph_->compute_full_residual_vector(residual1_) and (residual2_) *)
Definition m_residual1 : M unit := fun p =>
  let '(buf, r) := compute_residual_into (EV (p_tick p)) (p_heap p) (p_graph p) (p_r1 p) in (w_tick (w_r1 buf p), r).
Definition m_residual2 : M unit := fun p =>
  let '(buf, r) := compute_residual_into (EV (p_tick p)) (p_heap p) (p_graph p) (p_r2 p) in (w_tick (w_r2 buf p), r).
(** graph_->compute_sparse_jacobian_matrix() *)
Definition m_sparse : M (mat N) := fun p =>
  let '(g, r) := compute_sparse VC (p_heap p) (p_graph p) in (w_graph g p, omap sp_dense r).
(** sparse_solver_.compute(H); returns info() == Success *)
Definition m_factorize (H : mat N) : M bool := fun p =>
  let s := sv_compute SV (p_solver p) H in (w_nfact (w_solver s p), Ok (sv_ok SV s)).
(** sparse_solver_.solve(b); returns the solution and info() == Success *)
Definition m_solve (b : list N) : M (list N * bool) := fun p =>
  let '(s, x) := sv_solve SV (p_solver p) b in (w_solver s p, Ok (x, sv_ok SV s)).
(** loops sparse_optimizer.cpp:91-105 and 409-423 *)
Definition m_apply (dx : list N) : M unit := fun p =>
  let '(h, r) := inc_loop VC false (p_heap p) (p_graph p) (get_all_variables (p_graph p)) dx in (w_heap h p, r).

(** J^T r; Eigen requires matching sizes (eigen_assert) *)
Definition jtr (J : mat N) (r : list N) : outcome (list N) :=
  if (mrows J =? length r)%nat then Ok (mvmul (mtrans J) r) else UB UBSize.
Definition jtj (J : mat N) : mat N := mmul (mtrans J) J.
(** H.coeffRef(i,i) += lambda for all i (sparse_optimizer.cpp:347-349) *)
Definition add_diag (l : N) (H : mat N) : mat N :=
  Mat (mrows H) (mcols H) (fun i j => if (i =? j)%nat then nadd (mat_at H i j) l else mat_at H i j).

(** minCoeff / maxCoeff; an empty vector is undefined behaviour.  (Which NaN wins is left open by Eigen; all theorems
    quantify over arbitrary [sv_D], so every pair of comparison results is covered.) *)
Definition vmin (l : list N) : outcome N :=
  match l with [] => UB UBEmpty | x :: t => Ok (fold_left (fun m y => if nltb y m then y else m) t x) end.
Definition vmax (l : list N) : outcome N :=
  match l with [] => UB UBEmpty | x :: t => Ok (fold_left (fun m y => if nltb m y then y else m) t x) end.

(** set valid = false and the status *)
Definition m_fail (st : status) : M unit := mupd (fun p =>
  let c := p_cur p in w_cur (Stats false st (ss_chi2 c) (ss_delta c) (ss_resnorm c) (ss_iter c) (ss_lambda c)) p).
Definition m_status (st : status) : M unit := mupd (fun p =>
  let c := p_cur p in w_cur (Stats (ss_valid c) st (ss_chi2 c) (ss_delta c) (ss_resnorm c) (ss_iter c) (ss_lambda c)) p).
Definition m_lambda (l : N) : M unit := mupd (fun p =>
  let c := p_cur p in w_cur (Stats (ss_valid c) (ss_status c) (ss_chi2 c) (ss_delta c) (ss_resnorm c) (ss_iter c) l) p).
(** lines 109-113 and 500-503: statistics of a step *)
Definition m_record (delta : N) (r : list N) : M unit := mupd (fun p =>
  let c := p_cur p in
  w_cur (Stats (ss_valid c) (ss_status c) (sqnorm r) delta (vnorm r) (Datatypes.S (ss_iter c)) (ss_lambda c)) p).

(** sparse_optimizer.cpp:10-131 single_step_gauss_newton.  The null check of graph_ (line 12) is done by optimize(), which
    is the only caller. *)
Definition gn_step : M unit :=
  let! _ := m_residual1 in
  let! J := m_sparse in
  let! r1 := get p_r1 in
  let! b0 := lift (jtr J r1) in
  let b := map (fun x => nmul x (nlit (-1))) b0 in
  let! ok := m_factorize (jtj J) in
  if negb ok then m_fail FAILED else
  let! s := get p_solver in
  let D := map nabs (sv_D SV s) in
  let! mn := lift (vmin D) in
  let! mx := lift (vmax D) in
  if nltb mn (nlit (1#100000000000000)) then m_fail SINGULAR_HESSIAN else
  if nltb (nlit 1000000000000) (ndiv mx mn) then m_fail ILL_CONDITIONED else
  let! xo := m_solve b in
  if negb (snd xo) then m_fail FAILED else
  let! st := get p_set in
  let dx := map (fun x => nmul x (st_rate st)) (fst xo) in
  let! _ := m_apply dx in
  let! _ := m_residual2 in
  let! r2 := get p_r2 in
  m_record (vnorm dx) r2.

(** sparse_optimizer.cpp:404-406: values of all variables *)
Fixpoint values_of (h : heap) (vs : list addr) : outcome (list (list N)) :=
  match vs with
  | [] => Ok []
  | a :: t => let* v := hget h a in let* r := values_of h t in Ok (vval VC v :: r)
  end.
(** sparse_optimizer.cpp:446-448: restore all variables (also constant ones) *)
Fixpoint restore_loop (h : heap) (vs : list addr) (xs : list (list N)) : heap * outcome unit :=
  match vs, xs with
  | a :: t, x :: xt =>
    match hupd h a (fun v => vset VC v x) with
    | (h', Ok _) => restore_loop h' t xt
    | (h', r) => (h', r)
    end
  | _, _ => (h, Ok tt)
  end.
Definition m_restore (xs : list (list N)) : M unit := fun p =>
  let '(h, r) := restore_loop (p_heap p) (get_all_variables (p_graph p)) xs in (w_heap h p, r).

(** damping_parameter *= lambda_up_factor after a failed attempt (not capped) *)
Definition m_up : M unit := fun p => m_lambda (nmul (ss_lambda (p_cur p)) (st_up (p_set p))) (w_nbad p).
(** sparse_optimizer.cpp:341-469; [n] attempts left, [dx] the last step computed; result: step_accepted and dx *)
Fixpoint lm_loop (n : nat) (J : mat N) (cost : N) (dx : list N) : M (bool * list N) :=
  match n with
  | O => ret (false, dx)
  | Datatypes.S n' =>
    let! lam := get (fun p => ss_lambda (p_cur p)) in
    let H := add_diag lam (jtj J) in
    let! r1 := get p_r1 in
    let! b0 := lift (jtr (Mat (mrows J) (mcols J) (fun i j => nneg (mat_at J i j))) r1) in
    let! ok := m_factorize H in
    if negb ok then let! _ := m_up in lm_loop n' J cost dx else
    let! s := get p_solver in
    let D := map nabs (sv_D SV s) in
    let! mn := lift (vmin D) in
    let! mx := lift (vmax D) in
    if nltb mn (nlit (1#100000000000000)) || nltb (nlit 1000000000000) (ndiv mx mn)
    then let! _ := m_up in lm_loop n' J cost dx else
    let! xo := m_solve b0 in
    if negb (snd xo) then let! _ := m_up in lm_loop n' J cost (fst xo) else
    let! st := get p_set in
    let dx1 := map (fun x => nmul x (st_rate st)) (fst xo) in
    let! xs := fun p => (p, values_of (p_heap p) (get_all_variables (p_graph p))) in
    let! _ := m_apply dx1 in
    let! _ := m_residual2 in
    let! r2 := get p_r2 in
    if nltb (nmul (nlit (1#2)) (sqnorm r2)) cost then
      let! lam1 := get (fun p => ss_lambda (p_cur p)) in
      let! _ := m_lambda (nmax (nmul lam1 (st_down st)) (nlit (1#1000000000000))) in
      ret (true, dx1)
    else
      let! _ := m_restore xs in
      let! lam1 := get (fun p => ss_lambda (p_cur p)) in
      let lam2 := nmin (nmul lam1 (st_up st)) (st_max_lambda st) in
      let! _ := m_lambda lam2 in
      if nleb (st_max_lambda st) lam2 then ret (false, dx1) else lm_loop n' J cost dx1
  end.

(** sparse_optimizer.cpp:310-524 single_step_levenberg_marquardt *)
Definition lm_step : M unit :=
  let! _ := m_residual1 in
  let! J := m_sparse in
  let! r1 := get p_r1 in
  let cost := nmul (nlit (1#2)) (sqnorm r1) in
  let! st := get p_set in
  let! it := get (fun p => ss_iter (p_cur p)) in
  let! _ := if (it =? 0)%nat then m_lambda (st_lambda0 st) else ret tt in
  let! res := lm_loop 5 J cost [] in
  if fst res then
    let! r2 := get p_r2 in
    m_record (vnorm (snd res)) r2
  else
    let! c0 := get (fun p => ss_chi2 (p_init p)) in
    let! lam := get (fun p => ss_lambda (p_cur p)) in
    let! _ :=
      if nltb cost (nmul c0 (nlit (1#2))) then
        mupd (fun p => let c := p_cur p in
             w_cur (Stats true SUCCESS (ss_chi2 c) (ss_delta c) (ss_resnorm c) (ss_iter c) (ss_lambda c)) p)
      else m_fail (if nleb (st_max_lambda st) lam then ILL_CONDITIONED else FAILED) in
    let! _ := mupd (w_r2 r1) in
    m_record (vnorm (map (fun _ => nzero) (snd res))) r1.

Definition one_step (p : pstate) : pstate * outcome unit :=
  match st_method (p_set p) with GaussNewton => gn_step p | LevenbergMarquardt => lm_step p end.

(** sparse_optimizer.cpp:187-266, [n] iterations left *)
Fixpoint opt_loop (n : nat) (p : pstate) : pstate * outcome unit :=
  match n with
  | O => (p, Ok tt)
  | Datatypes.S n' =>
    let prev := p_cur p in
    match one_step p with
    | (p1, UB u) => (p1, UB u)
    | (p1, Throw _) => m_fail FAILED (w_caught true p1)
    | (p1, Ok _) =>
      let st := p_set p1 in
      let cur := p_cur p1 in
      match ss_status cur with
      | SINGULAR_HESSIAN | ILL_CONDITIONED | FAILED => (p1, Ok tt)
      | _ =>
        if nltb (ss_delta cur) (st_step_tol st) then m_status SUCCESS p1 else
        let impr := nsub (ss_resnorm prev) (ss_resnorm cur) in
        if nltb impr nzero then
          m_status (if nleb (ss_resnorm (p_init p1)) (ss_resnorm cur) then DIVERGED else SUCCESS) p1
        else if nltb impr (st_res_tol st) then m_status SUCCESS p1
        else if nltb (nmul (nlit 10) (ss_resnorm (p_init p1))) (ss_resnorm cur) then m_fail DIVERGED p1
        else opt_loop n' p1
      end
    end
  end.

(** sparse_optimizer.cpp:141-308 optimize *)
Definition optimize : M unit := fun p =>
  if negb (p_hasgraph p) then (p, Throw ENoGraph) else
  let p0 := w_caught false (w_cur (Stats true RUNNING (ss_chi2 stats0) (ss_delta stats0) (ss_resnorm stats0) 0 (ss_lambda stats0)) p) in
  match compute_residual (EV (p_tick p0)) (p_heap p0) (p_graph p0) with
  | (g, Throw e) => (w_tick (w_graph g p0), Throw e)
  | (g, UB u) => (w_tick (w_graph g p0), UB u)
  | (g, Ok r) =>
    let s := Stats true RUNNING (sqnorm r) (ss_delta stats0) (vnorm r) 0 (ss_lambda stats0) in
    let p1 := w_init s (w_cur s (w_tick (w_graph g p0))) in
    match opt_loop (st_max_iter (p_set p1)) p1 with
    | (p2, Ok _) =>
      let p3 := match ss_status (p_cur p2) with RUNNING => fst (m_status SUCCESS p2) | _ => p2 end in
      (w_complete true p3, Ok tt)
    | (p2, r) => (p2, r)
    end
  end.

(** sparse_optimizer.cpp:133-139 setup; the flag says whether graph_ptr is non-null (there is one graph object) *)
Definition setup (b : bool) (st : settings) : M unit := mupd (w_setup b st).

(** sparse_optimizer.cpp:526-583 prepare_to_estimate_covariances *)
Definition prepare : M unit := fun p =>
  if p_hvalid p then (p, Ok tt) else
  if negb (p_complete p) then (p, Ok tt) else
  (let! J := fun p => (p, omap sp_dense (sparse_jacobian (p_graph p))) in
   let! _ := mupd (w_hess (jtj J)) in
   let! ok := m_factorize (jtj J) in
   if negb ok then ret tt else
   let! s := get p_solver in
   let! mn := lift (vmin (map nabs (sv_D SV s))) in
   mupd (w_hvalid true)) p.

(** P = 0.5 * (P + P.transpose()) evaluated in place, column by column (Eigen aliasing): a lower entry is computed
    before the upper entry that reads it *)
Definition symmetrise (P : mat N) : mat N :=
  let avg x y := nmul (nlit (1#2)) (nadd x y) in
  Mat (mrows P) (mcols P) (fun i j =>
    if (j <=? i)%nat then avg (mat_at P i j) (mat_at P j i)
    else avg (mat_at P i j) (avg (mat_at P j i) (mat_at P i j))).

Definition diag_of (P : mat N) : list N := map (fun i => mat_at P i i) (seq 0 (mrows P)).
Definition all_finite (P : mat N) : bool :=
  forallb (fun i => forallb (fun j => nfinite (mat_at P i j)) (seq 0 (mcols P))) (seq 0 (mrows P)).

(** sparse_optimizer.cpp:585-663 estimate_covariance: [None] is covariance_valid = false with an empty matrix *)
Definition estimate_covariance (q : option addr) : M (option (mat N)) := fun p =>
  match q with
  | None => (p, Ok None)
  | Some a =>
    match hget (p_heap p) a with
    | Throw e => (p, Throw e)
    | UB u => (p, UB u)
    | Ok v =>
      if vconst VC v || (vsize VC v =? 0)%nat then (p, Ok None) else
      if negb (p_complete p) then (p, Ok None) else
      if negb (p_hvalid p) || (mrows (p_hess p) =? 0)%nat || (mcols (p_hess p) =? 0)%nat then (p, Ok None) else
      match variable_placement (p_graph p) (vid VC v) with
      | None => (p, Ok None)
      | Some pl =>
        let n := mrows (p_hess p) in
        if negb (vp_index pl + vp_dim pl <=? n)%nat then (p, UB UBIndex) else
        let B := Mat n (vp_dim pl) (fun i j => if (i =? vp_index pl + j)%nat then nlit 1 else nzero) in
        let '(s, X) := sv_solve_mat SV (p_solver p) B in
        let p1 := w_solver s p in
        if negb (sv_ok SV s) then (p1, Ok None) else
        if negb ((vp_index pl + vp_dim pl <=? mrows X) && (vp_dim pl <=? mcols X))%nat then (p1, UB UBSegment) else
        let P := Mat (vp_dim pl) (vp_dim pl) (fun i j => mat_at X (vp_index pl + i) j) in
        if negb (all_finite P) then (p1, Ok None) else
        match vmax (diag_of P) with
        | Throw e => (p1, Throw e)
        | UB u => (p1, UB u)
        | Ok mx => if nltb (nlit 1000000000000) mx then (p1, Ok None) else (p1, Ok (Some (symmetrise P)))
        end
      end
    end
  end.

(** ** Histories of calls on the graph, the variables and the optimiser *)
Inductive oop : Type :=
| OOp (o : op (N:=N) (V:=V))
| OSetup (b : bool) (st : settings)
| OOptimize
| OPrepare
| OEstimate (q : option addr).

Definition ostep (p : pstate) (o : oop) : pstate :=
  match o with
  | OOp o => let '((h, g), _) := step VC (EV (p_tick p)) (p_heap p, p_graph p) o in w_tick (w_graph g (w_heap h p))
  | OSetup b st => fst (setup b st p)
  | OOptimize => fst (optimize p)
  | OPrepare => fst (prepare p)
  | OEstimate q => fst (estimate_covariance q p)
  end.
Definition orun (p : pstate) (l : list oop) : pstate := fold_left ostep l p.
(** a default-constructed optimiser (SparseOptimizer() = default) and an empty graph; [s] is the initial solver state.
    settings_ has its default values, which no call reads before setup() *)
Definition ostart (s : S) (st : settings) : pstate :=
  PState [] empty_graph st false stats0 stats0 false false mempty [] [] s 0 0 false 0.
End Optimizer.
