(** ComputeNumericalJacobians (/repo/src/factorama/numerical_jacobian.hpp) and FactorGraph::detailed_factor_test
    (/repo/src/factorama/factor_graph.cpp).  Both change the variables while they run, so they return the heap together with the outcome;
    after an exception the heap is the one at the time of the throw. *)
From Coq Require Import List Arith ZArith QArith Bool.
From Verif Require Import Base Sparse Graph.
Import ListNotations.

Section NumJac.
Context {N : num} {V : Type} (VC : vclass N V).
Notation heap := (@heap V).
Notation factor := (factor (N:=N) (V:=V)).
Notation graph := (graph (N:=N) (V:=V)).

(** statements in sequence: stop at the first exception *)
Definition hthen {A B} (x : heap * outcome A) (k : heap -> A -> heap * outcome B) : heap * outcome B :=
  match x with
  | (h, Ok a) => k h a
  | (h, Throw e) => (h, Throw e)
  | (h, UB u) => (h, UB u)
  end.

(** numerical_jacobian.hpp:57-58: VectorXd::Zero(var_dim), then dx[k] = epsilon *)
Definition probe (n k : nat) (eps : N) : list N := map (fun i => if (i =? k)%nat then eps else nzero) (seq 0 n).
(** numerical_jacobian.hpp:54-75: one column.  The difference of vectors of different sizes, and the assignment of a vector
    of another size than residual_dim to a column, violate eigen_asserts that release builds compile out. *)
Definition num_col (f : factor) (a : addr) (n : nat) (eps : N) (k : nat) (h : heap) : heap * outcome (list N) :=
  hthen (h, hget h a) (fun h v =>
  let x0 := vval VC v in
  let dx := probe n k eps in
  hthen (hupd h a (fun v => vinc VC v dx)) (fun h _ =>
  hthen (h, f_res f h) (fun h res_plus =>
  hthen (hupd h a (fun v => vset VC v x0)) (fun h _ =>
  hthen (hupd h a (fun v => vinc VC v (vneg dx))) (fun h _ =>
  hthen (h, f_res f h) (fun h res_minus =>
  hthen (hupd h a (fun v => vset VC v x0)) (fun h _ =>
    (h, if ((length res_plus =? length res_minus) && (length res_plus =? f_rsize f))%nat
        then Ok (map (fun d => ndiv d (nmul (nlit 2) eps)) (vsub res_plus res_minus)) else UB UBSize)))))))).
(** numerical_jacobian.hpp:53: columns k, k+1, ... *)
Fixpoint num_cols (f : factor) (a : addr) (n : nat) (eps : N) (ks : list nat) (h : heap) : heap * outcome (list (list N)) :=
  match ks with
  | [] => (h, Ok [])
  | k :: ks' => hthen (num_col f a n eps k h) (fun h c => hthen (num_cols f a n eps ks' h) (fun h cs => (h, Ok (c :: cs))))
  end.
Definition of_columns (r c : nat) (cols : list (list N)) : mat N := Mat r c (fun i j => nth i (nth j cols []) nzero).
(** numerical_jacobian.hpp:44-78: loop over the variables *)
Fixpoint num_vars (f : factor) (eps : N) (vars : list (option addr)) (h : heap) : heap * outcome (list (mat N)) :=
  match vars with
  | [] => (h, Ok [])
  | None :: _ => (h, UB UBNull)
  | Some a :: vs =>
    hthen (h, hget h a) (fun h v =>
    hthen (if vconst VC v then (h, Ok mempty)
           else let n := vsize VC v in
                hthen (num_cols f a n eps (seq 0 n) h) (fun h cols => (h, Ok (of_columns (f_rsize f) n cols)))) (fun h J =>
    hthen (num_vars f eps vs h) (fun h Js => (h, Ok (J :: Js)))))
  end.
(** numerical_jacobian.hpp:32-80; residual0 (line 39) is computed and only used in an assert; the loop runs over the result of one call of
    variables() *)
Definition num_jac (f : factor) (eps : N) (h : heap) : heap * outcome (list (mat N)) :=
  hthen (h, f_res f h) (fun h _ => num_vars f eps (f_vars f) h).

(** [m.cwiseAbs().maxCoeff()]: largest coefficient, column by column; an empty matrix violates an eigen_assert.  Eigen's vectorised
    reduction visits the coefficients in another order, which matters only for NaN. *)
Definition coeffs (m : mat N) : list N := flat_map (fun j => map (fun i => mat_at m i j) (seq 0 (mrows m))) (seq 0 (mcols m)).
Definition max_abs (m : mat N) : outcome N :=
  match map nabs (coeffs m) with [] => UB UBEmpty | x :: l => Ok (fold_left nmax l x) end.
Definition mminus (a b : mat N) : mat N := Mat (mrows a) (mcols a) (fun i j => nsub (mat_at a i j) (mat_at b i j)).
(** [J.size() == 0] *)
Definition no_coeffs (m : mat N) : bool := (mrows m * mcols m =? 0)%nat.

(** factor_graph.cpp:582-627: one variable; output dropped *)
Definition test_block (tol : N) (v : V) (Ja Jn : mat N) : outcome bool :=
  if vconst VC v then Ok (no_coeffs Ja && no_coeffs Jn)
  else if negb ((mrows Ja =? mrows Jn) && (mcols Ja =? mcols Jn))%nat then Ok false
  else let* max_val := max_abs Jn in
       let* max_error := max_abs (mminus Jn Ja) in
       Ok (negb (nleb (nmax (nlit (1 # 100)) (nmul max_val tol)) max_error)).
(** factor_graph.cpp:576-644: loop over the variables, factor_passed.  factor->variables() is called again (line 574). *)
Fixpoint test_blocks (tol : N) (h : heap) (vars : list (option addr)) (Ja Jn : list (mat N)) : outcome bool :=
  match Ja, Jn, vars with
  | A :: Ja', B :: Jn', Some a :: vs =>
    let* v := hget h a in let* b := test_block tol v A B in let* bs := test_blocks tol h vs Ja' Jn' in Ok (b && bs)
  | _ :: _, _ :: _, None :: _ => UB UBNull
  | _ :: _, _ :: _, [] => UB UBIndex
  | _, _, _ => Ok true
  end.
(** factor_graph.cpp:550-651: one factor *)
Definition test_factor (tol : N) (f : factor) (h : heap) : heap * outcome bool :=
  let '(Ja, o) := f_jac f h [] in
  hthen (h, o) (fun h _ =>
  hthen (num_jac f (nlit (1 # 1000000)) h) (fun h Jn =>
  if negb (length Ja =? length Jn)%nat then (h, Ok false) else (h, test_blocks tol h (f_vars f) Ja Jn))).
(** factor_graph.cpp:550: all factors, none skipped *)
Fixpoint test_factors (tol : N) (fs : list factor) (h : heap) : heap * outcome bool :=
  match fs with
  | [] => (h, Ok true)
  | f :: fs' => hthen (test_factor tol f h) (fun h b => hthen (test_factors tol fs' h) (fun h bs => (h, Ok (b && bs))))
  end.
(** factor_graph.cpp:535-668: detailed_factor_test; [all_passed] is [num_failed == 0] *)
Definition detailed_factor_test (tol : N) (h : heap) (g : graph) : heap * outcome bool :=
  if negb (ly_final (g_lay g)) then (h, Throw ENotFinalized) else test_factors tol (rg_factors (g_reg g)) h.
End NumJac.
