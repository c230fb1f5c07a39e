(** Eigen 3.4 SimplicialLDLT<SparseMatrix<double>>, the class of the member sparse_solver_ (/repo/src/factorama/sparse_optimizer.hpp:173), as
    it is used at sparse_optimizer.cpp:38-50, 76-77, 356-369, 385-386, 548-558 and 636-638.  Eigen is not part of /repo; this follows
    SimplicialCholesky.h and SimplicialCholesky_impl.h.  Simplifications: the factor L is stored densely, so entries outside the sparsity
    pattern are computed instead of skipped (they are zero); the fill-reducing ordering is a parameter; shift offset and scale have
    their default values 0 and 1. *)
From Coq Require Import List Arith ZArith QArith Bool.
From Verif Require Import Base Optimizer.
Import ListNotations.

Section Ldlt.
Context {N : num}.
Local Open Scope num_scope.

(** m_diag and the columns of m_matrix: for each k the pivot D_k and the entries L(k+1,k), L(k+2,k), ... computed so far *)
Definition columns : Type := list (N * list N).

(** [x == 0] *)
Definition is_zero (x : N) : bool := nleb x nzero && nleb nzero x.

(** SimplicialCholesky_impl.h, factorize_preordered<true>, sparse triangular solve for row k of L: [y] holds the entries k of the columns
    that are still to come, [d] is the pivot so far *)
Fixpoint ldlt_row (cols : columns) (y : list N) (d : N) : columns * N :=
  match cols, y with
  | (Di, c) :: cs, yi :: ys =>
    let l := yi / Di in
    let '(cs', d') := ldlt_row cs (vzip (fun v e => v - e * yi) ys c) (d - l * yi) in ((Di, c ++ [l]) :: cs', d')
  | _, _ => ([], d)
  end.
(** the loop over k; [A i k] with i <= k are the entries of the permuted matrix.  It stops at a zero pivot with info() == NumericalIssue. *)
Fixpoint ldlt_factor (A : nat -> nat -> N) (k : nat) : bool * columns :=
  match k with
  | O => (true, [])
  | S k' =>
    match ldlt_factor A k' with
    | (false, cs) => (false, cs)
    | (true, cs) =>
      let '(cs', d) := ldlt_row cs (map (fun i => A i k') (seq 0 k')) (A k' k') in (negb (is_zero d), cs' ++ [(d, [])])
    end
  end.

(** solveInPlace with the unit lower triangular L *)
Fixpoint ldlt_lower (cols : columns) (b : list N) : list N :=
  match cols, b with
  | (_, c) :: cs, x :: bs => x :: ldlt_lower cs (vzip (fun v e => v - x * e) bs c)
  | _, _ => []
  end.
(** [m_diag.asDiagonal().inverse() * dest] *)
Fixpoint ldlt_diag (cols : columns) (b : list N) : list N :=
  match cols, b with
  | (d, _) :: cs, x :: bs => nunit / d * x :: ldlt_diag cs bs
  | _, _ => []
  end.
(** solveInPlace with L^T *)
Fixpoint ldlt_upper (cols : columns) (b : list N) : list N :=
  match cols, b with
  | (_, c) :: cs, x :: bs => let xs := ldlt_upper cs bs in fold_left (fun t p => t - fst p * snd p) (combine c xs) x :: xs
  | _, _ => []
  end.

(** the solver object: info() == Success, the permutation, D and L *)
Record ldlt : Type := Ldlt { lt_ok : bool; lt_perm : list nat; lt_cols : columns }.
(** the ordering (AMD by default): position i of the factorised matrix is row and column [nth i (ord H)] of H *)
Context (ord : mat N -> list nat).
(** compute(H): selfadjointView<Lower> of H is read, twisted by the permutation *)
Definition ldlt_entry (H : mat N) (p : list nat) (i j : nat) : N :=
  let a := nth i p 0%nat in let b := nth j p 0%nat in mat_at H (Nat.max a b) (Nat.min a b).
Definition ldlt_compute (_ : ldlt) (H : mat N) : ldlt :=
  let p := ord H in let '(ok, cs) := ldlt_factor (ldlt_entry H p) (mrows H) in Ldlt ok p cs.
(** SimplicialCholesky::_solve_impl: permute, L, D, L^T, permute back.  info() is not changed by solve(). *)
Definition ldlt_apply (s : ldlt) (b : list N) : list N :=
  let y := ldlt_upper (lt_cols s) (ldlt_diag (lt_cols s) (ldlt_lower (lt_cols s) (map (fun i => nth i b nzero) (lt_perm s)))) in
  map (fun i => nth (match find (fun k => nth k (lt_perm s) 0%nat =? i)%nat (seq 0 (length y)) with Some k => k | None => length y end) y nzero)
    (seq 0 (length y)).
Definition ldlt_apply_mat (s : ldlt) (B : mat N) : mat N :=
  Mat (length (lt_perm s)) (mcols B) (fun i j => nth i (ldlt_apply s (map (fun k => mat_at B k j) (seq 0 (mrows B)))) nzero).
Definition ldlt_solver : solver N ldlt :=
  Solver N ldlt ldlt_compute lt_ok (fun s => map fst (lt_cols s)) (fun s b => (s, ldlt_apply s b)) (fun s B => (s, ldlt_apply_mat s B)).
End Ldlt.
Arguments ldlt : clear implicits.
