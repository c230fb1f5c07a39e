(** Eigen::SparseMatrix<double> (column major) in uncompressed mode, as far as FactorGraph uses it.
    Eigen is not part of /repo; this follows Eigen 3.4 SparseMatrix.h: [reserve] on an empty compressed matrix gives column j
    a room of exactly the reserved size; [coeffRef] looks the row up among the sorted entries of the column and
    inserts a new entry (value 0) if it is missing, growing the room of the column by max(2,nnz) if it is full. *)
From Coq Require Import List Arith Bool.
From Verif Require Import Base.
Import ListNotations.

Section Sparse.
Context {N : num}.

(** One column: its room (capacity) and its entries (row index, value), the first [length sc_ent] cells of the room. *)
Record spcol : Type := SpCol { sc_room : nat; sc_ent : list (nat * N) }.
Record spmat : Type := SpMat { sp_rows : nat; sp_cols : list spcol }.

(** factor_graph.cpp:359-360: [SparseMatrix(nr, nv)] then [reserve(num_sparse_rows)]. *)
Definition sp_reserved (nr : nat) (sizes : list nat) : spmat :=
  SpMat nr (map (fun n => SpCol n []) sizes).

(** default-constructed SparseMatrix: 0 x 0 *)
Definition sp_empty : spmat := SpMat 0 [].

(** [nonZeros()] in uncompressed mode: sum of the per-column entry counts. *)
Definition sp_nonzeros (m : spmat) : nat := list_sum (map (fun c => length (sc_ent c)) (sp_cols m)).
(** allocated cells *)
Definition sp_alloc (m : spmat) : nat := list_sum (map sc_room (sp_cols m)).

(** sorted insertion of a new entry (SparseMatrix::insertUncompressed) *)
Fixpoint ent_insert (r : nat) (v : N) (l : list (nat * N)) : list (nat * N) :=
  match l with
  | [] => [(r, v)]
  | (r', v') :: t => if r <? r' then (r, v) :: (r', v') :: t else (r', v') :: ent_insert r v t
  end.
(** overwrite the value of an existing entry *)
Fixpoint ent_assign (r : nat) (v : N) (l : list (nat * N)) : list (nat * N) :=
  match l with
  | [] => []
  | (r', v') :: t => if r =? r' then (r', v) :: t else (r', v') :: ent_assign r v t
  end.
Definition ent_has (r : nat) (l : list (nat * N)) : bool := existsb (fun p => r =? fst p) l.

(** [m.coeffRef(r, c) = v] within one column *)
Definition col_put (r : nat) (v : N) (c : spcol) : spcol :=
  if ent_has r (sc_ent c) then SpCol (sc_room c) (ent_assign r v (sc_ent c))
  else
    let n := length (sc_ent c) in
    SpCol (if n <? sc_room c then sc_room c else n + Nat.max 2 n) (ent_insert r v (sc_ent c)).

(** [m.coeffRef(r, c) = v]; an index outside the matrix is undefined behaviour *)
Definition sp_put (r c : nat) (v : N) (m : spmat) : outcome spmat :=
  if r <? sp_rows m then
    match nth_error (sp_cols m) c with
    | Some col => Ok (SpMat (sp_rows m) (lupd c (col_put r v col) (sp_cols m)))
    | None => UB UBIndex
    end
  else UB UBIndex.

(** [valuePtr()]: the cells of all columns, one after the other.  Cells of the room that hold no entry are
    [None]. *)
Definition sp_memory (m : spmat) : list (option N) :=
  concat (map (fun c => map (fun p => Some (snd p)) (sc_ent c) ++ repeat None (sc_room c - length (sc_ent c)))
              (sp_cols m)).

(** read the entries' values back from the value array *)
Fixpoint cols_of_memory (cols : list spcol) (mem : list (option N)) : list spcol :=
  match cols with
  | [] => []
  | c :: t =>
      SpCol (sc_room c)
        (map (fun p => (fst (fst p), match snd p with Some v => v | None => snd (fst p) end))
             (combine (sc_ent c) (firstn (length (sc_ent c)) mem)))
      :: cols_of_memory t (skipn (sc_room c) mem)
  end.
Definition sp_set_memory (m : spmat) (mem : list (option N)) : spmat :=
  SpMat (sp_rows m) (cols_of_memory (sp_cols m) mem).

(** coefficient (i,j) of the matrix: the entry if present, zero otherwise *)
Definition col_coeff (i : nat) (l : list (nat * N)) : N :=
  match alookup Nat.eqb i l with Some v => v | None => nzero end.
Definition sp_at (m : spmat) (i j : nat) : N :=
  match nth_error (sp_cols m) j with Some c => col_coeff i (sc_ent c) | None => nzero end.

(** the matrix value, as a dense matrix *)
Definition sp_dense (m : spmat) : mat N := Mat (sp_rows m) (length (sp_cols m)) (sp_at m).
End Sparse.
Arguments spmat : clear implicits.
Arguments spcol : clear implicits.
