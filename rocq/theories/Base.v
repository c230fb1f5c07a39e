(** Outcomes of C++ calls, scalar operations, dense vectors and matrices. *)
From Coq Require Import List Arith ZArith QArith Bool.
Import ListNotations.

(** C++ exceptions thrown by the library, named after the message of the [throw] statement. *)
Inductive exn : Set :=
| EDupVariable        (* factor_graph.cpp:11 *)
| EDupFactor          (* factor_graph.cpp:21 *)
| ENoPlacement        (* factor_graph.cpp:56, 277 *)
| EVarSizeMismatch    (* factor_graph.cpp:61; generic_variable.hpp, plane_variable.hpp, ... *)
| ENotFinalized       (* factor_graph.cpp:86, 120, 137, 156, 225, 372, 538 *)
| EIncSize            (* factor_graph.cpp:90 *)
| EIncBounds          (* factor_graph.cpp:108 *)
| EEmptyBlock         (* factor_graph.cpp:181 *)
| EBlockBounds        (* factor_graph.cpp:198 *)
| EBlockRows          (* factor_graph.cpp:203 *)
| EBlockCols          (* factor_graph.cpp:209 *)
| ENullVariable       (* factor_graph.cpp:267 *)
| EUnderdetermined    (* factor_graph.cpp:295 *)
| ESparseNotInit      (* factor_graph.cpp:376 *)
| ESparseCol          (* factor_graph.cpp:417 *)
| ESparseRow          (* factor_graph.cpp:422 *)
| ENullValuePtr       (* factor_graph.cpp:679 *)
| EDataIndexMismatch  (* factor_graph.cpp:691 *)
| ERunningIndex       (* factor_graph.cpp:706 *)
| ESparseBounds       (* factor_graph.cpp:709 *)
| ENotValid           (* factor_graph.hpp:136, 144, 152 *)
| ENoGraph            (* sparse_optimizer.cpp:13, 144, 313 *)
| EDegenerate         (* geometry degenerate: bearing/2D factors, random_utils.cpp:97 *)
| EBadArgument        (* constructor argument checks *)
| ECustom (n : nat).  (* exception of a user-defined variable or factor class *)

(** Undefined behaviour.  [assert] and Eigen's [eigen_assert] are compiled out in the default Release build, so
    their violation is undefined behaviour rather than an abort. *)
Inductive ubk : Set :=
| UBNull              (* null pointer dereferenced *)
| UBDangling          (* address that holds no object, or an object of another type *)
| UBIndex             (* index outside a std::vector / Eigen object *)
| UBSegment           (* Eigen segment/block outside the object *)
| UBSize              (* Eigen size mismatch in an assignment or product *)
| UBEmpty             (* reduction (minCoeff/maxCoeff) of an empty vector *)
| UBUninit.           (* indeterminate value returned *)

Inductive outcome (A : Type) : Type :=
| Ok (a : A)
| Throw (e : exn)
| UB (u : ubk).
Arguments Ok {A} a.
Arguments Throw {A} e.
Arguments UB {A} u.

Definition obind {A B} (x : outcome A) (f : A -> outcome B) : outcome B :=
  match x with Ok a => f a | Throw e => Throw e | UB u => UB u end.
Definition omap {A B} (f : A -> B) (x : outcome A) : outcome B :=
  match x with Ok a => Ok (f a) | Throw e => Throw e | UB u => UB u end.
Notation "'let*' x := a 'in' b" := (obind a (fun x => b))
  (at level 200, x pattern, a at level 100, b at level 200, right associativity).

(** Scalar operations used by the library ([double] in C++).  Theorems that quantify over [num] hold for every
    interpretation of the operations, in particular for IEEE doubles, where [nltb]/[nleb] are false on NaN. *)
Record num : Type := MkNum {
  car :> Type;
  nadd : car -> car -> car;
  nsub : car -> car -> car;
  nmul : car -> car -> car;
  ndiv : car -> car -> car;
  nneg : car -> car;
  nabs : car -> car;
  nsqrt : car -> car;
  nsin : car -> car;
  ncos : car -> car;
  ntan : car -> car;
  nacos : car -> car;
  natan2 : car -> car -> car;
  nltb : car -> car -> bool;
  nleb : car -> car -> bool;
  nfinite : car -> bool;
  nlit : Q -> car
}.
Arguments nadd {_} _ _.
Arguments nsub {_} _ _.
Arguments nmul {_} _ _.
Arguments ndiv {_} _ _.
Arguments nneg {_} _.
Arguments nabs {_} _.
Arguments nsqrt {_} _.
Arguments nsin {_} _.
Arguments ncos {_} _.
Arguments ntan {_} _.
Arguments nacos {_} _.
Arguments natan2 {_} _ _.
Arguments nltb {_} _ _.
Arguments nleb {_} _ _.
Arguments nfinite {_} _.
Arguments nlit {_} _.

Declare Scope num_scope.
Delimit Scope num_scope with num.
Infix "+" := nadd : num_scope.
Infix "-" := nsub : num_scope.
Infix "*" := nmul : num_scope.
Infix "/" := ndiv : num_scope.
Notation "- x" := (nneg x) : num_scope.
Notation "x <? y" := (nltb x y) : num_scope.
Notation "x <=? y" := (nleb x y) : num_scope.

Definition nzero {N : num} : N := nlit 0%Q.
Definition nunit {N : num} : N := nlit 1%Q.

(** [std::max(a,b)] is [(a < b) ? b : a]; [std::min(a,b)] is [(b < a) ? b : a]. *)
Definition nmax {N : num} (a b : N) : N := if nltb a b then b else a.
Definition nmin {N : num} (a b : N) : N := if nltb b a then b else a.

(** Eigen::VectorXd as a list; sums run left to right (Eigen may reassociate sums; immaterial over the reals,
    and the theorems over all [num] never look inside a sum). *)
Definition vec (N : num) := list N.

Section Vec.
Context {N : num}.

Definition vsum (l : list N) : N := fold_left nadd l nzero.
(** [VectorXd::squaredNorm], [norm] *)
Definition sqnorm (v : list N) : N := vsum (map (fun x => nmul x x) v).
Definition vnorm (v : list N) : N := nsqrt (sqnorm v).
Definition vzip (f : N -> N -> N) (a b : list N) : list N := map (fun p => f (fst p) (snd p)) (combine a b).
Definition vadd := vzip nadd.
Definition vsub := vzip nsub.
Definition vscale (s : N) (v : list N) : list N := map (fun x => nmul s x) v.
Definition vdot (a b : list N) : N := vsum (vzip nmul a b).
Definition vneg (v : list N) : list N := map nneg v.
Definition vzeros (n : nat) : list N := repeat nzero n.

(** [v.segment(off, n)] as an rvalue: outside the vector it is undefined behaviour (eigen_assert, NDEBUG). *)
Definition segment (off n : nat) (v : list N) : outcome (list N) :=
  if (off + n <=? length v)%nat then Ok (firstn n (skipn off v)) else UB UBSegment.

(** [v.segment(off, n) = s]: out of range is UB, a size mismatch is UB. *)
Definition write_segment (off n : nat) (s v : list N) : outcome (list N) :=
  if (off + n <=? length v)%nat then
    if (length s =? n)%nat then Ok (firstn off v ++ s ++ skipn (off + n) v) else UB UBSize
  else UB UBSegment.

(** Eigen::MatrixXd: rows, cols and coefficient access. Coefficients outside the range are irrelevant. *)
Record mat : Type := Mat { mrows : nat; mcols : nat; mat_at : nat -> nat -> N }.

(** [Eigen::MatrixXd()] *)
Definition mempty : mat := Mat 0 0 (fun _ _ => nzero).
Definition mzero (r c : nat) : mat := Mat r c (fun _ _ => nzero).
(** [Ji.rows() == 0 || Ji.cols() == 0] *)
Definition mat_is_empty (m : mat) : bool := (mrows m =? 0)%nat || (mcols m =? 0)%nat.

Definition mtrans (m : mat) : mat := Mat (mcols m) (mrows m) (fun i j => mat_at m j i).
Definition mmul (a b : mat) : mat :=
  Mat (mrows a) (mcols b) (fun i j => vsum (map (fun k => nmul (mat_at a i k) (mat_at b k j)) (seq 0 (mcols a)))).
Definition mvmul (a : mat) (v : list N) : list N :=
  map (fun i => vsum (map (fun k => nmul (mat_at a i k) (nth k v nzero)) (seq 0 (mcols a)))) (seq 0 (mrows a)).

(** [m.block(r0, c0, b.rows(), b.cols()) = b] *)
Definition write_block (r0 c0 : nat) (b m : mat) : mat :=
  Mat (mrows m) (mcols m) (fun i j =>
    if ((r0 <=? i) && (i <? r0 + mrows b) && (c0 <=? j) && (j <? c0 + mcols b))%nat
    then mat_at b (i - r0) (j - c0) else mat_at m i j).
End Vec.
Arguments mat : clear implicits.

(** Association lists stand for std::unordered_map (lookup and update by key). *)
Section Assoc.
Context {K A : Type} (eqb : K -> K -> bool).
Fixpoint alookup (k : K) (m : list (K * A)) : option A :=
  match m with
  | [] => None
  | (k', a) :: m' => if eqb k k' then Some a else alookup k m'
  end.
Definition aset (k : K) (a : A) (m : list (K * A)) : list (K * A) :=
  filter (fun p => negb (eqb k (fst p))) m ++ [(k, a)].
End Assoc.

(** [v[i] = x] on a std::vector. *)
Fixpoint lupd {A} (i : nat) (x : A) (l : list A) : list A :=
  match l, i with
  | [], _ => []
  | _ :: t, O => x :: t
  | h :: t, S i' => h :: lupd i' x t
  end.
