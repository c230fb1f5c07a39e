(** Coordinate-free specification of the (damped) normal equations: unknowns are attached to variables, equations to variables and
    residual rows to factors, so that no order of the variables or factors occurs. *)
From Coq Require Import List Arith ZArith Bool Reals.
From Verif Require Import Base Sparse Graph SpecGraph SpecOpt Real RSum.
Import ListNotations.
Local Open Scope nat_scope.

(** sum over the entries of a list *)
Definition lsum {A : Type} (l : list A) (g : A -> R) : R := fold_right (fun a s => (g a + s)%R) 0%R l.

Section Blocks.
Context {V : Type} (VC : vclass RN V).
Notation factor := (factor (N:=RN) (V:=V)).

(** entry (i, c) of the derivative of factor [f] by the variable at [a], and entry i of its residual *)
Definition deriv (h : @heap V) (f : factor) (a : addr) (i c : nat) : R :=
  match listed_at a (f_vars f) with
  | Some q => match nth_error (fst (f_jac f h [])) q with Some B => mat_at B i c | None => 0%R end
  | None => 0%R
  end.
Definition resid (h : @heap V) (f : factor) (i : nat) : R := match f_res_ref f h with Ok x => nth i x 0%R | _ => 0%R end.
(** change of that entry, to first order, when the variables move by [d] *)
Definition first_order (h : @heap V) (vs : list addr) (d : addr -> nat -> R) (f : factor) (i : nat) : R :=
  lsum vs (fun b => rsum (width VC h b) (fun c => deriv h f b i c * d b c)%R).
(** [d] solves the normal equations with damping [l] *)
Definition block_solution (l : R) (h : @heap V) (vs : list addr) (fs : list factor) (d : addr -> nat -> R) : Prop :=
  forall a c, In a vs -> c < width VC h a ->
    (lsum fs (fun f => rsum (f_rsize f) (fun i => deriv h f a i c * (first_order h vs d f i + resid h f i))) + l * d a c = 0)%R.
End Blocks.
