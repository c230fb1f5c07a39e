(** Specification: problems that are linear in the variables, and what is left of the distance to the optimum. *)
From Coq Require Import List Arith ZArith Bool Reals.
From Verif Require Import Base Sparse Graph SpecGraph SpecOpt Geom Vars FactorLib SpecShape Real RSum SpecSolver SpecSteps.
Import ListNotations.
Local Open Scope nat_scope.

Section Contract.
Context {V : Type} (VC : vclass RN V).
Notation factor := (factor (N:=RN) (V:=V)).
(** all residuals are affine in the variables, with Jacobians [jss] that do not depend on the values; increments are added to the values *)
Definition linear_problem (h0 : @heap V) (vs : list addr) (fs : list factor) : Prop :=
  (exists jss, Forall2 (fun f js => f_jac f h0 [] = (js, Ok tt) /\ blocks_ok VC h0 (f_rsize f) (f_vars f) js) fs jss /\ Forall2 (affine_at VC h0 vs) fs jss) /\
  forall h, revalued VC h0 h -> each_nonconst VC h vs (additive VC) /\ forall f, In f fs -> f_jac f h [] = f_jac f h0 [].
(** element by element, the distance from the values in [hs] is [k] times as large in [h'] as in [h] *)
Definition distance_scaled (k : R) (vs : list addr) (hs h h' : @heap V) : Prop :=
  forall a v v' w, In a vs -> nth_error h a = Some v -> nth_error h' a = Some v' -> nth_error hs a = Some w -> vconst VC v = false ->
    forall c, c < vsize VC v -> (nth c (vval VC v') 0 - nth c (vval VC w) 0 = k * (nth c (vval VC v) 0 - nth c (vval VC w) 0))%R.
End Contract.

(** factor classes that are linear in their variables *)
Definition linear_class (f : lib_factor RN) : Prop :=
  match f with LGenericPrior _ _ _ _ | LGenericBetween _ _ _ _ _ _ | LLinearVelocity _ _ _ _ _ _ _ _ => True | _ => False end.
(** what is optimised are vectors and points, and all factors are of those classes *)
Definition vector_problem (h : @heap (lvar RN)) (vs : list addr) (fs : list (factor (N:=RN) (V:=lvar RN))) : Prop :=
  (forall a v, In a vs -> nth_error h a = Some v -> l_const v = false -> is_generic (l_kind v) \/ is_landmark (l_kind v)) /\
  forall f, In f fs -> exists lf, f = build lf /\ linear_class lf /\ well_used h lf.
