(** Specification of estimates at which an optimiser has nothing to do. *)
From Coq Require Import List Arith ZArith Bool Reals.
From Verif Require Import Base Sparse Graph SpecGraph SpecOpt Real RSum SpecSolver SpecSteps Geom Vars.
Import ListNotations.
Local Open Scope nat_scope.

Section Rest.
Context {V : Type} (VC : vclass RN V).
(** the gradient J^T r of half the cost vanishes at [h] *)
Definition stationary (h : @heap V) (vs : list addr) (fs : list (factor (N:=RN) (V:=V))) : Prop :=
  exists r J, stacked h fs r /\ jacobian_at VC h vs fs J /\ forall i, i < mcols J -> rsum (mrows J) (fun k => mat_at J k i * nth k r 0)%R = 0%R.
(** an increment of zero leaves the variable as it is *)
Definition rests (v : V) : Prop := vinc VC v (repeat 0%R (vsize VC v)) = Ok v.
Definition all_rest (h : @heap V) (vs : list addr) : Prop :=
  forall a v, In a vs -> nth_error h a = Some v -> vconst VC v = false -> rests v.
(** only an increment of zero leaves the variable as it is *)
Definition responsive (v : V) : Prop :=
  forall d, length d = vsize VC v -> vinc VC v d = Ok v -> forall c, c < vsize VC v -> nth c d 0%R = 0%R.
Definition all_responsive (h : @heap V) (vs : list addr) : Prop :=
  forall a v, In a vs -> nth_error h a = Some v -> vconst VC v = false -> responsive v.
End Rest.

(** States of the library's variables that are what their own setters make of them: angles are wrapped, inverse ranges are within their limits,
    normals have unit length (or are zero), and rotation vectors are the logarithms of the matrices. *)
Definition settled (k : kind RN) : Prop :=
  match k with
  | KGeneric _ => True
  | KLandmark x => length x = 3
  | KPose x R => length x = 6 /\ log_so3 R = seg3 3 x /\ dcm_of_rot (seg3 3 x) = R
  | KRot x R => x = v3list (log_so3 R)
  | KInv _ _ lo hi x => match x with [y] => clip lo hi y = y | _ => False end
  | KPlane n _ => v3normalized n = n
  | KPose2 x => match x with [_; _; t] => wrap_angle t = t | _ => False end
  end.
