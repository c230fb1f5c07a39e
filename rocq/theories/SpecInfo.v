(** Specification: what two sets of measurements have in common if they say the same about the variables.  Only the two sums over all
    residual rows that occur in the normal equations matter; nothing is assumed about the factors one by one. *)
From Coq Require Import List Arith ZArith Bool Reals Permutation.
From Verif Require Import Base Sparse Graph SpecGraph Real RSum SpecBlocks Geom Vars FactorLib.
Import ListNotations.
Local Open Scope nat_scope.

Section Info.
Context {V : Type} (VC : vclass RN V).
Notation factor := (factor (N:=RN) (V:=V)).
(** entry of J^T J for element [c] of the variable at [a] and element [e] of the variable at [b]; entry of J^T r *)
Definition information (h : @heap V) (fs : list factor) (a c b e : nat) : R :=
  lsum fs (fun f => rsum (f_rsize f) (fun i => deriv h f a i c * deriv h f b i e)%R).
Definition pull (h : @heap V) (fs : list factor) (a c : nat) : R := lsum fs (fun f => rsum (f_rsize f) (fun i => deriv h f a i c * resid h f i)%R).
(** the same at [h], for all variables of the list that are optimised *)
Definition same_information (h : @heap V) (vs : list addr) (fs fs' : list factor) : Prop :=
  forall a c, In a vs -> c < width VC h a ->
    pull h fs' a c = pull h fs a c /\ forall b e, In b vs -> e < width VC h b -> information h fs' a c b e = information h fs a c b e.
(** the variables of the list that are not held constant *)
Definition free (h : @heap V) (vs : list addr) : list addr := filter (fun a => match nth_error h a with Some v => negb (vconst VC v) | None => false end) vs.
(** all variables of the factor are held constant *)
Definition idle (h : @heap V) (f : factor) : Prop := forall a v, In (Some a) (f_vars f) -> nth_error h a = Some v -> vconst VC v = true.
End Info.

(** the same measurement under the id [i], with all its standard deviations multiplied by [k] *)
Definition reissued (i : Z) (k : R) (f : lib_factor RN) : lib_factor RN :=
  match f with
  | LGenericPrior _ a x s => LGenericPrior i a x (k * s)%R
  | LGenericBetween _ a b d n s => LGenericBetween i a b d n (k * s)%R
  | LLinearVelocity _ a b c n dt s i0 => LLinearVelocity i a b c n dt (k * s)%R i0
  | LPositionPrior _ p x s => LPositionPrior i p x (k * s)%R
  | LOrientationPrior _ p x s => LOrientationPrior i p x (k * s)%R
  | LRotationPrior _ p x s => LRotationPrior i p x (k * s)%R
  | LPositionBetween _ a b m s loc => LPositionBetween i a b m (k * s)%R loc
  | LOrientationBetween _ a b c s => LOrientationBetween i a b c (k * s)%R
  | LBearing _ p l obs s => LBearing i p l obs (k * s)%R
  | LInverseRange _ p l obs s => LInverseRange i p l obs (k * s)%R
  | LProjection _ p l obs s tol => LProjection i p l obs (k * s)%R tol
  | LBearing2 _ p l obs s => LBearing2 i p l obs (k * s)%R
  | LRangeBearing2 _ p l r obs rs bs => LRangeBearing2 i p l r obs (k * rs)%R (k * bs)%R
  | LPose2Prior _ p x s r => LPose2Prior i p x (k * s)%R (k * r)%R
  | LPose2Between _ a b m s r loc => LPose2Between i a b m (k * s)%R (k * r)%R loc
  | LPlane _ q m s sc => LPlane i q m (k * s)%R sc
  | LPlanePrior _ m np dp ns ds => LPlanePrior i m np dp (k * ns)%R (k * ds)%R
  | LTransform _ r o s la lb sg => LTransform i r o s la lb (k * sg)%R
  end.
(** [gs] repeats the measurement [f], with standard deviations that are k1, k2, ... times those of [f] where 1/k1^2 + 1/k2^2 + ... = 1 *)
Definition repeated (f : factor (N:=RN) (V:=lvar RN)) (gs : list (factor (N:=RN) (V:=lvar RN))) : Prop :=
  exists lf iks, f = build lf /\ gs = map (fun ik => build (reissued (fst ik) (snd ik) lf)) iks /\
    Forall (fun ik => (0 < snd ik)%R) iks /\ lsum iks (fun ik => / (snd ik * snd ik))%R = 1%R.
(** in [fs'] measurements of [fs] are repeated, and idle factors have been added or left out *)
Definition restated (h : @heap (lvar RN)) (fs fs' : list (factor (N:=RN) (V:=lvar RN))) : Prop :=
  exists gs gss rest rest', Permutation fs (gs ++ rest) /\ Permutation fs' (concat gss ++ rest') /\ Forall2 repeated gs gss /\
    Forall (idle (lib RN) h) rest /\ Forall (idle (lib RN) h) rest'.
(** all inverse range variables and their limits are at least 1e-9 *)
Definition sane_ranges (h : @heap (lvar RN)) : Prop :=
  forall a v o b lo hi x, nth_error h a = Some v -> l_kind v = KInv o b lo hi x -> Forall (fun y => / 1000000000 <= y)%R (lo :: hi :: firstn 1 x).
