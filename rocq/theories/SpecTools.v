(** Specification of the tools around the graph: running time of a stopwatch, Huber loss, difference quotients. *)
From Coq Require Import List Arith ZArith QArith Reals.
From Coquelicot Require Import Coquelicot.
From Verif Require Import Base SpecOpt Real RSum Stopwatch.
Import ListNotations.

(** The last of the calls that change the watch decides whether it runs. *)
Fixpoint runs_after (cs : list (wop * Z)) (now : bool) : bool :=
  match cs with
  | [] => now
  | (WStart, _) :: cs' => runs_after cs' true
  | (WStop, _) :: cs' | (WReset, _) :: cs' => runs_after cs' false
  | (WElapsed, _) :: cs' => runs_after cs' now
  end.
(** the calls since the last reset *)
Fixpoint since_reset (cs : list (wop * Z)) : list (wop * Z) :=
  match cs with
  | [] => []
  | c :: cs' => if existsb (fun d => match fst d with WReset => true | _ => false end) cs' then since_reset cs' else
                match fst c with WReset => cs' | _ => c :: cs' end
  end.
(** the watch runs in the moment [u] (a unit interval [u, u+1] of the clock) *)
Definition runs_at (cs : list (wop * Z)) (u : Z) : bool :=
  runs_after (filter (fun c => (snd c <=? u)%Z) cs) false.
(** number of ticks u with t0 <= u < t1 in which the watch runs *)
Definition ticks_running (cs : list (wop * Z)) (t0 t1 : Z) : Z :=
  Z.of_nat (length (filter (fun i => runs_at cs (t0 + Z.of_nat i)) (seq 0 (Z.to_nat (t1 - t0))))).
(** the clock never goes back *)
Fixpoint nondecreasing (t : Z) (cs : list (wop * Z)) : Prop :=
  match cs with
  | [] => True
  | c :: cs' => (t <= snd c)%Z /\ nondecreasing (snd c) cs'
  end.

Local Open Scope R_scope.
(** Euclidean length of a residual *)
Definition rlength (r : list R) : R := sqrt (rsum (length r) (fun i => nth i r 0 * nth i r 0)).
(** kernels.hpp:30: the documented loss of a residual of length [n] *)
Definition documented_loss (delta n : R) : R := if Rle_dec n delta then n * n / 2 else delta * n - delta * delta / 2.
(** J d *)
Definition times (J : mat RN) (d : list R) (i : nat) : R := rsum (mcols J) (fun j => mat_at J i j * nth j d 0).
(** [rho] passes through [r] at time 0 with velocity J d: what the chain rule says about a residual whose Jacobian is [J] when the
    variable moves with velocity [d] *)
Definition residual_moves (rho : R -> list R) (r : list R) (J : mat RN) (d : list R) : Prop :=
  rho 0 = r /\ (forall s, length (rho s) = length r) /\ mrows J = length r /\
  forall i, (i < length r)%nat -> is_derive (fun s => nth i (rho s) 0) 0 (times J d i).

From Verif Require Import Sparse Graph.
Local Open Scope nat_scope.
(** ** Difference quotients of factors *)
Section Differences.
Context {N : num} {V : Type} (VC : vclass N V).
(** setting the value of [v] undoes any increment of [v] *)
Definition returns (v : V) : Prop := forall dx v', vinc VC v dx = Ok v' -> vset VC v' (vval VC v) = Ok v.
(** the vector with [eps] at position [k] and zeros elsewhere *)
Definition along (n k : nat) (eps : N) (dx : list N) : Prop :=
  length dx = n /\ forall i, i < n -> nth_error dx i = Some (if Nat.eqb i k then eps else nzero).
(** column [k] of [B] is the symmetric difference quotient of [f] along coordinate [k] of the variable [v] at [a] *)
Definition difference_column (f : factor (N:=N) (V:=V)) (h : @heap V) (a : addr) (v : V) (eps : N) (B : mat N) (k : nat) : Prop :=
  exists dx vp vm rp rm, along (vsize VC v) k eps dx /\ vinc VC v dx = Ok vp /\ vinc VC v (map nneg dx) = Ok vm /\
    f_res f (lupd a vp h) = Ok rp /\ f_res f (lupd a vm h) = Ok rm /\ length rp = f_rsize f /\ length rm = f_rsize f /\
    forall i, i < f_rsize f -> mat_at B i k = ndiv (nsub (nth i rp nzero) (nth i rm nzero)) (nmul (nlit 2%Q) eps).
(** one matrix per variable: empty for a constant one, else all symmetric difference quotients *)
Definition difference_quotients (f : factor (N:=N) (V:=V)) (h : @heap V) (eps : N) (Js : list (mat N)) : Prop :=
  length Js = length (f_vars f) /\ forall q p J, nth_error (f_vars f) q = Some p -> nth_error Js q = Some J ->
  exists a v, p = Some a /\ nth_error h a = Some v /\
    if vconst VC v then mrows J = 0 /\ mcols J = 0
    else mrows J = f_rsize f /\ mcols J = vsize VC v /\ forall k, k < vsize VC v -> difference_column f h a v eps J k.
(** every non-constant variable of [f] satisfies [P] *)
Definition each_variable (f : factor (N:=N) (V:=V)) (h : @heap V) (P : V -> Prop) : Prop :=
  forall a v, In (Some a) (f_vars f) -> nth_error h a = Some v -> vconst VC v = false -> P v.
End Differences.
(** entry by entry, the blocks of the non-constant variables in [Js] and [js] satisfy [P] *)
Definition entrywise {V} (VC : vclass RN V) (h : @heap V) (f : factor (N:=RN) (V:=V)) (P : R -> R -> Prop) (Js js : list (mat RN)) : Prop :=
  forall q a v A B, nth_error (f_vars f) q = Some (Some a) -> nth_error h a = Some v -> vconst VC v = false ->
  nth_error Js q = Some A -> nth_error js q = Some B -> forall i k, i < f_rsize f -> k < vsize VC v -> P (mat_at A i k) (mat_at B i k).
(** [m] is the largest absolute coefficient of [M] *)
Definition largest (M : mat RN) (m : R) : Prop :=
  (forall i j, i < mrows M -> j < mcols M -> (Rabs (mat_at M i j) <= m)%R) /\ exists i j, i < mrows M /\ j < mcols M /\ Rabs (mat_at M i j) = m.
(** what the comparison of the Jacobians of one factor demands *)
Definition jacobians_agree {V} (VC : vclass RN V) (h : @heap V) (f : factor (N:=RN) (V:=V)) (tol : R) (Ja Jn : list (mat RN)) : Prop :=
  length Ja = length Jn /\ forall q a v A B, nth_error (f_vars f) q = Some (Some a) -> nth_error h a = Some v -> nth_error Ja q = Some A -> nth_error Jn q = Some B ->
  if vconst VC v then (mrows A = 0 \/ mcols A = 0) /\ (mrows B = 0 \/ mcols B = 0)
  else mrows A = mrows B /\ mcols A = mcols B /\ exists m, largest B m /\
       forall i j, i < mrows B -> j < mcols B -> (Rabs (mat_at B i j - mat_at A i j) < Rmax (1 / 100) (tol * m))%R.

(** ** Variables as programs make them *)
From Verif Require Import Geom Vars VarOps.
(** every variable built by a constructor other than RotationVariable's and used through any calls *)
Definition made (v : lvar RN) : Prop := exists v0 l, vcalls v0 l = Ok v /\
  ((exists id x, mk_generic id x = Ok v0) \/ (exists id p, v0 = mk_landmark id p) \/ (exists id t r, v0 = mk_pose id t r) \/
   (exists id o b range, v0 = mk_inverse_range id o b range) \/ (exists id n d, v0 = mk_plane id n d) \/ (exists id p, v0 = mk_pose2 id p)).

(** ** Linear factors *)
From Verif Require Import FactorLib SpecFactor SpecShape.
(** a generic prior on a plain vector that is not constant, or a generic between on three different plain vectors *)
Definition linear_use (h : @heap (lvar RN)) (f : lib_factor RN) : Prop :=
  match f with
  | LGenericPrior _ a prior _ => exists x, sees_vector h a x /\ length x = length prior /\ ~ constant_generic_prior h f
  | LGenericBetween _ a b d n _ => exists xa xb xd, sees_vector h a xa /\ sees_vector h b xb /\ sees_vector h d xd /\ length xa = n /\ length xb = n /\ length xd = n /\ a <> b /\ b <> d /\ a <> d
  | _ => False
  end.
