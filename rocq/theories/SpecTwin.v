(** Specification: two sessions that differ in the states of their variables and in the measurements that refer to them, but whose factors
    report the same residuals and Jacobians. *)
From Coq Require Import List Arith ZArith Bool.
From Verif Require Import Base Sparse Graph Optimizer.
Import ListNotations.

(** both succeed, with related results, or both fail in the same way *)
Definition alike {A} (P : A -> A -> Prop) (x y : outcome A) : Prop :=
  match x, y with
  | Ok a, Ok b => P a b
  | Throw e, Throw e' => e = e'
  | UB u, UB u' => u = u'
  | _, _ => False
  end.

Section Twin.
Context {N : num} {V : Type} (VC : vclass N V).
Notation factor := (factor (N:=N) (V:=V)).
Notation graph := (graph (N:=N) (V:=V)).
Notation env := (env (N:=N) (V:=V)).
(** [RV a v v']: states of the object at address [a] in the two sessions; [XR a x x']: vectors that can be passed to its
    set_value_from_vector *)
Context (RV : addr -> V -> V -> Prop) (XR : addr -> list N -> list N -> Prop).

(** what is asked of the relations: same identity, size and flag; the same increment, and corresponding values, lead to related states *)
Record twinned : Prop := Twinned {
  tw_same : forall a v v', RV a v v' -> vid VC v = vid VC v' /\ vsize VC v = vsize VC v' /\ vconst VC v = vconst VC v';
  tw_value : forall a v v', RV a v v' -> XR a (vval VC v) (vval VC v');
  tw_length : forall a x x', XR a x x' -> length x = length x';
  tw_inc : forall a v v' d, RV a v v' -> alike (RV a) (vinc VC v d) (vinc VC v' d);
  tw_set : forall a v v' x x', RV a v v' -> XR a x x' -> alike (RV a) (vset VC v x) (vset VC v' x');
  tw_const : forall a v v' b, RV a v v' -> RV a (vsetconst VC b v) (vsetconst VC b v')
}.
Definition heaps (h h' : @heap V) : Prop :=
  forall a, match nth_error h a, nth_error h' a with Some v, Some v' => RV a v v' | None, None => True | _, _ => False end.
(** two factors over the same variables that report the same in related memories *)
Definition reads_alike (f f' : factor) : Prop :=
  f_id f = f_id f' /\ f_vars f = f_vars f' /\ f_rsize f = f_rsize f' /\
  forall h h', heaps h h' -> f_res f h = f_res f' h' /\ f_res_ref f h = f_res_ref f' h' /\ forall J0, f_jac f h J0 = f_jac f' h' J0.
Definition placements (x x' : nat * fplacement (N:=N) (V:=V)) : Prop :=
  fst x = fst x' /\ fp_rindex (snd x) = fp_rindex (snd x') /\ fp_rdim (snd x) = fp_rdim (snd x') /\ fp_cols (snd x) = fp_cols (snd x') /\
  fp_dims (snd x) = fp_dims (snd x') /\
  match fp_factor (snd x), fp_factor (snd x') with Some f, Some f' => reads_alike f f' | None, None => True | _, _ => False end.
(** the two processes iterate over a hash map with the same keys in the same order *)
Definition same_env (E E' : env) : Prop :=
  (forall l l', Forall2 placements l l' -> Forall2 placements (e_order E l) (e_order E' l')) /\ forall n, e_junk E n = e_junk E' n.
(** graphs over related factors; everything computed and cached is the same *)
Definition graphs (g g' : graph) : Prop :=
  rg_vmap (g_reg g) = rg_vmap (g_reg g') /\ rg_vars (g_reg g) = rg_vars (g_reg g') /\
  Forall2 (fun x x' => fst x = fst x' /\ reads_alike (snd x) (snd x')) (rg_fmap (g_reg g)) (rg_fmap (g_reg g')) /\
  Forall2 reads_alike (rg_factors (g_reg g)) (rg_factors (g_reg g')) /\
  ly_final (g_lay g) = ly_final (g_lay g') /\ ly_vplace (g_lay g) = ly_vplace (g_lay g') /\
  Forall2 placements (ly_fplace (g_lay g)) (ly_fplace (g_lay g')) /\ ly_nres (g_lay g) = ly_nres (g_lay g') /\ ly_nval (g_lay g) = ly_nval (g_lay g') /\
  g_dc g = g_dc g' /\ g_sc g = g_sc g'.

Context {S : Type}.
Notation pstate := (pstate (N:=N) (V:=V) (S:=S)).
(** the states of the two sessions: related variables and factors; statistics, status, residuals, Hessian, solver and all else the same *)
Record states (p p' : pstate) : Prop := States {
  sg_heap : heaps (p_heap p) (p_heap p');
  sg_graph : graphs (p_graph p) (p_graph p');
  sg_set : p_set p = p_set p'; sg_has : p_hasgraph p = p_hasgraph p'; sg_init : p_init p = p_init p'; sg_cur : p_cur p = p_cur p';
  sg_complete : p_complete p = p_complete p'; sg_hvalid : p_hvalid p = p_hvalid p'; sg_hess : p_hess p = p_hess p';
  sg_r1 : p_r1 p = p_r1 p'; sg_r2 : p_r2 p = p_r2 p'; sg_solver : p_solver p = p_solver p'; sg_tick : p_tick p = p_tick p';
  sg_nfact : p_nfact p = p_nfact p'; sg_caught : p_caught p = p_caught p'; sg_nbad : p_nbad p = p_nbad p'
}.

(** the calls of the two programs; [n] is the number of variable objects so far.  set_variable_values_from_vector is left out *)
Definition op_pair (n : nat) (o o' : op (N:=N) (V:=V)) : Prop :=
  match o, o' with
  | ONew v, ONew v' => RV n v v'
  | OAddFactor (Some f), OAddFactor (Some f') => reads_alike f f'
  | OSetVal a x, OSetVal a' x' => a = a' /\ XR a x x'
  | OSetVec _, _ | ONew _, _ | OAddFactor (Some _), _ | OSetVal _ _, _ => False
  | _, _ => o = o'
  end.
Definition oop_pair (n : nat) (o o' : oop (N:=N) (V:=V)) : Prop :=
  match o, o' with OOp x, OOp x' => op_pair n x x' | OOp _, _ | _, OOp _ => False | _, _ => o = o' end.
Definition makes (o : oop (N:=N) (V:=V)) : nat := match o with OOp (ONew _) => 1 | _ => 0 end.
Fixpoint sessions (n : nat) (l l' : list (oop (N:=N) (V:=V))) : Prop :=
  match l, l' with
  | [], [] => True
  | o :: t, o' :: t' => oop_pair n o o' /\ sessions (makes o + n) t t'
  | _, _ => False
  end.
(** the same answer, except that vectors of variable values need only have the same length *)
Definition same_answer (o : op (N:=N) (V:=V)) (x x' : answer (N:=N)) : Prop :=
  match o with
  | OGetVec => match x, x' with AVec r, AVec r' => alike (fun y y' => length y = length y') r r' | _, _ => False end
  | _ => x = x'
  end.
End Twin.
