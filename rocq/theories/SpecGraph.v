(** Specification vocabulary for graphs.  Nothing here calls the placement, assembly or storage functions of the model;
    only the object interfaces (factor, variable class, heap) are shared. *)
From Coq Require Import List Arith ZArith Bool Permutation.
From Verif Require Import Base Sparse Graph.
Import ListNotations.

Section SpecGraph.
Context {N : num} {V : Type} (VC : vclass N V).

(** Behaviour expected of every Variable class: changing the value keeps id, dimension and the constant flag;
    set_constant changes only the flag. *)
Record vclass_ok : Prop := VClassOk {
  ok_set : forall v x v', vset VC v x = Ok v' ->
             vid VC v' = vid VC v /\ vsize VC v' = vsize VC v /\ vconst VC v' = vconst VC v;
  ok_inc : forall v x v', vinc VC v x = Ok v' ->
             vid VC v' = vid VC v /\ vsize VC v' = vsize VC v /\ vconst VC v' = vconst VC v;
  ok_const : forall b v, vid VC (vsetconst VC b v) = vid VC v /\ vsize VC (vsetconst VC b v) = vsize VC v /\
                         vval VC (vsetconst VC b v) = vval VC v /\ vconst VC (vsetconst VC b v) = b
}.

(** id of the object at an address *)
Definition idz (h : heap) (a : addr) : Z := match nth_error h a with Some v => vid VC v | None => 0%Z end.

(** number of columns a variable occupies *)
Definition width (h : heap) (a : addr) : nat :=
  match nth_error h a with Some v => if vconst VC v then 0 else vsize VC v | None => 0 end.
(** first column of the k-th variable, first row of the k-th factor *)
Definition col_start (h : heap) (vs : list addr) (k : nat) : nat := list_sum (firstn k (map (width h) vs)).
Definition row_start (fs : list (factor (N:=N) (V:=V))) (k : nat) : nat := list_sum (firstn k (map f_rsize fs)).
Definition total_cols (h : heap) (vs : list addr) : nat := list_sum (map (width h) vs).
Definition total_rows (fs : list (factor (N:=N) (V:=V))) : nat := list_sum (map f_rsize fs).

(** environment behaves: iteration visits every map entry once, fresh vectors have the requested length *)
Definition env_ok (E : env (N:=N) (V:=V)) : Prop :=
  (forall l, Permutation (e_order E l) l) /\ (forall n, length (e_junk E n) = n).

(** calls that change neither the set of variables/factors, nor constant flags, nor the layout *)
Definition value_op (o : op (N:=N) (V:=V)) : Prop :=
  match o with OAddVar _ | OAddFactor _ | OFinalize | OSetConst _ _ => False | _ => True end.

(** the graph [g] was finalized successfully at the end of history [l1] and has since only seen value operations *)
Definition finalized_history (l1 l2 : list (env (N:=N) (V:=V) * op)) (h1 h : heap) (g1 g : graph) : Prop :=
  exists g0 : graph,
    run VC ([], empty_graph) l1 = (h1, g0) /\
    finalize_structure VC h1 g0 = (g1, Ok tt) /\
    Forall (fun eo => env_ok (fst eo) /\ value_op (snd eo)) l2 /\
    run VC (h1, g1) l2 = (h, g).

(** no finalize_structure call of the history succeeded *)
Fixpoint unfinalized (s : heap * graph (N:=N) (V:=V)) (l : list (env (N:=N) (V:=V) * op)) : Prop :=
  match l with
  | [] => True
  | (E, o) :: t => (o = OFinalize -> snd (step VC E s o) <> AUnit (Ok tt)) /\ unfinalized (fst (step VC E s o)) t
  end.

(** equal as matrices *)
Definition mat_eq (A B : mat N) : Prop :=
  mrows A = mrows B /\ mcols A = mcols B /\ forall i j, i < mrows A -> j < mcols A -> mat_at A i j = mat_at B i j.

(** contents the in/out argument of compute_jacobians of a factor can have when the vector starts empty and is only
    passed to this factor *)
Inductive buf_reach (f : factor (N:=N) (V:=V)) : list (mat N) -> Prop :=
| br_nil : buf_reach f []
| br_step h b : buf_reach f b -> buf_reach f (fst (f_jac f h b)).

(** compute_jacobians does not depend on what an earlier call left in the vector *)
Definition buf_indep (f : factor (N:=N) (V:=V)) : Prop :=
  forall h b, buf_reach f b ->
    snd (f_jac f h b) = snd (f_jac f h []) /\
    (snd (f_jac f h []) = Ok tt -> Forall2 mat_eq (fst (f_jac f h b)) (fst (f_jac f h []))).

(** first position at which a factor lists the variable at address [a] *)
Fixpoint listed_at (a : addr) (l : list (option addr)) : option nat :=
  match l with
  | [] => None
  | Some b :: t => if Nat.eqb a b then Some 0 else option_map S (listed_at a t)
  | None :: t => option_map S (listed_at a t)
  end.

(** shape contract of compute_jacobians output [js] for the variables [vars] of a factor with [rs] residuals *)
Definition blocks_ok (h : heap) (rs : nat) (vars : list (option addr)) (js : list (mat N)) : Prop :=
  length vars <= length js /\
  forall q a v J, nth_error vars q = Some (Some a) -> nth_error h a = Some v -> nth_error js q = Some J ->
    if vconst VC v then mrows J = 0 \/ mcols J = 0 else mrows J = rs /\ mcols J = vsize VC v.

(** [J] is the Jacobian assembled from the blocks [jss] (one list of blocks per factor) *)
Definition assembled (h : heap) (vs : list addr) (fs : list (factor (N:=N) (V:=V))) (jss : list (list (mat N)))
  (J : mat N) : Prop :=
  mrows J = total_rows fs /\ mcols J = total_cols h vs /\
  forall k f js m a r c,
    nth_error fs k = Some f -> nth_error jss k = Some js -> nth_error vs m = Some a ->
    r < f_rsize f -> c < width h a ->
    mat_at J (row_start fs k + r) (col_start h vs m + c) =
      match listed_at a (f_vars f) with
      | Some q => match nth_error js q with Some B => mat_at B r c | None => nzero end
      | None => nzero
      end.

(** a factor is well formed with respect to the graph: it lists live objects, its non-constant variables are variables of the
    graph, none of them twice, dimensions are positive, and no listed object shares its id with a different graph variable *)
Definition factor_wf (h : heap) (vs : list addr) (f : factor (N:=N) (V:=V)) : Prop :=
  0 < f_rsize f /\
  (forall p, In p (f_vars f) -> exists a v, p = Some a /\ nth_error h a = Some v /\
     (vconst VC v = false -> In a vs /\ 0 < vsize VC v) /\
     (forall b, In b vs -> idz h b = idz h a -> b = a)) /\
  NoDup (filter (fun p => match p with Some a => negb (width h a =? 0) | None => false end) (f_vars f)).

End SpecGraph.

Section SpecHistory.
Context {N : num} {V : Type} (VC : vclass N V).

(** variables and factors accepted by a history, in order: the arguments of the add calls that returned normally *)
Fixpoint accepted_vars (s : heap * graph (N:=N) (V:=V)) (l : list (env * op)) : list addr :=
  match l with
  | [] => []
  | (E, o) :: t =>
    let '(s', ans) := step VC E s o in
    match o, ans with
    | OAddVar (Some a), AUnit (Ok _) => a :: accepted_vars s' t
    | _, _ => accepted_vars s' t
    end
  end.
Fixpoint accepted_factors (s : heap * graph (N:=N) (V:=V)) (l : list (env * op)) : list factor :=
  match l with
  | [] => []
  | (E, o) :: t =>
    let '(s', ans) := step VC E s o in
    match o, ans with
    | OAddFactor (Some f), AUnit (Ok _) => f :: accepted_factors s' t
    | _, _ => accepted_factors s' t
    end
  end.

(** calls that hand out results or use the layout; the cached accessors are separate functions *)
Definition compute_op (o : op (N:=N) (V:=V)) : Prop :=
  match o with OResidual | OResidualInto _ | ODense | OBoth | OSparse | OApplyInc _ => True | _ => False end.
(** the call threw an exception *)
Definition threw (a : answer (N:=N)) : Prop :=
  match a with
  | AUnit (Throw _) | AVec (Throw _) | AMat (Throw _) | ASp (Throw _) => True
  | _ => False
  end.
(** the call ran into undefined behaviour *)
Definition undefined (a : answer (N:=N)) : Prop :=
  match a with
  | AUnit (UB _) | AVec (UB _) | AMat (UB _) | ASp (UB _) => True
  | _ => False
  end.
(** calls on the graph object (as opposed to calls on a variable object) *)
Definition graph_op (o : op (N:=N) (V:=V)) : Prop :=
  match o with ONew _ | OSetConst _ _ | OSetVal _ _ | OIncVal _ _ => False | _ => True end.

(** malformed graphs *)
Definition lists_null (f : factor (N:=N) (V:=V)) : Prop := In None (f_vars f).
Definition lists_unregistered (h : heap) (vs : list addr) (f : factor (N:=N) (V:=V)) : Prop :=
  exists a v, In (Some a) (f_vars f) /\ nth_error h a = Some v /\ vconst VC v = false /\
              ~ In (vid VC v) (map (idz VC h) vs).
Definition pointers_live (h : @heap V) (f : factor (N:=N) (V:=V)) : Prop :=
  forall a, In (Some a) (f_vars f) -> exists v, nth_error h a = Some v.

(** the factor's own functions, at heap [h], run without undefined behaviour and keep the size contract *)
Definition factor_safe (h : @heap V) (f : factor (N:=N) (V:=V)) : Prop :=
  (forall u, f_res_ref f h <> UB u) /\ (forall r, f_res_ref f h = Ok r -> length r = f_rsize f) /\
  (forall b, buf_reach f b -> (forall u, snd (f_jac f h b) <> UB u) /\
     (snd (f_jac f h b) = Ok tt -> blocks_ok VC h (f_rsize f) (f_vars f) (fst (f_jac f h b)))).
(** the optimised variables a factor lists are themselves variables of the graph (not other objects with the same id) *)
Definition lists_members (h : @heap V) (vs : list addr) (f : factor (N:=N) (V:=V)) : Prop :=
  forall a v, In (Some a) (f_vars f) -> nth_error h a = Some v -> vconst VC v = false -> In a vs.
(** some factor lists an optimised variable *)
Definition some_active (h : @heap V) (fs : list (factor (N:=N) (V:=V))) : Prop :=
  exists f a v, In f fs /\ In (Some a) (f_vars f) /\ nth_error h a = Some v /\ vconst VC v = false.

(** non-constant variables of a list, in order *)
Definition nonconst (h : heap) (vs : list addr) : list V :=
  flat_map (fun a => match nth_error h a with Some v => if vconst VC v then [] else [v] | None => [] end) vs.
End SpecHistory.

Section SpecVectors.
Context {N : num} {V : Type} (VC : vclass N V).
(** [n] consecutive entries of [x] from [off] on *)
Definition slice (off n : nat) (x : list N) : list N := firstn n (skipn off x).
(** value() has size() entries *)
Definition sized (v : V) : Prop := length (vval VC v) = vsize VC v.
(** set_value_from_vector(value()) restores the object exactly *)
Definition restores (v : V) : Prop := vset VC v (vval VC v) = Ok v.
(** the class stores vectors verbatim *)
Definition verbatim (v : V) : Prop :=
  forall x, length x = vsize VC v -> exists v', vset VC v x = Ok v' /\ vval VC v' = x.
(** every non-constant variable of the list has property [P] *)
Definition each_nonconst (h : heap) (vs : list addr) (P : V -> Prop) : Prop :=
  forall a v, In a vs -> nth_error h a = Some v -> vconst VC v = false -> P v.
(** every object flagged constant in [h] has the same state in [h'] *)
Definition const_kept (h h' : heap) : Prop :=
  forall a v, nth_error h a = Some v -> vconst VC v = true -> nth_error h' a = Some v.
(** [h'] is [h] with [upd] applied to each non-constant variable of [vs], given its position in [vs]; all other objects
    are the same *)
Definition updated (h h' : heap) (vs : list addr) (upd : nat -> V -> outcome V) : Prop :=
  length h' = length h /\
  (forall k a v, nth_error vs k = Some a -> nth_error h a = Some v -> vconst VC v = false ->
     exists v', upd k v = Ok v' /\ nth_error h' a = Some v') /\
  (forall a v, nth_error h a = Some v -> ~ In a vs \/ vconst VC v = true -> nth_error h' a = Some v).
End SpecVectors.
