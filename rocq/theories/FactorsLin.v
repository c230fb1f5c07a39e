(** Factors without geometry: /repo/src/factorama/generic_prior_factor.hpp, generic_between_factor.hpp/.cpp.
    Constructor asserts are compiled out; a violated one shows up where the sizes are used. *)
From Coq Require Import List Arith ZArith QArith Bool.
From Verif Require Import Base Sparse Graph Geom Vars.
Import ListNotations.
Local Open Scope num_scope.

Section FactorsLin.
Context {N : num} {V : Type} (VC : vclass N V).
Notation factor := (factor (N:=N) (V:=V)).

(** a - b on dynamic vectors: different sizes violate an eigen_assert *)
Definition vec_minus (a b : list N) : outcome (list N) := if (length a =? length b)%nat then Ok (vsub a b) else UB UBSize.
(** J.setZero(); J.diagonal().array() = w *)
Definition diagm (n : nat) (w : N) : mat N := Mat n n (fun i j => if (i =? j)%nat then w else nzero).
(** Jacobian block of a variable: empty if the variable is constant *)
Definition block_for (h : @heap V) (a : addr) (J : mat N) : outcome (mat N) :=
  let* v := hget h a in Ok (if vconst VC v then mempty else J).
(** a compute_jacobians that sets every element of the vector, or fails *)
Definition all_blocks (o : outcome (list (mat N))) : list (mat N) * outcome unit :=
  match o with Ok js => (js, Ok tt) | Throw e => ([], Throw e) | UB u => ([], UB u) end.

(** generic_prior_factor.hpp:44-48 *)
Definition gprior_res (a : addr) (prior : list N) (w : N) (h : @heap V) : outcome (list N) :=
  let* v := hget h a in let* res := vec_minus (vval VC v) prior in Ok (vscale w res).
(** generic_prior_factor.hpp:50-53 *)
Definition gprior_ref (a : addr) (prior : list N) (w : N) (h : @heap V) : outcome (list N) :=
  let* v := hget h a in let* d := vec_minus (vval VC v) prior in Ok (vscale w d).
(** generic_prior_factor.hpp:55-74; for a constant variable the vector ends up with two empty elements *)
Definition gprior_jac (a : addr) (n : nat) (w : N) (h : @heap V) : list (mat N) * outcome unit :=
  all_blocks (let* v := hget h a in Ok (if vconst VC v then [mempty; mempty] else [diagm n w])).
(** generic_prior_factor.hpp:30-42, 76 *)
Definition generic_prior (id : Z) (a : addr) (prior : list N) (sigma : N) : factor :=
  let w := nunit / sigma in
  Factor id [Some a] (length prior) (gprior_res a prior w) (gprior_ref a prior w) (fun h _ => gprior_jac a (length prior) w h).

(** generic_between_factor.cpp:27-32 *)
Definition gbetween_res (a b d : addr) (w : N) (h : @heap V) : outcome (list N) :=
  let* va := hget h a in let* vb := hget h b in let* vd := hget h d in
  let* diff := vec_minus (vval VC vb) (vval VC va) in
  let* res := vec_minus diff (vval VC vd) in Ok (vscale w res).
(** generic_between_factor.cpp:34-38 *)
Definition gbetween_ref (a b d : addr) (w : N) (h : @heap V) : outcome (list N) :=
  let* va := hget h a in let* vb := hget h b in let* vd := hget h d in
  let* diff := vec_minus (vval VC vb) (vval VC va) in
  let* r := vec_minus diff (vval VC vd) in Ok (vscale w r).
(** generic_between_factor.cpp:40-79 *)
Definition gbetween_jac (a b d : addr) (n : nat) (w : N) (h : @heap V) : list (mat N) * outcome unit :=
  all_blocks (let* ja := block_for h a (diagm n (- w)) in let* jb := block_for h b (diagm n w) in
              let* jd := block_for h d (diagm n (- w)) in Ok [ja; jb; jd]).
(** generic_between_factor.cpp:7-25, 81-84; [n] is the size of measured_diff when the factor is constructed *)
Definition generic_between (id : Z) (a b d : addr) (n : nat) (sigma : N) : factor :=
  let w := nunit / sigma in
  Factor id [Some a; Some b; Some d] n (gbetween_res a b d w) (gbetween_ref a b d w) (fun h _ => gbetween_jac a b d n w h).
End FactorsLin.
