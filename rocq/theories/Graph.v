(** FactorGraph: /repo/src/factorama/factor_graph.hpp and factor_graph.cpp.
    One definition per C++ function.  Simplifications common to all of them: [int] is unbounded; printing to
    std::cout/std::cerr is dropped; smart pointers are heap addresses that stay valid while stored. *)
From Coq Require Import List Arith ZArith Bool.
From Verif Require Import Base Sparse.
Import ListNotations.

(** Pointers to Variable objects. *)
Definition addr := nat.

(** The virtual interface of a Variable (base_types.hpp:129-182), over a type [V] of object states.
    [vset] and [vinc] are set_value_from_vector and apply_increment; when they throw the object is unchanged
    (all library classes check before writing). *)
Record vclass (N : num) (V : Type) : Type := VClass {
  vid : V -> Z;
  vsize : V -> nat;
  vval : V -> list N;
  vconst : V -> bool;
  vsetconst : bool -> V -> V;
  vset : V -> list N -> outcome V;
  vinc : V -> list N -> outcome V
}.
Arguments vid {N V} _ _.
Arguments vsize {N V} _ _.
Arguments vval {N V} _ _.
Arguments vconst {N V} _ _.
Arguments vsetconst {N V} _ _ _.
Arguments vset {N V} _ _ _.
Arguments vinc {N V} _ _ _.

Section Graph.
Context {N : num} {V : Type} (VC : vclass N V).

Definition heap := list V.

(** dereference a Variable pointer *)
Definition hget (h : heap) (a : addr) : outcome V :=
  match nth_error h a with Some v => Ok v | None => UB UBDangling end.

(** The virtual interface of a Factor (base_types.hpp:190-232).  [f_jac h J] is compute_jacobians(J): it gets
    the previous contents of the in/out vector and returns the new contents together with the outcome (the contents also
    matter after an exception, because FactorGraph keeps the vector between calls). *)
Record factor : Type := Factor {
  f_id : Z;
  f_vars : list (option addr);                                    (* variables(); None is nullptr *)
  f_rsize : nat;                                                  (* residual_size() *)
  f_res : heap -> outcome (list N);                               (* VectorXd compute_residual() const *)
  f_res_ref : heap -> outcome (list N);                           (* void compute_residual(Ref) const *)
  f_jac : heap -> list (mat N) -> list (mat N) * outcome unit     (* compute_jacobians *)
}.

(** factor_graph.hpp:14-19 *)
Record vplacement : Type := VPlacement { vp_var : addr; vp_index : nat; vp_dim : nat }.
(** factor_graph.hpp:24-32; [None] is a null factor pointer *)
Record fplacement : Type := FPlacement {
  fp_factor : option factor; fp_rindex : nat; fp_rdim : nat; fp_cols : list nat; fp_dims : list nat }.

(** factor_graph.hpp:220-223 *)
Record registry : Type := Registry {
  rg_vmap : list (Z * addr);        (* variables_map_ *)
  rg_vars : list addr;              (* variables_vector_ *)
  rg_fmap : list (Z * factor);      (* factors_map_ *)
  rg_factors : list factor          (* factors_ *)
}.
(** factor_graph.hpp:226-231 *)
Record layout : Type := Layout {
  ly_final : bool;                          (* structure_finalized_ *)
  ly_vplace : list (Z * vplacement);        (* variable_placement_ *)
  ly_fplace : list (nat * fplacement);      (* factor_placement_ *)
  ly_nres : nat;                            (* num_residuals_ *)
  ly_nval : nat                             (* num_values_ *)
}.
(** factor_graph.hpp:234-238 *)
Record dcache : Type := DCache {
  dc_jac : mat N; dc_jac_valid : bool;      (* cached_jacobian_, jacobian_valid_ *)
  dc_res : list N; dc_res_valid : bool      (* cached_residual_, residual_valid_ *)
}.
(** factor_graph.hpp:241-249 *)
Record scache : Type := SCache {
  sc_mat : spmat N;                         (* sparse_jacobian_ *)
  sc_comps : list (list (mat N));           (* sparse_jacobian_components_ *)
  sc_init : bool;                           (* sparse_jacobian_initialized_ *)
  sc_valid : bool;                          (* sparse_jacobian_valid_ *)
  sc_rowidx : list (list nat);              (* sparse_jacobian_row_indices_ *)
  sc_data : list (list N)                   (* sparse_jacobian_data_ *)
}.
Record graph : Type := Graph { g_reg : registry; g_lay : layout; g_dc : dcache; g_sc : scache }.

(** FactorGraph() = default (factor_graph.hpp:51) *)
Definition empty_graph : graph :=
  Graph (Registry [] [] [] []) (Layout false [] [] 0 0)
        (DCache mempty false [] false) (SCache sp_empty [] false false [] []).

Definition with_lay (g : graph) (l : layout) : graph := Graph (g_reg g) l (g_dc g) (g_sc g).
Definition with_dc (g : graph) (d : dcache) : graph := Graph (g_reg g) (g_lay g) d (g_sc g).
Definition with_sc (g : graph) (s : scache) : graph := Graph (g_reg g) (g_lay g) (g_dc g) s.

(** factor_graph.cpp:8-16 add_variable.  A null shared_ptr is dereferenced ([variable->id()]). *)
Definition add_variable (h : heap) (g : graph) (p : option addr) : graph * outcome unit :=
  match p with
  | None => (g, UB UBNull)
  | Some a =>
    match hget h a with
    | Ok v =>
      let r := g_reg g in
      match alookup Z.eqb (vid VC v) (rg_vmap r) with
      | Some _ => (g, Throw EDupVariable)
      | None => (Graph (Registry (aset Z.eqb (vid VC v) a (rg_vmap r)) (rg_vars r ++ [a]) (rg_fmap r) (rg_factors r))
                       (g_lay g) (g_dc g) (g_sc g), Ok tt)
      end
    | Throw e => (g, Throw e)
    | UB u => (g, UB u)
    end
  end.

(** factor_graph.cpp:18-26 add_factor *)
Definition add_factor (g : graph) (p : option factor) : graph * outcome unit :=
  match p with
  | None => (g, UB UBNull)
  | Some f =>
    let r := g_reg g in
    match alookup Z.eqb (f_id f) (rg_fmap r) with
    | Some _ => (g, Throw EDupFactor)
    | None => (Graph (Registry (rg_vmap r) (rg_vars r) (aset Z.eqb (f_id f) f (rg_fmap r)) (rg_factors r ++ [f]))
                     (g_lay g) (g_dc g) (g_sc g), Ok tt)
    end
  end.

(** factor_graph.cpp:28-32 get_variable: None is nullptr *)
Definition get_variable (g : graph) (id : Z) : option addr := alookup Z.eqb id (rg_vmap (g_reg g)).
(** factor_graph.cpp:34-42 *)
Definition get_all_variables (g : graph) : list addr := rg_vars (g_reg g).
Definition get_all_factors (g : graph) : list factor := rg_factors (g_reg g).
(** factor_graph.hpp:179-181 *)
Definition num_variables (g : graph) : nat := length (rg_vars (g_reg g)).
Definition num_values (g : graph) : nat := ly_nval (g_lay g).
Definition num_residuals (g : graph) : nat := ly_nres (g_lay g).

(** factor_graph.hpp:185-194: None is valid_out = false *)
Definition variable_placement (g : graph) (id : Z) : option vplacement := alookup Z.eqb id (ly_vplace (g_lay g)).
(** factor_graph.hpp:196-205: the map is searched with [id] as key although finalize_structure stores insertion
    indices as keys (factor_graph.cpp:286). Negative ids are never keys. *)
Definition factor_placement (g : graph) (id : Z) : option fplacement :=
  if (id <? 0)%Z then None else alookup Nat.eqb (Z.to_nat id) (ly_fplace (g_lay g)).

(** factor_graph.cpp:44-70 get_variable_vector.  Cells of [x] that are not assigned are indeterminate
    ([None]); returning such a vector is recorded as UB. *)
Fixpoint get_vector_loop (h : heap) (g : graph) (vs : list addr) (off : nat) (x : list (option N))
  : outcome (list (option N)) :=
  match vs with
  | [] => Ok x
  | a :: t =>
    let* v := hget h a in
    if vconst VC v then get_vector_loop h g t off x
    else
      match variable_placement g (vid VC v) with
      | None => Throw ENoPlacement
      | Some p =>
        if negb (vp_dim p =? vsize VC v) then Throw EVarSizeMismatch
        else if negb (off + vsize VC v <=? length x) then UB UBSegment
        else if negb (length (vval VC v) =? vsize VC v) then UB UBSize
        else get_vector_loop h g t (off + vsize VC v)
               (firstn off x ++ map Some (vval VC v) ++ skipn (off + vsize VC v) x)
      end
  end.
Fixpoint all_some {A} (l : list (option A)) : outcome (list A) :=
  match l with
  | [] => Ok []
  | Some a :: t => let* r := all_some t in Ok (a :: r)
  | None :: _ => UB UBUninit
  end.
Definition get_variable_vector (h : heap) (g : graph) : outcome (list N) :=
  let* x := get_vector_loop h g (get_all_variables g) 0 (repeat None (num_values g)) in all_some x.

(** update one object of the heap by a method call *)
Definition hupd (h : heap) (a : addr) (f : V -> outcome V) : heap * outcome unit :=
  match hget h a with
  | Ok v => match f v with
            | Ok v' => (lupd a v' h, Ok tt)
            | Throw e => (h, Throw e)
            | UB u => (h, UB u)
            end
  | Throw e => (h, Throw e)
  | UB u => (h, UB u)
  end.

(** factor_graph.cpp:72-81 set_variable_values_from_vector *)
Fixpoint set_vector_loop (h : heap) (vs : list addr) (off : nat) (x : list N) : heap * outcome unit :=
  match vs with
  | [] => (h, Ok tt)
  | a :: t =>
    match hget h a with
    | Ok v =>
      if vconst VC v then set_vector_loop h t off x
      else match segment off (vsize VC v) x with
           | Ok s => match hupd h a (fun v => vset VC v s) with
                     | (h', Ok _) => set_vector_loop h' t (off + vsize VC v) x
                     | (h', r) => (h', r)
                     end
           | Throw e => (h, Throw e)
           | UB u => (h, UB u)
           end
    | Throw e => (h, Throw e)
    | UB u => (h, UB u)
    end
  end.
Definition set_variable_values_from_vector (h : heap) (g : graph) (x : list N) : heap * outcome unit :=
  set_vector_loop h (get_all_variables g) 0 x.

(** factor_graph.cpp:95-114, the loop of apply_increment; [check] selects the bounds check of lines 107-110, which the
    copies of the loop in sparse_optimizer.cpp:91-105 and 409-423 do not have *)
Fixpoint inc_loop (check : bool) (h : heap) (g : graph) (vs : list addr) (dx : list N) : heap * outcome unit :=
  match vs with
  | [] => (h, Ok tt)
  | a :: t =>
    match hget h a with
    | Ok v =>
      if vconst VC v then inc_loop check h g t dx
      else match variable_placement g (vid VC v) with
           | None => inc_loop check h g t dx
           | Some p =>
             if check && negb (vp_index p + vp_dim p <=? length dx) then (h, Throw EIncBounds)
             else match segment (vp_index p) (vp_dim p) dx with
                  | Ok s => match hupd h a (fun v => vinc VC v s) with
                            | (h', Ok _) => inc_loop check h' g t dx
                            | (h', r) => (h', r)
                            end
                  | Throw e => (h, Throw e)
                  | UB u => (h, UB u)
                  end
           end
    | Throw e => (h, Throw e)
    | UB u => (h, UB u)
    end
  end.
(** factor_graph.cpp:83-115 apply_increment *)
Definition apply_increment (h : heap) (g : graph) (dx : list N) : heap * outcome unit :=
  if negb (ly_final (g_lay g)) then (h, Throw ENotFinalized)
  else if negb (length dx =? num_values g) then (h, Throw EIncSize)
  else inc_loop true h g (get_all_variables g) dx.

(** Behaviour of the implementation that the C++ standard leaves open: the iteration order of
    factor_placement_ (an unordered_map) and the contents of freshly resized vectors. *)
Record env : Type := Env {
  e_order : list (nat * fplacement) -> list (nat * fplacement);
  e_junk : nat -> list N
}.

(** factor_graph.cpp:144-150, loop of compute_full_residual_vector(result); returns the buffer also on failure *)
Fixpoint residual_loop (h : heap) (fps : list (nat * fplacement)) (buf : list N) : list N * outcome unit :=
  match fps with
  | [] => (buf, Ok tt)
  | (_, fp) :: t =>
    match fp_factor fp with
    | None => (buf, UB UBNull)
    | Some f =>
      match f_res_ref f h with
      | Ok r => match write_segment (fp_rindex fp) (fp_rdim fp) r buf with
                | Ok buf' => residual_loop h t buf'
                | Throw e => (buf, Throw e)
                | UB u => (buf, UB u)
                end
      | Throw e => (buf, Throw e)
      | UB u => (buf, UB u)
      end
    end
  end.
(** factor_graph.cpp:134-151 compute_full_residual_vector(VectorXd& result) *)
Definition compute_residual_into (E : env) (h : heap) (g : graph) (buf : list N) : list N * outcome unit :=
  if negb (ly_final (g_lay g)) then (buf, Throw ENotFinalized)
  else
    let buf1 := if length buf =? ly_nres (g_lay g) then buf else e_junk E (ly_nres (g_lay g)) in
    residual_loop h (e_order E (ly_fplace (g_lay g))) buf1.
(** factor_graph.cpp:117-132 compute_full_residual_vector() *)
Definition compute_residual (E : env) (h : heap) (g : graph) : graph * outcome (list N) :=
  if negb (ly_final (g_lay g)) then (g, Throw ENotFinalized)
  else
    let d := g_dc g in
    let buf0 := if dc_res_valid d then dc_res d else vzeros (ly_nres (g_lay g)) in
    match compute_residual_into E h g buf0 with
    | (buf, Ok _) => (with_dc g (DCache (dc_jac d) (dc_jac_valid d) buf true), Ok buf)
    | (buf, Throw e) => (with_dc g (DCache (dc_jac d) (dc_jac_valid d) buf (dc_res_valid d)), Throw e)
    | (buf, UB u) => (with_dc g (DCache (dc_jac d) (dc_jac_valid d) buf (dc_res_valid d)), UB u)
    end.

(** factor_graph.cpp:172-215, loop over the variables of one factor in compute_full_jacobian_matrix *)
Fixpoint dense_vars_loop (h : heap) (g : graph) (row rdim : nat) (vars : list (option addr)) (js : list (mat N))
  (J : mat N) : mat N * outcome unit :=
  match vars with
  | [] => (J, Ok tt)
  | pv :: vt =>
    match js with
    | [] => (J, UB UBIndex)                                       (* jacobians[i] past the end *)
    | Ji :: jt =>
      match pv with
      | None => (J, UB UBNull)
      | Some a =>
        match hget h a with
        | Ok v =>
          if mat_is_empty Ji then
            if vconst VC v then dense_vars_loop h g row rdim vt jt J else (J, Throw EEmptyBlock)
          else match variable_placement g (vid VC v) with
               | None => dense_vars_loop h g row rdim vt jt J
               | Some p =>
                 if negb (row + mrows Ji <=? mrows J) || negb (vp_index p + mcols Ji <=? mcols J)
                 then (J, Throw EBlockBounds)
                 else if negb (mrows Ji =? rdim) then (J, Throw EBlockRows)
                 else if negb (mcols Ji =? vp_dim p) then (J, Throw EBlockCols)
                 else dense_vars_loop h g row rdim vt jt (write_block row (vp_index p) Ji J)
               end
        | Throw e => (J, Throw e)
        | UB u => (J, UB u)
        end
      end
    end
  end.
(** factor_graph.cpp:163-216 *)
Fixpoint dense_loop (h : heap) (g : graph) (fps : list (nat * fplacement)) (J : mat N) : mat N * outcome unit :=
  match fps with
  | [] => (J, Ok tt)
  | (_, fp) :: t =>
    match fp_factor fp with
    | None => (J, UB UBNull)
    | Some f =>
      match f_jac f h [] with
      | (js, Ok _) => match dense_vars_loop h g (fp_rindex fp) (fp_rdim fp) (f_vars f) js J with
                      | (J', Ok _) => dense_loop h g t J'
                      | (J', r) => (J', r)
                      end
      | (_, Throw e) => (J, Throw e)
      | (_, UB u) => (J, UB u)
      end
    end
  end.
(** factor_graph.cpp:153-220 compute_full_jacobian_matrix *)
Definition compute_dense (E : env) (h : heap) (g : graph) : graph * outcome (mat N) :=
  if negb (ly_final (g_lay g)) then (g, Throw ENotFinalized)
  else
    let d := g_dc g in
    let J0 := if dc_jac_valid d then dc_jac d else mzero (ly_nres (g_lay g)) (ly_nval (g_lay g)) in
    match dense_loop h g (e_order E (ly_fplace (g_lay g))) J0 with
    | (J, Ok _) => (with_dc g (DCache J true (dc_res d) (dc_res_valid d)), Ok J)
    | (J, Throw e) => (with_dc g (DCache J (dc_jac_valid d) (dc_res d) (dc_res_valid d)), Throw e)
    | (J, UB u) => (with_dc g (DCache J (dc_jac_valid d) (dc_res d) (dc_res_valid d)), UB u)
    end.

(** factor_graph.cpp:222-230 compute_full_jacobian_and_residual *)
Definition compute_both (E : env) (h : heap) (g : graph) : graph * outcome unit :=
  if negb (ly_final (g_lay g)) then (g, Throw ENotFinalized)
  else match compute_dense E h g with
       | (g1, Ok _) => match compute_residual E h g1 with
                       | (g2, Ok _) => (g2, Ok tt)
                       | (g2, Throw e) => (g2, Throw e)
                       | (g2, UB u) => (g2, UB u)
                       end
       | (g1, Throw e) => (g1, Throw e)
       | (g1, UB u) => (g1, UB u)
       end.

(** factor_graph.cpp:241-253: column offsets *)
Fixpoint place_vars (h : heap) (vs : list addr) (col : nat) (m : list (Z * vplacement))
  : outcome (list (Z * vplacement) * nat) :=
  match vs with
  | [] => Ok (m, col)
  | a :: t =>
    let* v := hget h a in
    let dim := if vconst VC v then 0 else vsize VC v in
    place_vars h t (col + dim) (aset Z.eqb (vid VC v) (VPlacement a col dim) m)
  end.

(** factor_graph.cpp:265-283: column list of one factor *)
Fixpoint factor_cols (h : heap) (vp : list (Z * vplacement)) (vars : list (option addr))
  : outcome (list nat * list nat) :=
  match vars with
  | [] => Ok ([], [])
  | None :: _ => Throw ENullVariable
  | Some a :: t =>
    let* v := hget h a in
    if vconst VC v then factor_cols h vp t
    else match alookup Z.eqb (vid VC v) vp with
         | None => Throw ENoPlacement
         | Some p => let* r := factor_cols h vp t in Ok (vp_index p :: fst r, vp_dim p :: snd r)
         end
  end.

(** factor_graph.cpp:258-288: factor placements, keyed by the insertion index [i]; on an exception the
    placements made so far stay in the map *)
Fixpoint place_factors (h : heap) (vp : list (Z * vplacement)) (fs : list factor) (i row : nat)
  (m : list (nat * fplacement)) : list (nat * fplacement) * outcome nat :=
  match fs with
  | [] => (m, Ok row)
  | f :: t =>
    match factor_cols h vp (f_vars f) with
    | Ok (cols, dims) =>
        place_factors h vp t (S i) (row + f_rsize f)
          (aset Nat.eqb i (FPlacement (Some f) row (f_rsize f) cols dims) m)
    | Throw e => (m, Throw e)
    | UB u => (m, UB u)
    end
  end.

(** factor_graph.cpp:317-319: add [n] to the cells [base, base+dim) of the counter array *)
Fixpoint bump (base dim n : nat) (cnt : list nat) : outcome (list nat) :=
  match dim with
  | O => Ok cnt
  | S d => match nth_error cnt base with
           | Some x => bump (S base) d n (lupd base (x + n) cnt)
           | None => UB UBIndex
           end
  end.
(** factor_graph.cpp:307-320 *)
Fixpoint count_vars (h : heap) (vp : list (Z * vplacement)) (rdim : nat) (vars : list (option addr)) (cnt : list nat)
  : outcome (list nat) :=
  match vars with
  | [] => Ok cnt
  | None :: _ => UB UBNull
  | Some a :: t =>
    let* v := hget h a in
    if vconst VC v then count_vars h vp rdim t cnt
    else match alookup Z.eqb (vid VC v) vp with
         | None => count_vars h vp rdim t cnt   (* operator[] makes an uninitialised placement; excluded by line 276 *)
         | Some p => let* cnt' := bump (vp_index p) (vp_dim p) rdim cnt in count_vars h vp rdim t cnt'
         end
  end.
(** factor_graph.cpp:303-321 *)
Fixpoint count_factors (h : heap) (lay : list (Z * vplacement)) (fps : list (nat * fplacement)) (n i : nat)
  (cnt : list nat) : outcome (list nat) :=
  match n with
  | O => Ok cnt
  | S n' =>
    match alookup Nat.eqb i fps with
    | Some fp =>
      match fp_factor fp with
      | Some f => let* cnt' := count_vars h lay (fp_rdim fp) (f_vars f) cnt in count_factors h lay fps n' (S i) cnt'
      | None => UB UBNull
      end
    | None => UB UBNull
    end
  end.

(** The pattern "cursor = current_row_index[col]; target[col][cursor] = payload; current_row_index[col]++" used in
    factor_graph.cpp:350-352 and 413-427.  A write is (col, payload). *)
Definition put2 {A} (c k : nat) (x : A) (rows : list (list A)) : list (list A) :=
  match nth_error rows c with Some l => lupd c (lupd k x l) rows | None => rows end.

(** factor_graph.cpp:346-354: the (column, row) pairs visited for one block *)
Definition block_cells (row_base row_dim col_base col_dim : nat) : list (nat * nat) :=
  flat_map (fun r => map (fun c => (col_base + c, row_base + r)) (seq 0 col_dim)) (seq 0 row_dim).
(** factor_graph.cpp:348-352 for a list of cells; no bounds check in the code *)
Fixpoint fill_rows (cells : list (nat * nat)) (rows : list (list nat)) (cur : list nat)
  : outcome (list (list nat) * list nat) :=
  match cells with
  | [] => Ok (rows, cur)
  | (c, r) :: t =>
    match nth_error cur c, nth_error rows c with
    | Some k, Some l =>
        if k <? length l then fill_rows t (put2 c k r rows) (lupd c (S k) cur) else UB UBIndex
    | _, _ => UB UBIndex
    end
  end.
(** factor_graph.cpp:342-355: all blocks of one factor placement *)
Definition placement_cells (fp : fplacement) : list (nat * nat) :=
  flat_map (fun p => block_cells (fp_rindex fp) (fp_rdim fp) (fst p) (snd p)) (combine (fp_cols fp) (fp_dims fp)).
(** factor_graph.cpp:334-356 *)
Fixpoint fill_factors (fps : list (nat * fplacement)) (n i : nat) (rows : list (list nat)) (cur : list nat)
  : outcome (list (list nat) * list nat) :=
  match n with
  | O => Ok (rows, cur)
  | S n' =>
    match alookup Nat.eqb i fps with
    | Some fp => let* rc := fill_rows (placement_cells fp) rows cur in
                 fill_factors fps n' (S i) (fst rc) (snd rc)
    | None => fill_factors fps n' (S i) rows cur      (* operator[] makes an empty placement: no columns *)
    end
  end.

(** factor_graph.cpp:232-367 finalize_structure *)
Definition finalize_structure (h : heap) (g : graph) : graph * outcome unit :=
  let r := g_reg g in
  let ly := g_lay g in
  match place_vars h (rg_vars r) 0 [] with
  | Throw e => (g, Throw e)
  | UB u => (g, UB u)
  | Ok (vp, ncol) =>
    match place_factors h vp (rg_factors r) 0 0 [] with
    | (fps, Throw e) => (with_lay g (Layout (ly_final ly) vp fps (ly_nres ly) (ly_nval ly)), Throw e)
    | (fps, UB u) => (with_lay g (Layout (ly_final ly) vp fps (ly_nres ly) (ly_nval ly)), UB u)
    | (fps, Ok nrow) =>
      let g1 := with_lay g (Layout (ly_final ly) vp fps nrow ncol) in
      if nrow <? ncol then (g1, Throw EUnderdetermined)
      else
        let res :=
          let* cnt := count_factors h vp fps (length (rg_factors r)) 0 (repeat 0 ncol) in
          let* rc := fill_factors fps (length (rg_factors r)) 0 (map (fun n => repeat 0 n) cnt) (repeat 0 ncol) in
          Ok (cnt, fst rc) in
        match res with
        | Throw e => (g1, Throw e)
        | UB u => (g1, UB u)
        | Ok (cnt, rows) =>
          (Graph r (Layout true vp fps nrow ncol) (g_dc g)
                 (SCache (sp_reserved nrow cnt) (repeat [] (length (rg_factors r))) true (sc_valid (g_sc g))
                         rows (map (fun n => repeat nzero n) cnt)), Ok tt)
        end
    end
  end.

(** factor_graph.cpp:408-429: the (column, value) pairs of one block *)
Definition block_values (Ji : mat N) (col_offset : nat) : list (nat * N) :=
  flat_map (fun r => map (fun c => (col_offset + c, mat_at Ji r c)) (seq 0 (mcols Ji))) (seq 0 (mrows Ji)).
(** factor_graph.cpp:412-427.  Note that current_row_index[dense_col] is read before the range check of dense_col, so an
    out-of-range column is undefined behaviour unless both arrays have different lengths. *)
Fixpoint fill_data (cells : list (nat * N)) (data : list (list N)) (cur : list nat)
  : list (list N) * list nat * outcome unit :=
  match cells with
  | [] => (data, cur, Ok tt)
  | (c, x) :: t =>
    match nth_error cur c with
    | None => (data, cur, UB UBIndex)
    | Some k =>
      match nth_error data c with
      | None => (data, cur, Throw ESparseCol)
      | Some l =>
        if k <? length l then fill_data t (put2 c k x data) (lupd c (S k) cur)
        else (data, cur, Throw ESparseRow)
      end
    end
  end.
(** factor_graph.cpp:395-430 *)
Fixpoint sparse_vars_loop (h : heap) (g : graph) (vars : list (option addr)) (js : list (mat N))
  (data : list (list N)) (cur : list nat) : list (list N) * list nat * outcome unit :=
  match vars with
  | [] => (data, cur, Ok tt)
  | pv :: vt =>
    match js with
    | [] => (data, cur, UB UBIndex)
    | Ji :: jt =>
      match pv with
      | None => (data, cur, UB UBNull)
      | Some a =>
        match hget h a with
        | Ok v =>
          match variable_placement g (vid VC v) with
          | None => sparse_vars_loop h g vt jt data cur
          | Some p => match fill_data (block_values Ji (vp_index p)) data cur with
                      | (data', cur', Ok _) => sparse_vars_loop h g vt jt data' cur'
                      | x => x
                      end
          end
        | Throw e => (data, cur, Throw e)
        | UB u => (data, cur, UB u)
        end
      end
    end
  end.
(** factor_graph.cpp:382-431.  [n] factors from index [i] on; [comps] is sparse_jacobian_components_ *)
Fixpoint sparse_factors_loop (h : heap) (g : graph) (n i : nat) (comps : list (list (mat N)))
  (data : list (list N)) (cur : list nat) : list (list (mat N)) * list (list N) * outcome unit :=
  match n with
  | O => (comps, data, Ok tt)
  | S n' =>
    match alookup Nat.eqb i (ly_fplace (g_lay g)), nth_error comps i with
    | Some fp, Some buf =>
      match fp_factor fp with
      | None => (comps, data, UB UBNull)
      | Some f =>
        match f_jac f h buf with
        | (js, Ok _) =>
          match sparse_vars_loop h g (f_vars f) js data cur with
          | (data', cur', Ok _) => sparse_factors_loop h g n' (S i) (lupd i js comps) data' cur'
          | (data', _, r) => (lupd i js comps, data', r)
          end
        | (js, Throw e) => (lupd i js comps, data, Throw e)
        | (js, UB u) => (lupd i js comps, data, UB u)
        end
      end
    | _, _ => (comps, data, UB UBNull)   (* null factor in a placement made by operator[], or components_ too short *)
    end
  end.

(** factor_graph.cpp:457-466: first population of one column *)
Fixpoint populate_col (col : nat) (rows : list nat) (vals : list N) (m : spmat N) : outcome (spmat N) :=
  match rows with
  | [] => Ok m
  | r :: rt =>
    match vals with
    | [] => UB UBIndex
    | x :: xt => let* m' := sp_put r col x m in populate_col col rt xt m'
    end
  end.
(** factor_graph.cpp:452-467 *)
Fixpoint populate (n col : nat) (rows : list (list nat)) (data : list (list N)) (m : spmat N) : outcome (spmat N) :=
  match n with
  | O => Ok m
  | S n' =>
    match nth_error rows col, nth_error data col with
    | Some r, Some d => let* m' := populate_col col r d m in populate n' (S col) rows data m'
    | Some [], None => populate n' (S col) rows data m
    | _, _ => UB UBIndex
    end
  end.

(** overwrite [length xs] cells of the value array starting at [off] *)
Definition mem_write (off : nat) (xs : list N) (mem : list (option N)) : list (option N) :=
  firstn off mem ++ map Some xs ++ skipn (off + length xs) mem.
(** factor_graph.cpp:685-715 *)
Fixpoint copy_loop (n col run total : nat) (rows : list (list nat)) (data : list (list N)) (mem : list (option N))
  : list (option N) * outcome unit :=
  match n with
  | O => (mem, Ok tt)
  | S n' =>
    match nth_error rows col, nth_error data col with
    | Some r, Some d =>
      if negb (length d =? length r) then (mem, Throw EDataIndexMismatch)
      else if length d =? 0 then copy_loop n' (S col) run total rows data mem
      else if total <=? run then (mem, Throw ERunningIndex)
      else if total <? run + length r then (mem, Throw ESparseBounds)
      else copy_loop n' (S col) (run + length r) total rows data (mem_write run d mem)
    | _, _ => (mem, UB UBIndex)
    end
  end.
(** factor_graph.cpp:671-716 copy_sparse_data_to_eigen_matrix; valuePtr() is null when nothing was ever allocated *)
Definition copy_sparse (nval : nat) (rows : list (list nat)) (data : list (list N)) (m : spmat N)
  : spmat N * outcome unit :=
  if sp_alloc m =? 0 then (m, Throw ENullValuePtr)
  else let '(mem, r) := copy_loop nval 0 0 (sp_nonzeros m) rows data (sp_memory m) in
       (sp_set_memory m mem, r).

(** factor_graph.cpp:369-483 compute_sparse_jacobian_matrix *)
Definition compute_sparse (h : heap) (g : graph) : graph * outcome (spmat N) :=
  if negb (ly_final (g_lay g)) then (g, Throw ENotFinalized)
  else if negb (sc_init (g_sc g)) then (g, Throw ESparseNotInit)
  else
    let s := g_sc g in
    let '(comps, data, r) :=
      sparse_factors_loop h g (length (rg_factors (g_reg g))) 0 (sc_comps s) (sc_data s) (repeat 0 (ly_nval (g_lay g))) in
    let s1 := SCache (sc_mat s) comps (sc_init s) (sc_valid s) (sc_rowidx s) data in
    match r with
    | Throw e => (with_sc g s1, Throw e)
    | UB u => (with_sc g s1, UB u)
    | Ok _ =>
      if sc_valid s then
        match copy_sparse (ly_nval (g_lay g)) (sc_rowidx s) data (sc_mat s) with
        | (m, Ok _) => (with_sc g (SCache m comps (sc_init s) true (sc_rowidx s) data), Ok m)
        | (m, Throw e) => (with_sc g (SCache m comps (sc_init s) (sc_valid s) (sc_rowidx s) data), Throw e)
        | (m, UB u) => (with_sc g (SCache m comps (sc_init s) (sc_valid s) (sc_rowidx s) data), UB u)
        end
      else
        match populate (ly_nval (g_lay g)) 0 (sc_rowidx s) data (sc_mat s) with
        | Ok m => (with_sc g (SCache m comps (sc_init s) true (sc_rowidx s) data), Ok m)
        | Throw e => (with_sc g s1, Throw e)
        | UB u => (with_sc g s1, UB u)
        end
    end.

(** factor_graph.hpp:133-155 cached accessors *)
Definition jacobian (g : graph) : outcome (mat N) :=
  if dc_jac_valid (g_dc g) then Ok (dc_jac (g_dc g)) else Throw ENotValid.
Definition sparse_jacobian (g : graph) : outcome (spmat N) :=
  if sc_valid (g_sc g) then Ok (sc_mat (g_sc g)) else Throw ENotValid.
Definition residual (g : graph) : outcome (list N) :=
  if dc_res_valid (g_dc g) then Ok (dc_res (g_dc g)) else Throw ENotValid.

(** ** Histories: any sequence of calls a client can make on one graph and on the variable objects. *)
Inductive op : Type :=
| OAddVar (p : option addr)
| OAddFactor (p : option factor)
| OFinalize
| OResidual
| OResidualInto (buf : list N)
| ODense
| OBoth
| OSparse
| OGetVec
| OSetVec (x : list N)
| OApplyInc (dx : list N)
| ONew (v : V)                              (* construct a variable object *)
| OSetConst (a : addr) (b : bool)           (* Variable::set_constant, base_types.hpp:177 *)
| OSetVal (a : addr) (x : list N)           (* set_value_from_vector *)
| OIncVal (a : addr) (x : list N).          (* Variable::apply_increment *)

Inductive answer : Type :=
| AUnit (r : outcome unit)
| AVec (r : outcome (list N))
| AMat (r : outcome (mat N))
| ASp (r : outcome (spmat N)).

Definition step (E : env) (s : heap * graph) (o : op) : (heap * graph) * answer :=
  let '(h, g) := s in
  match o with
  | OAddVar p => let '(g', r) := add_variable h g p in ((h, g'), AUnit r)
  | OAddFactor p => let '(g', r) := add_factor g p in ((h, g'), AUnit r)
  | OFinalize => let '(g', r) := finalize_structure h g in ((h, g'), AUnit r)
  | OResidual => let '(g', r) := compute_residual E h g in ((h, g'), AVec r)
  | OResidualInto buf => let '(b, r) := compute_residual_into E h g buf in
                         ((h, g), AVec (omap (fun _ => b) r))
  | ODense => let '(g', r) := compute_dense E h g in ((h, g'), AMat r)
  | OBoth => let '(g', r) := compute_both E h g in ((h, g'), AUnit r)
  | OSparse => let '(g', r) := compute_sparse h g in ((h, g'), ASp r)
  | OGetVec => ((h, g), AVec (get_variable_vector h g))
  | OSetVec x => let '(h', r) := set_variable_values_from_vector h g x in ((h', g), AUnit r)
  | OApplyInc dx => let '(h', r) := apply_increment h g dx in ((h', g), AUnit r)
  | ONew v => ((h ++ [v], g), AUnit (Ok tt))
  | OSetConst a b => let '(h', r) := hupd h a (fun v => Ok (vsetconst VC b v)) in ((h', g), AUnit r)
  | OSetVal a x => let '(h', r) := hupd h a (fun v => vset VC v x) in ((h', g), AUnit r)
  | OIncVal a x => let '(h', r) := hupd h a (fun v => vinc VC v x) in ((h', g), AUnit r)
  end.

(** Each call may see its own hash-map order and junk values. *)
Fixpoint run (s : heap * graph) (l : list (env * op)) : heap * graph :=
  match l with
  | [] => s
  | (E, o) :: t => run (fst (step E s o)) t
  end.
End Graph.
