(** Concrete test instances: integer scalars, a plain vector variable, an affine factor, and one history.  Used in the
    examples that show the hypotheses of the theorems are met, and as witnesses of refutations.  Not a model of a class in
    /repo, except that the variable behaves like generic_variable.hpp and the factor like an affine user-defined one. *)
From Coq Require Import List Arith ZArith QArith Bool Permutation.
From Verif Require Import Base Sparse Graph SpecGraph.
Import ListNotations.
Local Open Scope Z_scope.

(** integer scalars; functions that do not exist on Z are the identity *)
Canonical Structure NZ : num :=
  MkNum Z Z.add Z.sub Z.mul Z.div Z.opp Z.abs Z.sqrt (fun x => x) (fun x => x) (fun x => x) (fun x => x) (fun x _ => x)
        Z.ltb Z.leb (fun _ => true) (fun q => Qnum q / Zpos (Qden q)).

Record toyvar : Type := ToyVar { t_id : Z; t_val : list Z; t_const : bool }.
Definition toy_set (v : toyvar) (x : list Z) : outcome toyvar :=
  if Nat.eqb (length x) (length (t_val v)) then Ok (ToyVar (t_id v) x (t_const v)) else Throw EVarSizeMismatch.
Definition toyclass : vclass NZ toyvar :=
  VClass NZ toyvar t_id (fun v => length (t_val v)) t_val t_const (fun b v => ToyVar (t_id v) (t_val v) b)
    toy_set
    (fun v x => toy_set v (if Nat.eqb (length x) (length (t_val v)) then map (fun p => fst p + snd p) (combine (t_val v) x) else x)).

Lemma toy_ok : vclass_ok toyclass.
Proof.
  split.
  - intros v x v' H. simpl in *. unfold toy_set in H. destruct (Nat.eqb_spec (length x) (length (t_val v))); inversion H; subst. simpl; auto.
  - intros v x v' H. simpl in *. unfold toy_set in H. destruct (Nat.eqb_spec (length x) (length (t_val v))).
    + destruct (Nat.eqb_spec (length (map (fun p => fst p + snd p) (combine (t_val v) x))) (length (t_val v))); inversion H; subst. simpl; auto.
    + rewrite (proj2 (Nat.eqb_neq _ _) n) in H. discriminate.
  - intros b v. simpl. auto.
Qed.

Definition zmat (r c : nat) (rows : list (list Z)) : mat NZ := Mat (N:=NZ) r c (fun i j => nth j (nth i rows []) 0).
Definition at_addr (h : list toyvar) (a : addr) : toyvar := nth a h (ToyVar 0 [] true).

(** residual b + sum of block * variable *)
Definition lin_res (vars : list addr) (blocks : list (mat NZ)) (b : list Z) (h : list toyvar) : list Z :=
  fold_left (fun r p => vadd (N:=NZ) r (mvmul (N:=NZ) (snd p) (t_val (at_addr h (fst p))))) (combine vars blocks) b.
Definition lin_jac (vars : list addr) (blocks : list (mat NZ)) (h : list toyvar) : list (mat NZ) :=
  map (fun p => if t_const (at_addr h (fst p)) then mempty (N:=NZ) else snd p) (combine vars blocks).
Definition lin_factor (id : Z) (vars : list addr) (blocks : list (mat NZ)) (b : list Z) : factor (N:=NZ) (V:=toyvar) :=
  Factor (N:=NZ) (V:=toyvar) id (map Some vars) (length b)
    (fun h => Ok (lin_res vars blocks b h)) (fun h => Ok (lin_res vars blocks b h))
    (fun h _ => (lin_jac vars blocks h, Ok tt)).

Notation tenv := (env (N:=NZ) (V:=toyvar)).
Notation top := (op (N:=NZ) (V:=toyvar)).
Definition env_id : tenv := Env (N:=NZ) (V:=toyvar) (fun l => l) (fun n => repeat 7 n).
Definition env_rev : tenv := Env (N:=NZ) (V:=toyvar) (@rev _) (fun n => repeat (-3) n).
Lemma env_id_ok : env_ok env_id.
Proof. split; intros; simpl; [apply Permutation_refl|apply repeat_length]. Qed.
Lemma env_rev_ok : env_ok env_rev.
Proof. split; intros; simpl; [apply Permutation_sym, Permutation_rev|apply repeat_length]. Qed.

(** three variables: id 5 (two values), id 9 (one value, constant), id 2 (one value) *)
Definition B12 : mat NZ := zmat 1 2 [[3; 4]].
Definition B22 : mat NZ := zmat 2 2 [[1; 2]; [5; 6]].
Definition B21 : mat NZ := zmat 2 1 [[7]; [8]].
Definition B11 : mat NZ := zmat 1 1 [[9]].
Definition F1 := lin_factor 10 [0%nat; 2%nat] [B22; B21] [1; -1].
Definition F2 := lin_factor 4 [1%nat; 2%nat] [B11; B11] [2].
Definition F3 := lin_factor 7 [0%nat; 1%nat] [B12; B11] [0].
Definition ex_l1 : list (tenv * top) :=
  [ (env_id, ONew (ToyVar 5 [1; 2] false)); (env_id, ONew (ToyVar 9 [3] false)); (env_rev, ONew (ToyVar 2 [4] false));
    (env_id, OSetConst 1%nat true);
    (env_id, OAddVar (Some 0%nat)); (env_id, OAddVar (Some 1%nat)); (env_id, OAddVar (Some 0%nat));
    (env_rev, ODense); (env_rev, OAddVar (Some 2%nat));
    (env_id, OAddFactor (Some F1)); (env_id, OAddFactor (Some F2)); (env_id, OAddFactor (Some F3)) ].
Definition ex_l2 : list (tenv * top) :=
  [ (env_id, OSparse); (env_rev, ODense); (env_id, OApplyInc [1; 1; 2]); (env_rev, OSparse); (env_rev, OResidual);
    (env_id, OSetVal 2%nat [6]); (env_id, OResidualInto [1; 2; 3]); (env_rev, OSparse) ].

Notation tgraph := (graph (N:=NZ) (V:=toyvar)).
Definition ex_s0 : list toyvar * tgraph := run toyclass ([], empty_graph) ex_l1.
Definition ex_h1 : list toyvar := fst ex_s0.
Definition ex_g1 : tgraph := fst (finalize_structure toyclass ex_h1 (snd ex_s0)).
Definition ex_s2 : list toyvar * tgraph := run toyclass (ex_h1, ex_g1) ex_l2.
Definition ex_h : list toyvar := fst ex_s2.
Definition ex_g : tgraph := snd ex_s2.

Lemma ex_l2_ok : Forall (fun eo => env_ok (fst eo) /\ value_op (snd eo)) ex_l2.
Proof. repeat constructor; simpl; auto using env_id_ok, env_rev_ok; apply env_id_ok || apply env_rev_ok. Qed.
Lemma ex_finalized : finalized_history toyclass ex_l1 ex_l2 ex_h1 ex_h ex_g1 ex_g.
Proof.
  exists (snd ex_s0). split; [apply surjective_pairing|].
  split; [|split; [apply ex_l2_ok|apply surjective_pairing]].
  assert (H : snd (finalize_structure toyclass ex_h1 (snd ex_s0)) = Ok tt) by (vm_compute; reflexivity).
  unfold ex_g1. rewrite <- H. apply surjective_pairing.
Qed.
Lemma ex_unfinalized : unfinalized toyclass ([], empty_graph) ex_l1.
Proof. repeat (split; [discriminate|]). exact I. Qed.
Lemma ex_h_value : ex_h = [ToyVar 5 [2; 3] false; ToyVar 9 [3] true; ToyVar 2 [6] false].
Proof. vm_compute. reflexivity. Qed.
Lemma ex_vars : get_all_variables ex_g = [0; 1; 2]%nat.
Proof. vm_compute. reflexivity. Qed.
Lemma ex_factors : get_all_factors ex_g = [F1; F2; F3].
Proof. vm_compute. reflexivity. Qed.

Lemma ex_wf : Forall (factor_wf toyclass ex_h (get_all_variables ex_g)) (get_all_factors ex_g).
Proof.
  rewrite ex_vars, ex_factors, ex_h_value.
  assert (Hb : forall a b, In b [0; 1; 2]%nat -> In a [0; 1; 2]%nat ->
    idz toyclass [ToyVar 5 [2; 3] false; ToyVar 9 [3] true; ToyVar 2 [6] false] b =
    idz toyclass [ToyVar 5 [2; 3] false; ToyVar 9 [3] true; ToyVar 2 [6] false] a -> b = a).
  { intros a b Hb Ha. simpl in Ha, Hb. destruct Hb as [<-|[<-|[<-|[]]]], Ha as [<-|[<-|[<-|[]]]]; vm_compute; congruence. }
  assert (K : forall f, In f [F1; F2; F3] -> factor_wf toyclass [ToyVar 5 [2; 3] false; ToyVar 9 [3] true; ToyVar 2 [6] false] [0; 1; 2]%nat f).
  { intros f Hf. simpl in Hf. split; [|split].
    - destruct Hf as [<-|[<-|[<-|[]]]]; simpl; Lia.lia.
    - intros p Hp. assert (Hp' : In p [Some 0; Some 1; Some 2]%nat).
      { destruct Hf as [<-|[<-|[<-|[]]]]; simpl in *; tauto. }
      simpl in Hp'. destruct Hp' as [<-|[<-|[<-|[]]]]; eexists; eexists; (split; [reflexivity|]); (split; [reflexivity|]).
      + split; [intros _; simpl; split; auto; Lia.lia|intros b Hbb; apply Hb; simpl; tauto].
      + split; [intros C; discriminate C|intros b Hbb; apply Hb; simpl; tauto].
      + split; [intros _; simpl; split; auto; Lia.lia|intros b Hbb; apply Hb; simpl; tauto].
    - destruct Hf as [<-|[<-|[<-|[]]]]; vm_compute; repeat (constructor; [simpl; intuition congruence|]); constructor. }
  apply Forall_forall. exact K.
Qed.

Definition ex_jss : list (list (mat NZ)) := map (fun f => fst (f_jac f ex_h [])) (get_all_factors ex_g).
Lemma ex_blocks : Forall2 (fun f js => f_jac f ex_h [] = (js, Ok tt) /\ blocks_ok toyclass ex_h (f_rsize f) (f_vars f) js)
  (get_all_factors ex_g) ex_jss.
Proof.
  unfold ex_jss. rewrite ex_factors, ex_h_value.
  repeat constructor; simpl;
    try (intros q a v J Hq Ha HJ; destruct q as [|[|q]]; simpl in Hq; inversion Hq; subst; simpl in Ha; inversion Ha; subst;
         inversion HJ; subst; simpl; auto); destruct q; discriminate.
Qed.
Lemma ex_indep : Forall buf_indep (get_all_factors ex_g).
Proof.
  rewrite ex_factors.
  assert (R : forall A : mat NZ, mat_eq A A) by (repeat split; auto).
  assert (L : forall l : list (mat NZ), Forall2 mat_eq l l) by (induction l; constructor; auto).
  repeat constructor; simpl; auto.
Qed.
Lemma ex_active : some_active toyclass ex_h (get_all_factors ex_g).
Proof. rewrite ex_factors, ex_h_value. exists F1, 0%nat, (ToyVar 5 [2; 3] false). simpl. auto. Qed.
Definition ex_rs : list (list Z) := [[51; 75]; [83]; [45]].
Lemma ex_res : Forall2 (fun f r => f_res_ref f ex_h = Ok r /\ length r = f_rsize f) (get_all_factors ex_g) ex_rs.
Proof. rewrite ex_factors, ex_h_value. repeat constructor; vm_compute; reflexivity. Qed.
Lemma ex_members : Forall (lists_members toyclass ex_h (get_all_variables ex_g)) (get_all_factors ex_g).
Proof.
  rewrite ex_vars, ex_factors. apply Forall_forall. intros f Hf a v Ha _ _. simpl in Hf.
  destruct Hf as [<-|[<-|[<-|[]]]]; simpl in Ha; destruct Ha as [Ha|[Ha|[]]]; inversion Ha; simpl; auto.
Qed.
Lemma ex_safe : Forall (factor_safe toyclass ex_h) (get_all_factors ex_g).
Proof.
  pose proof ex_blocks as Hb. unfold ex_jss in Hb. pose proof ex_res as Hr. rewrite ex_factors in *.
  inversion_clear Hb as [|? ? ? ? [_ B1] Hb1]. inversion_clear Hb1 as [|? ? ? ? [_ B2] Hb2]. inversion_clear Hb2 as [|? ? ? ? [_ B3] _].
  inversion_clear Hr as [|? ? ? ? [R1 L1] Hr1]. inversion_clear Hr1 as [|? ? ? ? [R2 L2] Hr2]. inversion_clear Hr2 as [|? ? ? ? [R3 L3] _].
  constructor; [|constructor; [|constructor; [|constructor]]].
  - split; [rewrite R1; discriminate|split; [rewrite R1; intros r E; inversion E; subst; exact L1|]].
    intros b _. split; [discriminate|]. intros _. exact B1.
  - split; [rewrite R2; discriminate|split; [rewrite R2; intros r E; inversion E; subst; exact L2|]].
    intros b _. split; [discriminate|]. intros _. exact B2.
  - split; [rewrite R3; discriminate|split; [rewrite R3; intros r E; inversion E; subst; exact L3|]].
    intros b _. split; [discriminate|]. intros _. exact B3.
Qed.
Lemma toy_inc_safe v x u : length x = vsize toyclass v -> vinc toyclass v x <> UB u.
Proof. intros _. simpl. unfold toy_set. destruct (_ =? _)%nat; discriminate. Qed.

(** rows of a matrix, for computing *)
Definition rows_of {N : num} (m : mat N) : list (list N) :=
  map (fun i => map (fun j => mat_at m i j) (seq 0 (mcols m))) (seq 0 (mrows m)).
