(** Proofs for PropsNumJac: counterexamples. *)
From Coq Require Import List Arith ZArith QArith Bool Lia Reals Lra.
From Verif Require Import Base Sparse Graph Geom Vars SpecGraph SpecOpt ListLemmas Real VarsLemmas FactorsGeo FactorLib SpecShape FactorShape FactorSafe NumJac SpecTools NumJacFacts NumJacLib Toy.
From Verif Require Import SpecGeom GeomR GeomExp GeomLog GeomFacts.
Import ListNotations.
Set Bullet Behavior "Strict Subproofs".
Local Open Scope nat_scope.

Section Any.
Context {N : num} {V : Type} (VC : vclass N V).
(** a variable that set_value_from_vector(value()) changes once *)
Lemma num_col_settles (f : factor (N:=N) (V:=V)) a n eps k (h : @heap V) v v0 vp vm rp rm : nth_error h a = Some v ->
  (forall dx v', vinc VC v dx = Ok v' -> vset VC v' (vval VC v) = Ok v0) -> (forall dx v', vinc VC v0 dx = Ok v' -> vset VC v' (vval VC v) = Ok v0) ->
  vinc VC v (probe n k eps) = Ok vp -> vinc VC v0 (vneg (probe n k eps)) = Ok vm -> f_res f (lupd a vp h) = Ok rp -> f_res f (lupd a vm h) = Ok rm ->
  length rp = f_rsize f -> length rm = f_rsize f -> exists c, num_col VC f a n eps k h = (lupd a v0 h, Ok c).
Proof.
  intros Ha R R0 Ip Im Fp Fm Lp Lm. pose proof (lt_of_nth _ _ _ Ha) as La. unfold num_col, hget. rewrite Ha. cbn [hthen].
  rewrite (hupd_some h a _ v vp) by auto. cbn [hthen]. rewrite Fp. cbn [hthen].
  rewrite (hupd_some (lupd a vp h) a _ vp v0) by (try apply lupd_nth_same; auto; eapply R; eauto). rewrite lupd_lupd. cbn [hthen].
  rewrite (hupd_some (lupd a v0 h) a _ v0 vm) by (try apply lupd_nth_same; auto). rewrite lupd_lupd. cbn [hthen]. rewrite Fm. cbn [hthen].
  rewrite (hupd_some (lupd a vm h) a _ vm v0) by (try apply lupd_nth_same; auto; eapply R0; eauto). rewrite lupd_lupd. cbn [hthen].
  rewrite Lp, Lm, !Nat.eqb_refl. eexists. reflexivity.
Qed.
End Any.

(** ** A small rotation is replaced by another one *)
Definition small_turn : m3 RN := aa_matrix (/ 1000000)%R (ex 1%R).
Definition turn_heap : @heap (lvar RN) := [mk_rotation 1 small_turn].
Lemma rot_residual id prior (sigma : RN) x A : exists r, f_res (rotation_prior id 0 prior sigma) [LVar 1 false (KRot x A)] = Ok r /\ length r = 3.
Proof.
  assert (W : well_used [LVar 1 false (KRot (v3list (V3 (N:=RN) 0%R 0%R 0%R)) A)] (LRotationPrior id 0 prior sigma)) by (eexists; split; [reflexivity|]; split; [reflexivity|exact I]).
  destruct (residual_size_ok _ _ W) as (r & E & L). exists r. split; [exact E|exact L].
Qed.
Lemma small_turn_changed : forall id prior (sigma eps : R), exists h' Js,
  num_jac (lib RN) (rotation_prior id 0 prior sigma) eps turn_heap = (h', Ok Js) /\ h' <> turn_heap.
Proof.
  intros id prior sigma eps. set (f := rotation_prior (N:=RN) id 0 prior sigma).
  set (x := v3list (log_so3 small_turn)). set (v := mk_rotation 1 small_turn). set (v0 := LVar 1 false (KRot (N:=RN) x (exp_so3 (log_so3 small_turn)))).
  assert (To : to_v3 x = Ok (log_so3 small_turn)) by (unfold x; destruct (log_so3 small_turn); reflexivity).
  assert (Rs : forall x' A, exists r, f_res f [LVar 1 false (KRot x' A)] = Ok r /\ length r = f_rsize f) by (intros; apply rot_residual).
  assert (Set_ : forall x' A, vset (lib RN) (LVar 1 false (KRot x' A)) x = Ok v0) by (intros x' A; change (with_kind (LVar 1 false (KRot x' A)) (let* w := to_v3 x in Ok (KRot x (exp_so3 w))) = Ok v0); rewrite To; reflexivity).
  assert (Inc : forall A y dx, length dx = 3 -> exists x' A', vinc (lib RN) (LVar 1 false (KRot y A)) dx = Ok (LVar 1 false (KRot x' A'))).
  { intros A y dx L. destruct dx as [|? [|? [|? [|? ?]]]]; try discriminate. eexists _, _. reflexivity. }
  assert (Inv : forall A y dx v', vinc (lib RN) (LVar 1 false (KRot y A)) dx = Ok v' -> exists x' A', v' = LVar 1 false (KRot x' A')).
  { intros A y dx v' E. simpl in E. apply VarsLemmas.with_kind_ok in E. destruct E as (k & E & ->). cbn [kinc l_kind] in E. destruct (to_v3 dx); try discriminate. injection E as <-. eexists _, _. reflexivity. }
  assert (R0 : returns (lib RN) v0) by (intros dx v' E; destruct (Inv _ _ _ _ E) as (x' & A' & ->); apply Set_).
  assert (P3 : forall k, length (probe (N:=RN) 3 k eps) = 3 /\ length (vneg (probe (N:=RN) 3 k eps)) = 3) by (intros k; unfold vneg; rewrite map_length; split; apply probe_along).
  assert (C0 : exists c, num_col (lib RN) f 0 3 eps 0 turn_heap = (lupd 0 v0 turn_heap, Ok c)).
  { destruct (Inc small_turn x (probe 3 0 eps) (proj1 (P3 0))) as (xp & Ap & Ep). destruct (Inc (exp_so3 (log_so3 small_turn)) x (vneg (probe 3 0 eps)) (proj2 (P3 0))) as (xm & Am & Em).
    destruct (Rs xp Ap) as (rp & Fp & Lp). destruct (Rs xm Am) as (rm & Fm & Lm).
    apply (num_col_settles (lib RN) f 0 3 eps 0 turn_heap v v0 (LVar 1 false (KRot xp Ap)) (LVar 1 false (KRot xm Am)) rp rm eq_refl); [| |exact Ep|exact Em|exact Fp|exact Fm|exact Lp|exact Lm].
    - intros dx v' E. destruct (Inv _ _ _ _ E) as (x' & A' & ->). apply Set_.
    - exact R0. }
  destruct C0 as (c0 & C0).
  assert (Ck : forall k, In k [1; 2] -> exists c, num_col (lib RN) f 0 3 eps k [v0] = ([v0], Ok c)).
  { intros k _. destruct (Inc (exp_so3 (log_so3 small_turn)) x (probe 3 k eps) (proj1 (P3 k))) as (xp & Ap & Ep). destruct (Inc (exp_so3 (log_so3 small_turn)) x (vneg (probe 3 k eps)) (proj2 (P3 k))) as (xm & Am & Em).
    destruct (Rs xp Ap) as (rp & Fp & Lp). destruct (Rs xm Am) as (rm & Fm & Lm). eexists.
    apply (num_col_runs (lib RN) f 0 3 eps k [v0] v0 _ _ rp rm eq_refl R0 Ep Em Fp Fm Lp Lm). }
  destruct (num_cols_runs (lib RN) f 0 3 eps [1; 2] [v0] Ck) as (cs & Cs).
  exists [v0]. eexists. split.
  - unfold num_jac. destruct (Rs x small_turn) as (r & E & _). change (f_res f turn_heap = Ok r) in E. rewrite E. cbn [hthen].
    change (f_vars f) with [Some 0]. cbn [num_vars]. change (hget turn_heap 0) with (Ok v). cbn [hthen]. change (vconst (lib RN) v) with false. change (vsize (lib RN) v) with 3. cbv iota. change (seq 0 3) with [0; 1; 2].
    change (num_cols (lib RN) f 0 3 eps [0; 1; 2] turn_heap) with (hthen (num_col (lib RN) f 0 3 eps 0 turn_heap) (fun h c => hthen (num_cols (lib RN) f 0 3 eps [1; 2] h) (fun h cs => (h, Ok (c :: cs))))).
    rewrite C0. cbn [hthen]. change (lupd 0 v0 turn_heap) with [v0]. rewrite Cs. cbn [hthen num_vars]. reflexivity.
  - intros E. injection E as E. apply (proj2 exp_log_wrong). exact E.
Qed.

(** ** A factor that throws while a variable is perturbed *)
(** defined for positive values only *)
Definition picky_res (h : @heap toyvar) : outcome (list Z) :=
  match h with [ToyVar _ [x] _] => if (0 <? x)%Z then Ok [x] else Throw EDegenerate | _ => UB UBDangling end.
Definition picky : factor (N:=NZ) (V:=toyvar) := Factor (N:=NZ) (V:=toyvar) 3 [Some 0%nat] 1 picky_res picky_res (fun _ _ => ([zmat 1 1 [[1%Z]]], Ok tt)).
Lemma picky_stuck : exists r, f_res picky [ToyVar 1 [1%Z] false] = Ok r /\
  num_jac toyclass picky 1%Z [ToyVar 1 [1%Z] false] = ([ToyVar 1 [0%Z] false], Throw EDegenerate).
Proof. eexists. split; reflexivity. Qed.
