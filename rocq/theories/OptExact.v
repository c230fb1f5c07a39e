(** Exact arithmetic and an exact solver: covariance blocks and one-step solution of linear problems. *)
From Coq Require Import List Arith ZArith QArith Bool Lia Permutation Reals Lra.
From Verif Require Import Base Sparse Graph SpecGraph SpecOpt ListLemmas GraphLayout GraphFin GraphBasic GraphVec GraphSparse Optimizer OptLemmas OptWork OptLM OptRun OptMore Real RSum SpecSolver Gram OptCov.
Import ListNotations.
Local Open Scope nat_scope.

Lemma rlit1 : (nlit 1 : RN) = 1%R. Proof. exact (lit_int 1). Qed.

Section CovExact.
Context {V : Type} (VC : vclass RN V) {S : Type} (SV : solver RN S).
Notation pstate := (pstate (N:=RN) (V:=V) (S:=S)).

Lemma jtj_at (J : mat RN) i j : mat_at (jtj J) i j = rsum (mrows J) (fun k => mat_at J k i * mat_at J k j)%R.
Proof. unfold jtj, mmul, mtrans. simpl. apply vsum_seq. Qed.
Lemma inv_sym (H W : mat RN) n : mrows H = n -> mcols H = n -> (forall i j, i < n -> j < n -> mat_at H i j = mat_at H j i) -> left_inverse W H ->
  forall i j, i < n -> j < n -> mat_at W i j = mat_at W j i.
Proof.
  intros Hr Hc Hs (L1 & L2 & L3) i j Hi Hj.
  assert (I : forall i j, i < n -> j < n -> rsum n (fun k => mat_at W i k * mat_at H k j)%R = if i =? j then 1%R else 0%R).
  { intros i' j' Hi' Hj'. specialize (L3 i' j'). rewrite vsum_seq, L1, Hr in L3. rewrite <- rlit1, <- lit_zero. apply L3; lia. }
  (* W_ij = sum_l (WH)_(i l) W_(j l) = sum_k W_ik (H W^T)_(k j) *)
  transitivity (rsum n (fun k => mat_at W i k * rsum n (fun l => mat_at H k l * mat_at W j l))%R).
  - rewrite (rsum_single n j).
    + replace (rsum n _) with 1%R; [lra|]. rewrite (rsum_ext _ _ (fun k => mat_at W j k * mat_at H k j)%R).
      * rewrite I by lia. rewrite Nat.eqb_refl. reflexivity.
      * intros l Hl. rewrite Hs by lia. lra.
    + auto.
    + intros k Hk Hne. replace (rsum n _) with 0%R; [lra|]. rewrite (rsum_ext _ _ (fun l => mat_at W j l * mat_at H l k)%R).
      * rewrite I by lia. destruct (Nat.eqb_spec j k); [lia|reflexivity].
      * intros l Hl. rewrite Hs by lia. lra.
  - rewrite (rsum_ext _ _ (fun k => rsum n (fun l => mat_at W i k * mat_at H k l * mat_at W j l)%R)).
    + rewrite rsum_swap. rewrite (rsum_ext _ _ (fun l => (if i =? l then 1 else 0) * mat_at W j l)%R).
      * rewrite (rsum_single n i); auto; [rewrite Nat.eqb_refl; lra|]. intros k Hk Hne. destruct (Nat.eqb_spec i k); [lia|lra].
      * intros l Hl. rewrite rsum_scal_r, I by lia. reflexivity.
    + intros k Hk. rewrite <- rsum_scal. apply rsum_ext. intros. lra.
Qed.
Theorem covariance_block (p p1 : pstate) a J P W : exact_solver SV ->
  p_hvalid p = false -> p_complete p = true -> omap sp_dense (sparse_jacobian (p_graph p)) = Ok J ->
  prepare SV p = (p1, Ok tt) -> snd (estimate_covariance VC SV (Some a) p1) = Ok (Some P) ->
  forall H, is_gram J H -> left_inverse W H ->
  exists v pl, nth_error (p_heap p) a = Some v /\ variable_placement (p_graph p) (vid VC v) = Some pl /\
    mrows P = vp_dim pl /\ mcols P = vp_dim pl /\
    (forall i j, i < vp_dim pl -> j < vp_dim pl -> mat_at P i j = mat_at W (vp_index pl + i) (vp_index pl + j)) /\
    (forall i j, i < vp_dim pl -> j < vp_dim pl -> mat_at P i j = mat_at P j i).
Proof.
  intros (holds & X1 & X2 & X3) Hv Hc HJ Hp He H HG HW.
  destruct (estimate_covariance VC SV (Some a) p1) as [p' r] eqn:E1. simpl in He. subst r.
  apply estimate_inv in E1. destruct E1 as (v & pl & s' & X & A1 & A2 & A3 & A4 & A5 & A6 & A7 & A8 & A9 & A10 & A11 & A12 & A13).
  unfold prepare in Hp. rewrite Hv, Hc in Hp. simpl negb in Hp. cbv iota in Hp. unfold mbind in Hp at 1. rewrite HJ in Hp.
  unfold mbind, mupd, m_factorize in Hp.
  assert (Hpp : p_solver p1 = sv_compute SV (p_solver p) (jtj J) /\ p_hess p1 = jtj J /\ p_heap p1 = p_heap p /\ p_graph p1 = p_graph p).
  { destruct (sv_ok SV _) eqn:Eo; simpl in Hp; [|inversion Hp; subst; auto].
    unfold lift in Hp. simpl in Hp. destruct (vmin _) as [mn|e|u]; inversion Hp; subst; auto. }
  destruct Hpp as (B1 & B2 & B3 & B4). rewrite B3 in A1. rewrite B4 in A6. rewrite B1, B2 in A8. rewrite B2 in A7.
  change (mrows (jtj J)) with (mcols J) in A7, A8.
  match type of A8 with sv_solve_mat _ _ ?b = _ => destruct (X3 _ _ b _ _ (X1 _ _ (gram_sym J)) eq_refl A8) as (_ & X4) end. specialize (X4 A9). destruct X4 as (Y1 & Y2 & Y3).
  change (mcols (jtj J)) with (mcols J) in Y1, Y3. change (mrows (jtj J)) with (mcols J) in Y3. simpl in Y2, Y3.
  destruct HG as (G1 & G2 & G3).
  assert (Hs : forall i j, i < mcols J -> j < mcols J -> mat_at H i j = mat_at H j i).
  { intros i j Hi Hj. rewrite !G3 by auto. rewrite !vsum_seq. apply rsum_ext. intros; simpl. lra. }
  pose proof (inv_sym H W (mcols J) G1 G2 Hs HW) as Hsym. destruct HW as (W1 & W2 & W3).
  assert (HB : forall k j, k < mcols J -> j < vp_dim pl ->
     rsum (mcols J) (fun l => mat_at H k l * mat_at X l j)%R = if k =? vp_index pl + j then 1%R else 0%R).
  { intros k j Hk Hj. specialize (Y3 k j Hk Hj).
    transitivity (rsum (mcols J) (fun l => mat_at (jtj J) k l * mat_at X l j)%R).
    - apply rsum_ext. intros l Hl. rewrite G3 by lia. reflexivity.
    - rewrite <- vsum_seq. etransitivity; [exact Y3|]. destruct (k =? vp_index pl + j); [apply rlit1|apply lit_zero]. }
  assert (HX : forall i j, i < mcols J -> j < vp_dim pl -> mat_at X i j = mat_at W i (vp_index pl + j)).
  { intros i j Hi Hj.
    transitivity (rsum (mcols J) (fun k => mat_at W i k * rsum (mcols J) (fun l => mat_at H k l * mat_at X l j))%R).
    - rewrite (rsum_ext _ _ (fun k => rsum (mcols J) (fun l => mat_at W i k * mat_at H k l * mat_at X l j)%R)).
      2: { intros k Hk. rewrite <- rsum_scal. apply rsum_ext. intros. lra. }
      rewrite rsum_swap. rewrite (rsum_ext _ _ (fun l => (if i =? l then 1 else 0) * mat_at X l j)%R).
      + rewrite (rsum_single (mcols J) i); auto; [rewrite Nat.eqb_refl; lra|]. intros k Hk Hne. destruct (Nat.eqb_spec i k); [lia|lra].
      + intros l Hl. rewrite rsum_scal_r. specialize (W3 i l). rewrite vsum_seq, W1, G1 in W3. simpl in W3. rewrite W3 by lia.
        destruct (i =? l); [f_equal; apply rlit1|f_equal; apply lit_zero].
    - rewrite (rsum_single (mcols J) (vp_index pl + j)); [| lia |].
      + rewrite HB by lia. rewrite Nat.eqb_refl. lra.
      + intros k Hk Hne. rewrite HB by lia. destruct (Nat.eqb_spec k (vp_index pl + j)); [lia|lra]. }
  assert (HP : forall i j, i < vp_dim pl -> j < vp_dim pl -> mat_at P i j = mat_at W (vp_index pl + i) (vp_index pl + j)).
  { intros i j Hi Hj. subst P. simpl. rewrite !HX by lia. rewrite (Hsym (vp_index pl + j) (vp_index pl + i)) by lia.
    change (Q2R (1#2)) with (nlit (1#2) : RN). rewrite lit_half. destruct (j <=? i); lra. }
  exists v, pl. split; auto. split; auto. split; [subst P; auto|]. split; [subst P; auto|]. split; auto.
  intros i j Hi Hj. rewrite !HP by auto. apply Hsym; lia.
Qed.
End CovExact.
