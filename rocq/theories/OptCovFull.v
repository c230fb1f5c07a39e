(** Covariances with an exactly factorising solver: when they are available, and that they are symmetric and positive definite. *)
From Coq Require Import List Arith ZArith QArith Bool Lia Permutation Reals Lra.
From Verif Require Import Base Sparse Graph SpecGraph SpecOpt ListLemmas GraphLayout GraphFin GraphBasic GraphVec GraphSparse Optimizer OptLemmas OptWork OptLM OptRun OptMore Real RSum SpecSolver Gram Pivots OptCov OptExact.
Import ListNotations.
Local Open Scope nat_scope.
Set Bullet Behavior "Strict Subproofs".

Lemma rsum_nonzero n (f : nat -> R) : rsum n f <> 0%R -> exists i, i < n /\ f i <> 0%R.
Proof.
  induction n; cbn [rsum]; intros Hn; [lra|]. destruct (Req_dec (f n) 0) as [E|E]; [|exists n; split; auto].
  destruct IHn as (i & Hi & Hf); [intros X; apply Hn; rewrite X, E; ring|]. exists i. split; auto.
Qed.
Lemma delta_sum n k (f : nat -> R) : k < n -> rsum n (fun j => (if k =? j then 1 else 0) * f j)%R = f k.
Proof.
  intros Hk. rewrite (rsum_single n k); auto; [rewrite Nat.eqb_refl; apply Rmult_1_l|]. intros i _ Hn. destruct (Nat.eqb_spec k i); [congruence|apply Rmult_0_l].
Qed.
(** a left inverse of a symmetric matrix is a right inverse *)
Lemma right_inverse (H W : mat RN) : symmetric_mat H -> left_inverse W H ->
  forall i j, i < mrows H -> j < mrows H -> rsum (mrows H) (fun k => mat_at H i k * mat_at W k j)%R = if i =? j then 1%R else 0%R.
Proof.
  intros (Sq & Sy) HW i j Hi Hj. pose proof (inv_sym H W (mrows H) eq_refl Sq Sy HW) as Ws. destruct HW as (L1 & L2 & L3).
  specialize (L3 j i). rewrite vsum_seq, L1 in L3. rewrite L2, Sq in L3. specialize (L3 Hj Hi).
  transitivity (if j =? i then nlit (n:=RN) 1 else nzero).
  - rewrite <- L3. apply rsum_ext. intros k Hk. rewrite (Sy i k), (Ws k j) by auto. apply Rmult_comm.
  - rewrite Nat.eqb_sym. destruct (i =? j); [apply rlit1|apply lit_zero].
Qed.
(** diagonal blocks of the inverse of a positive definite matrix are positive definite *)
Lemma block_definite (H W P : mat RN) o : symmetric_mat H -> definite_mat H -> left_inverse W H -> o + mrows P <= mrows H ->
  (forall i j, i < mrows P -> j < mrows P -> mat_at P i j = mat_at W (o + i) (o + j)) -> definite_mat P.
Proof.
  intros HS HD HW Ho HP x Lx (i0 & Hi0 & Hx). set (n := mrows H). set (d := mrows P) in *.
  set (y := map (fun k => rsum d (fun j => mat_at W k (o + j) * nth j x 0)%R) (seq 0 n)).
  assert (Ly : length y = n) by (unfold y; rewrite map_length, seq_length; auto).
  assert (Yk : forall k, k < n -> nth k y 0%R = rsum d (fun j => mat_at W k (o + j) * nth j x 0)%R).
  { intros k Hk. unfold y. rewrite nth_indep with (d' := (fun k => rsum d (fun j => mat_at W k (o + j) * nth j x 0)%R) 0) by (rewrite map_length, seq_length; auto).
    rewrite (map_nth (fun k => rsum d (fun j => mat_at W k (o + j) * nth j x 0)%R)), seq_nth by auto. reflexivity. }
  assert (Hy : forall k, k < n -> rsum n (fun l => mat_at H k l * nth l y 0)%R = rsum d (fun j => (if k =? o + j then 1 else 0) * nth j x 0)%R).
  { intros k Hk. transitivity (rsum n (fun l => rsum d (fun j => mat_at H k l * mat_at W l (o + j) * nth j x 0)%R)).
    - apply rsum_ext. intros l Hl. rewrite Yk by auto. rewrite <- rsum_scal. apply rsum_ext. intros j Hj. apply eq_sym, Rmult_assoc.
    - rewrite rsum_swap. apply rsum_ext. intros j Hj. rewrite rsum_scal_r. apply (f_equal (fun t : R => (t * nth j x 0)%R)). apply (right_inverse H W HS HW k (o + j)); fold n; fold n in Ho; lia. }
  assert (Q : quad_form H y = quad_form P x).
  { unfold quad_form. fold n d. transitivity (rsum n (fun k => nth k y 0 * rsum d (fun j => (if k =? o + j then 1 else 0) * nth j x 0))%R).
    - apply rsum_ext. intros k Hk. rewrite <- (Hy k Hk), <- rsum_scal. apply rsum_ext. intros l Hl. apply Rmult_assoc.
    - transitivity (rsum n (fun k => rsum d (fun j => nth k y 0 * ((if k =? o + j then 1 else 0) * nth j x 0)))%R).
      { apply rsum_ext. intros k Hk. symmetry. apply rsum_scal. }
      rewrite rsum_swap. transitivity (rsum d (fun j => nth j x 0 * nth (o + j) y 0)%R).
      + apply rsum_ext. intros j Hj. rewrite (rsum_single n (o + j)); [rewrite Nat.eqb_refl; ring|fold n in Ho; lia|].
        intros k Hk Hne. destruct (Nat.eqb_spec k (o + j)); [congruence|ring].
      + apply rsum_ext. intros i Hi. rewrite Yk by (fold n in Ho; lia). rewrite <- rsum_scal. apply rsum_ext. intros j Hj.
        rewrite <- HP by auto. match goal with |- ?a = ?b => change (@eq R a b) end. ring. }
  rewrite <- Q. apply HD; [exact Ly|].
  assert (NZ : rsum n (fun l => mat_at H (o + i0) l * nth l y 0)%R <> 0%R).
  { rewrite Hy by (fold n in Ho; lia). rewrite (rsum_single d i0); auto.
    - rewrite Nat.eqb_refl, Rmult_1_l. exact Hx.
    - intros j Hj Hne. destruct (Nat.eqb_spec (o + i0) (o + j)); [lia|ring]. }
  destruct (rsum_nonzero _ _ NZ) as (l & Hl & Hz). exists l. split; auto. intros X. apply Hz. rewrite X. apply Rmult_0_r.
Qed.

Section Available.
Context {V : Type} (VC : vclass RN V) {S : Type} (SV : solver RN S).
Notation pstate := (pstate (N:=RN) (V:=V) (S:=S)).
Hypothesis HF : factorising_solver SV.

Lemma inverse_exists s H : symmetric_mat H -> sv_ok SV (sv_compute SV s H) = true -> exists W, left_inverse (N:=RN) W H.
Proof.
  intros HS Ho. destruct HF as (holds & A & B & C & _). pose proof HS as (Sq & Sy).
  set (I := Mat (N:=RN) (mrows H) (mrows H) (fun i j => if i =? j then nlit 1 else nzero)).
  destruct (sv_solve_mat SV (sv_compute SV s H) I) as [s' X] eqn:E. destruct (C _ H I _ _ (A s H HS) eq_refl E) as (_ & _ & Y). specialize (Y Ho).
  destruct Y as (Y1 & Y2 & Y3). exists (Mat (mcols H) (mrows H) (fun i j => mat_at X j i)). split; [reflexivity|]. split; [reflexivity|].
  cbn [mat_at mrows mcols]. intros i j Hi Hj. rewrite Sq in Hi, Hj. specialize (Y3 j i Hj Hi). cbn [mat_at I] in Y3. rewrite vsum_seq, Sq in Y3. rewrite vsum_seq.
  rewrite Nat.eqb_sym. etransitivity; [|exact Y3]. apply rsum_ext. intros k Hk. rewrite (Sy j k) by auto. apply Rmult_comm.
Qed.

Lemma reals_finite (P : mat RN) : all_finite P = true.
Proof. unfold all_finite. apply forallb_forall. intros i _. apply forallb_forall. reflexivity. Qed.

Theorem covariance_available (p : pstate) J H : p_hvalid p = false -> p_complete p = true ->
  omap sp_dense (sparse_jacobian (p_graph p)) = Ok J -> 0 < mcols J -> is_gram J H ->
  exists p1, prepare SV p = (p1, Ok tt) /\
    ((exists x, unobservable J x) /\ (forall a v, nth_error (p_heap p) a = Some v -> snd (estimate_covariance VC SV (Some a) p1) = Ok None) \/
     (forall x, ~ unobservable J x) /\ exists W, left_inverse W H /\
       forall a v pl, nth_error (p_heap p) a = Some v -> vconst VC v = false -> 0 < vsize VC v ->
         variable_placement (p_graph p) (vid VC v) = Some pl -> 0 < vp_dim pl -> vp_index pl + vp_dim pl <= mcols J ->
         (exists P, snd (estimate_covariance VC SV (Some a) p1) = Ok (Some P) /\ mrows P = vp_dim pl /\ mcols P = vp_dim pl /\
            (forall i j, i < vp_dim pl -> j < vp_dim pl -> mat_at P i j = mat_at W (vp_index pl + i) (vp_index pl + j)) /\
            symmetric_mat P /\ definite_mat P /\ (forall i, i < vp_dim pl -> (mat_at P i i <= 1000000000000)%R)) \/
         snd (estimate_covariance VC SV (Some a) p1) = Ok None /\
           exists i, i < vp_dim pl /\ (1000000000000 < mat_at W (vp_index pl + i) (vp_index pl + i))%R).
Proof.
  intros Hv Hc HJ Hcol HG.
  assert (HS : symmetric_mat H).
  { destruct HG as (G1 & G2 & G3). split; [congruence|]. intros i j Hi Hj. rewrite G1 in Hi, Hj. rewrite !G3 by auto. rewrite !vsum_seq. apply rsum_ext. intros k _. apply Rmult_comm. }
  assert (Hsame : forall i j, i < mcols J -> j < mcols J -> mat_at H i j = mat_at (jtj J) i j).
  { destruct HG as (_ & _ & G3). intros i j Hi Hj. rewrite G3 by auto. reflexivity. }
  pose proof HG as (G1 & G2 & _).
  assert (Dsame : definite_mat (jtj J) -> definite_mat H).
  { intros D x L Hx. rewrite G1 in L, Hx. specialize (D x L Hx). unfold quad_form in *. rewrite G1. change (mrows (jtj J)) with (mcols J) in D.
    erewrite rsum_ext; [exact D|]. intros i Hi. apply rsum_ext. intros j Hj. rewrite Hsame by auto. reflexivity. }
  set (s1 := sv_compute SV (p_solver p) (jtj J)).
  destruct (sv_ok SV s1) eqn:Eo.
  - destruct (pivots_there SV HF _ _ _ _ (fits_gram J) Eo Hcol) as (mn & mx & Emn & _).
    exists (w_hvalid true (w_nfact (w_solver s1 (w_hess (jtj J) p)))). split.
    { unfold prepare. rewrite Hv, Hc. cbn [negb]. unfold mbind at 1. rewrite HJ. unfold mbind, mupd, m_factorize, get, lift. cbn [p_solver w_hess].
      fold s1. rewrite Eo. cbn [negb p_solver w_nfact w_solver]. fold s1 in Emn. rewrite Emn. reflexivity. }
    right. pose proof (accepted SV HF _ _ _ _ (fits_gram J) Eo) as HD. split; [apply definite_observable; exact HD|].
    assert (EW : exists W, left_inverse (N:=RN) W H).
    { destruct (inverse_exists _ _ (gram_sym J) Eo) as (W & W1 & W2 & W3). exists W. change (mrows (jtj J)) with (mcols J) in *. change (mcols (jtj J)) with (mcols J) in *.
      split; [congruence|]. split; [congruence|]. rewrite G2. intros i j Hi Hj. rewrite <- (W3 i j Hi Hj). rewrite !vsum_seq. apply rsum_ext. intros k Hk.
      rewrite Hsame by congruence. reflexivity. }
    destruct EW as (W & HW). exists W. split; auto. intros a v pl Ha Hcv Hs Hpl Hd Hfit.
    set (o := vp_index pl) in *. set (d := vp_dim pl) in *.
    pose proof (inv_sym H W (mcols J) G1 G2 (fun i j Hi Hj => proj2 HS i j ltac:(rewrite G1; exact Hi) ltac:(rewrite G1; exact Hj)) HW) as Ws.
    unfold estimate_covariance, hget. cbn [p_heap w_hvalid w_nfact w_solver w_hess]. rewrite Ha, Hcv. cbn [orb].
    destruct (Nat.eqb_spec (vsize VC v) 0) as [X|_]; [lia|]. cbn [p_complete p_hvalid p_hess p_graph w_hvalid w_nfact w_solver w_hess]. rewrite Hc. cbn [negb orb].
    change (mrows (jtj J)) with (mcols J). change (mcols (jtj J)) with (mcols J). destruct (Nat.eqb_spec (mcols J) 0) as [X|_]; [lia|]. cbn [orb].
    rewrite Hpl. fold o d. rewrite (proj2 (Nat.leb_le _ _) Hfit). cbn [negb].
    set (B := Mat (N:=RN) (mcols J) d (fun i j => if i =? o + j then nlit 1 else nzero)).
    cbn [p_solver w_hvalid w_nfact w_solver]. destruct (sv_solve_mat SV s1 B) as [s2 X] eqn:Es. cbn [fst snd].
    pose proof HF as (holds & F1 & F2 & F3 & _). destruct (F3 _ (jtj J) B _ _ (F1 (p_solver p) (jtj J) (gram_sym J)) eq_refl Es) as (_ & K1 & K2).
    fold s1 in K1, K2. specialize (K2 Eo). destruct K2 as (K2 & K3 & K4). change (mcols (jtj J)) with (mcols J) in *. change (mrows (jtj J)) with (mcols J) in *. cbn [mcols B] in K3, K4.
    rewrite K1, Eo. cbn [negb]. rewrite K2, K3. cbn [mcols B]. rewrite (proj2 (Nat.leb_le _ _) Hfit), Nat.leb_refl. cbn [negb andb].
    set (P0 := Mat (N:=RN) d d (fun i j => mat_at X (o + i) j)). rewrite reals_finite. cbn [negb].
    (* X is the block column of W *)
    assert (HX : forall i j, i < mcols J -> j < d -> mat_at X i j = mat_at W i (o + j)).
    { intros i j Hi Hj. pose proof HW as (L1 & L2 & L3).
      assert (Wl : forall l, l < mcols J -> rsum (mcols J) (fun k => mat_at W i k * mat_at H k l)%R = if i =? l then 1%R else 0%R).
      { intros l Hl. specialize (L3 i l). rewrite vsum_seq, L1, G1 in L3. rewrite L2, G2 in L3. etransitivity; [exact (L3 Hi Hl)|]. destruct (i =? l); [apply rlit1|apply lit_zero]. }
      transitivity (rsum (mcols J) (fun l => (if i =? l then 1 else 0) * mat_at X l j)%R); [symmetry; exact (delta_sum _ i (fun l => mat_at X l j) Hi)|].
      transitivity (rsum (mcols J) (fun l => rsum (mcols J) (fun k => mat_at W i k * mat_at H k l * mat_at X l j)%R)).
      { apply rsum_ext. intros l Hl. rewrite rsum_scal_r, Wl by auto. reflexivity. }
      rewrite rsum_swap. transitivity (rsum (mcols J) (fun k => (if o + j =? k then 1 else 0) * mat_at W i k)%R); [|apply (delta_sum _ (o + j) (fun k => mat_at W i k)); lia].
      apply rsum_ext. intros k Hk. specialize (K4 k j Hk Hj). rewrite vsum_seq in K4. cbn [mat_at B] in K4.
      transitivity (mat_at W i k * rsum (mcols J) (fun l => mat_at (jtj J) k l * mat_at X l j))%R.
      - rewrite <- rsum_scal. apply rsum_ext. intros l Hl. rewrite Hsame by auto. apply Rmult_assoc.
      - etransitivity; [exact (f_equal (fun t : R => (mat_at W i k * t)%R) K4)|]. rewrite Nat.eqb_sym. destruct (o + j =? k).
        + etransitivity; [exact (f_equal (fun t : R => (mat_at W i k * t)%R) rlit1)|]. rewrite Rmult_1_l. apply Rmult_1_r.
        + etransitivity; [exact (f_equal (fun t : R => (mat_at W i k * t)%R) lit_zero)|]. rewrite Rmult_0_l. apply Rmult_0_r. }
    destruct (vmax (diag_of P0)) as [mxd|e|u] eqn:Em.
    2,3: destruct (diag_of P0) eqn:Ed; [|discriminate]; unfold diag_of in Ed; cbn [mrows P0] in Ed; destruct d; [lia|discriminate].
    apply (vmax_ok (diag_of P0)) in Em. destruct Em as (M1 & M2). unfold diag_of in M1. cbn [mrows P0] in M1. apply in_map_iff in M1. destruct M1 as (i0 & Mi & Hi0).
    apply in_seq in Hi0. cbn [mat_at P0] in Mi. destruct Hi0 as (_ & Hi0). cbn in Hi0.
    destruct (nltb _ mxd) eqn:Et; cbn [snd].
    + right. split; auto. exists i0. split; auto. change (Rltb (nlit (n:=RN) 1000000000000) mxd = true) in Et. rewrite lit_huge in Et. apply Rltb_true in Et.
      rewrite <- HX by lia. rewrite Mi. exact Et.
    + left. exists (symmetrise P0). split; auto. split; [reflexivity|]. split; [reflexivity|].
      assert (HP : forall i j, i < d -> j < d -> mat_at (symmetrise P0) i j = mat_at W (o + i) (o + j)).
      { intros i j Hi Hj. unfold symmetrise. cbn [mat_at P0]. rewrite !HX by lia. rewrite (Ws (o + j) (o + i)) by lia.
        assert (Av : forall t : R, nmul (n:=RN) (nlit (1#2)) (nadd t t) = t) by (intros t; change (nlit (n:=RN) (1#2) * (t + t) = t)%R; rewrite lit_half; lra).
        destruct (j <=? i); rewrite ?Av; reflexivity. }
      split; auto. split; [|split].
      * split; [reflexivity|]. cbn [mrows symmetrise P0]. intros i j Hi Hj. rewrite !HP by auto. apply Ws; lia.
      * apply (block_definite H W (symmetrise P0) o HS (Dsame HD) HW); [cbn [mrows symmetrise P0]; lia|]. exact HP.
      * intros i Hi. rewrite HP by auto. rewrite <- HX by lia. apply Rle_trans with mxd.
        -- apply M2. unfold diag_of. cbn [mrows P0]. apply in_map_iff. exists i. split; [reflexivity|]. apply in_seq. lia.
        -- change (Rltb (nlit (n:=RN) 1000000000000) mxd = false) in Et. rewrite lit_huge in Et. apply Rltb_false in Et. exact Et.
  - exists (w_nfact (w_solver s1 (w_hess (jtj J) p))). split.
    { unfold prepare. rewrite Hv, Hc. cbn [negb]. unfold mbind at 1. rewrite HJ. unfold mbind, mupd, m_factorize, get, lift. cbn [p_solver w_hess].
      fold s1. rewrite Eo. reflexivity. }
    left. split.
    + destruct (refused SV HF _ _ _ _ (fits_gram J) Eo) as (x & i & X1 & X2 & X3 & X4). rewrite damped_zero in X4. exists x. split; auto.
      split; [exists i; split; auto; rewrite X3; lra|]. apply image_zero. exact X4.
    + intros a v Ha. unfold estimate_covariance, hget. cbn [p_heap w_nfact w_solver w_hess]. rewrite Ha. destruct (_ || _); auto.
      cbn [p_complete p_hvalid w_nfact w_solver w_hess]. rewrite Hc, Hv. reflexivity.
Qed.
End Available.
