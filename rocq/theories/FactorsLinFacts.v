(** Over the reals the residuals of GenericPriorFactor and GenericBetweenFactor are affine in their variables, with the
    Jacobian blocks the factors return. *)
From Coq Require Import List Arith ZArith QArith Bool Reals Lra Lia.
From Verif Require Import Base Sparse Graph SpecGraph ListLemmas FactorsLin Real RSum SpecSolver.
Import ListNotations.
Local Open Scope nat_scope.

Section Lin.
Context {V : Type} (VC : vclass RN V).
Notation factor := (factor (N:=RN) (V:=V)).

Lemma nth_vsub (a b : list R) i : length a = length b -> i < length a -> nth i (vsub (N:=RN) a b) 0%R = (nth i a 0 - nth i b 0)%R.
Proof.
  revert b i. induction a as [|x a IH]; intros [|y b] i L Hi; simpl in *; try lia. destruct i; simpl; [reflexivity|]. apply IH; lia.
Qed.
Lemma nth_vscale (w : R) (a : list R) i : nth i (vscale (N:=RN) w a) 0%R = (w * nth i a 0)%R.
Proof. revert i. induction a as [|x a IH]; intros [|i]; simpl; try lra; auto. Qed.
Lemma vsub_length (a b : list R) : length (vsub (N:=RN) a b) = min (length a) (length b).
Proof. unfold vsub, vzip. rewrite map_length, combine_length. reflexivity. Qed.
Lemma vscale_length (w : R) (a : list R) : length (vscale (N:=RN) w a) = length a.
Proof. apply map_length. Qed.
Lemma diag_sum n (w : R) (f : nat -> R) i : i < n -> rsum n (fun c => mat_at (diagm (N:=RN) n w) i c * f c)%R = (w * f i)%R.
Proof.
  intros Hi. rewrite (rsum_single n i); [simpl; rewrite Nat.eqb_refl; reflexivity|auto|].
  intros k _ Hk. simpl. rewrite (proj2 (Nat.eqb_neq i k)) by auto. change (nlit (n:=RN) 0) with (nzero (N:=RN)).
  change ((nzero (N:=RN) : R) * f k = 0)%R. rewrite lit_zero. lra.
Qed.

(** ** GenericPriorFactor *)
Lemma gprior_value (a : addr) prior (w : R) (h : @heap V) v : nth_error h a = Some v -> length (vval VC v) = length prior ->
  gprior_res VC a prior w h = Ok (vscale (N:=RN) w (vsub (N:=RN) (vval VC v) prior)).
Proof.
  intros Ha L. unfold gprior_res, hget. rewrite Ha. simpl. unfold vec_minus.
  match goal with |- context [if ?b then _ else _] => replace b with true by (symmetry; apply Nat.eqb_eq; exact L) end. reflexivity.
Qed.
Definition gprior_blocks (v : V) (n : nat) (w : R) : list (mat RN) := if vconst VC v then [mempty; mempty] else [diagm n w].
Lemma gprior_jac_value (a : addr) n (w : R) (h : @heap V) v : nth_error h a = Some v ->
  gprior_jac VC a n w h = (gprior_blocks v n w, Ok tt).
Proof. intros Ha. unfold gprior_jac, hget, gprior_blocks. rewrite Ha. simpl. destruct (vconst VC v); reflexivity. Qed.
Lemma gprior_blocks_ok (a : addr) n (w : R) (h : @heap V) v : nth_error h a = Some v -> vsize VC v = n ->
  blocks_ok VC h n [Some a] (gprior_blocks v n w).
Proof.
  intros Ha L. unfold gprior_blocks. split; [destruct (vconst VC v); simpl; lia|].
  intros q b v' J Hq Hb HJ. destruct q as [|[|q]]; simpl in Hq; inversion Hq; subst b. assert (v' = v) by congruence. subst v'.
  destruct (vconst VC v); simpl in HJ; inversion HJ; simpl; auto.
Qed.
Lemma gprior_affine id (a : addr) prior sigma (h : @heap V) vs v :
  nth_error h a = Some v -> In a vs -> length (vval VC v) = vsize VC v -> vsize VC v = length prior ->
  affine_at VC h vs (generic_prior VC id a prior sigma) (gprior_blocks v (length prior) (1 / sigma)).
Proof.
  intros Ha Hin Hl Hs h' [Hlen Hr]. destruct (Hr a v Ha) as (v' & Ha' & _ & Hsz & Hc & Hk & Hn).
  assert (L' : length (vval VC v') = length prior).
  { destruct (vconst VC v) eqn:Ec; [rewrite Hk by auto; congruence|]. rewrite Hn by auto. congruence. }
  assert (L : length (vval VC v) = length prior) by congruence.
  cbn [generic_prior f_res_ref f_rsize f_vars]. rewrite (gprior_value _ _ _ _ _ Ha L), (gprior_value _ _ _ _ _ Ha' L').
  eexists. eexists. split; [reflexivity|]. split; [reflexivity|].
  split; [|split]; [rewrite vscale_length, vsub_length; apply Nat.min_r; apply Nat.eq_le_incl; symmetry; first [exact L|exact L']..|].
  intros i Hi. rewrite !nth_vscale, !nth_vsub
    by first [exact L|exact L'|refine (eq_ind_r (fun n => i < n) Hi L)|refine (eq_ind_r (fun n => i < n) Hi L')].
  unfold block_term, rsum. cbn [length nth_error]. rewrite Ha, Ha'. unfold gprior_blocks.
  assert (W : (nunit (N:=RN) / sigma = 1 / sigma)%R) by (change (nunit (N:=RN)) with (nlit (n:=RN) (1#1)); rewrite lit_int; reflexivity).
  change (@ndiv RN (@nunit RN) sigma) with ((nunit (N:=RN) : R) / sigma)%R. rewrite W.
  destruct (vconst VC v) eqn:Ec; cbn [nth_error].
  - rewrite Hk by auto. lra.
  - fold rsum. rewrite Hs, diag_sum by auto. change (car RN) with R. ring.
Qed.
(** ** GenericBetweenFactor: b - a - d, all of the same size *)
Definition gbetween_blocks (va vb vd : V) (n : nat) (w : R) : list (mat RN) :=
  [if vconst VC va then mempty else diagm n (- w)%R; if vconst VC vb then mempty else diagm n w; if vconst VC vd then mempty else diagm n (- w)%R].
Lemma gbetween_value (a b d : addr) (w : R) (h : @heap V) va vb vd n :
  nth_error h a = Some va -> nth_error h b = Some vb -> nth_error h d = Some vd ->
  length (vval VC va) = n -> length (vval VC vb) = n -> length (vval VC vd) = n ->
  gbetween_res VC a b d w h = Ok (vscale (N:=RN) w (vsub (N:=RN) (vsub (N:=RN) (vval VC vb) (vval VC va)) (vval VC vd))).
Proof.
  intros Ha Hb Hd La Lb Ld. unfold gbetween_res, hget. rewrite Ha, Hb, Hd. simpl. unfold vec_minus.
  match goal with |- context [if ?x then _ else _] => replace x with true by (symmetry; apply Nat.eqb_eq; congruence) end. simpl.
  match goal with |- context [if ?x then _ else _] => replace x with true end; [reflexivity|].
  symmetry. apply Nat.eqb_eq. etransitivity; [apply vsub_length|]. change (car RN) with R in *. lia.
Qed.
Lemma gbetween_jac_value (a b d : addr) n (w : R) (h : @heap V) va vb vd :
  nth_error h a = Some va -> nth_error h b = Some vb -> nth_error h d = Some vd ->
  gbetween_jac VC a b d n w h = (gbetween_blocks va vb vd n w, Ok tt).
Proof.
  intros Ha Hb Hd. unfold gbetween_jac, block_for, hget, gbetween_blocks. rewrite Ha, Hb, Hd. simpl. reflexivity.
Qed.
Lemma gbetween_blocks_ok (a b d : addr) n (w : R) (h : @heap V) va vb vd :
  nth_error h a = Some va -> nth_error h b = Some vb -> nth_error h d = Some vd -> vsize VC va = n -> vsize VC vb = n -> vsize VC vd = n ->
  blocks_ok VC h n [Some a; Some b; Some d] (gbetween_blocks va vb vd n w).
Proof.
  intros Ha Hb Hd La Lb Ld. split; [simpl; lia|].
  intros q c v' J Hq Hc HJ. destruct q as [|[|[|q]]]; [| | |destruct q; discriminate]; simpl in Hq; inversion Hq; subst; simpl in HJ; inversion HJ;
    [assert (v' = va) by congruence|assert (v' = vb) by congruence|assert (v' = vd) by congruence];
    subst v'; destruct (vconst VC _); simpl; auto.
Qed.
Lemma gbetween_affine id (a b d : addr) n sigma (h : @heap V) vs va vb vd :
  nth_error h a = Some va -> nth_error h b = Some vb -> nth_error h d = Some vd ->
  (In a vs /\ In b vs /\ In d vs) -> vsize VC va = n -> vsize VC vb = n -> vsize VC vd = n ->
  length (vval VC va) = n -> length (vval VC vb) = n -> length (vval VC vd) = n ->
  affine_at VC h vs (generic_between VC id a b d n sigma) (gbetween_blocks va vb vd n (1 / sigma)).
Proof.
  intros Ha Hb Hd (Ia & Ib & Id) Sa Sb Sd La Lb Ld h' [Hlen Hr].
  destruct (Hr a va Ha) as (va' & Ha' & _ & _ & _ & Ka & Na).
  destruct (Hr b vb Hb) as (vb' & Hb' & _ & _ & _ & Kb & Nb).
  destruct (Hr d vd Hd) as (vd' & Hd' & _ & _ & _ & Kd & Nd).
  assert (La' : length (vval VC va') = n) by (destruct (vconst VC va) eqn:E; [rewrite Ka by auto; auto|rewrite Na by auto; auto]).
  assert (Lb' : length (vval VC vb') = n) by (destruct (vconst VC vb) eqn:E; [rewrite Kb by auto; auto|rewrite Nb by auto; auto]).
  assert (Ld' : length (vval VC vd') = n) by (destruct (vconst VC vd) eqn:E; [rewrite Kd by auto; auto|rewrite Nd by auto; auto]).
  cbn [generic_between f_res_ref f_rsize f_vars].
  rewrite (gbetween_value _ _ _ _ _ _ _ _ n Ha Hb Hd La Lb Ld), (gbetween_value _ _ _ _ _ _ _ _ n Ha' Hb' Hd' La' Lb' Ld').
  eexists. eexists. split; [reflexivity|]. split; [reflexivity|].
  split; [|split]; [rewrite vscale_length, !vsub_length; change (car RN) with R in *; lia..|].
  intros i Hi. rewrite !nth_vscale, !nth_vsub by (rewrite ?vsub_length; change (car RN) with R in *; lia).
  unfold block_term, rsum. cbn [length nth_error]. rewrite Ha, Ha', Hb, Hb', Hd, Hd'. unfold gbetween_blocks. cbn [nth_error]. fold rsum.
  assert (W : (nunit (N:=RN) / sigma = 1 / sigma)%R) by (change (nunit (N:=RN)) with (nlit (n:=RN) (1#1)); rewrite lit_int; reflexivity).
  change (@ndiv RN (@nunit RN) sigma) with ((nunit (N:=RN) : R) / sigma)%R. rewrite W. rewrite Sa, Sb, Sd.
  destruct (vconst VC va) eqn:Ea; [rewrite Ka by auto|rewrite (diag_sum n (- (1 / sigma))%R) by auto];
  (destruct (vconst VC vb) eqn:Eb; [rewrite Kb by auto|rewrite (diag_sum n (1 / sigma)%R) by auto]);
  (destruct (vconst VC vd) eqn:Ed; [rewrite Kd by auto|rewrite (diag_sum n (- (1 / sigma))%R) by auto]);
  change (car RN) with R; ring.
Qed.
End Lin.
