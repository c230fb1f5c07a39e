(** The library's variables in another planar frame. *)
From Coq Require Import List Arith ZArith QArith Bool Reals Lra Lia.
From Verif Require Import Base Sparse Graph SpecGraph ListLemmas Geom Vars Real RSum GeomR Trig FactorsLin FactorsGeo FactorLib SpecTwin TwinGraph MovedVars OptOrder SpecBlocks SpecChange Change UnitsVars SpecFrame.
Import ListNotations.
Local Open Scope R_scope.
Set Bullet Behavior "Strict Subproofs".

Lemma wrap_cos a : cos (wrap_angle (N:=RN) a) = cos a.
Proof. destruct (wrap_spec a) as (_ & B & _). exact B. Qed.
Lemma wrap_sin a : sin (wrap_angle (N:=RN) a) = sin a.
Proof. destruct (wrap_spec a) as (_ & _ & B). exact B. Qed.
Lemma wrap_same a b : same_heading a b -> wrap_angle (N:=RN) a = wrap_angle (N:=RN) b.
Proof. intros (A & B). unfold wrap_angle. cbn. rewrite A, B. reflexivity. Qed.
Lemma heading_plus a b c : same_heading a b -> same_heading (a + c) (b + c).
Proof. intros (A & B). split; [rewrite !cos_plus|rewrite !sin_plus]; rewrite A, B; reflexivity. Qed.
Lemma heading_minus a b c d : same_heading a b -> same_heading c d -> same_heading (a - c) (b - d).
Proof. intros (A & B) (C & D). split; [rewrite !cos_minus|rewrite !sin_minus]; rewrite A, B, C, D; reflexivity. Qed.

Section Frame.
Context (phi tx ty : R) (ro : addr -> role).
Notation RV := (reframed_var phi tx ty ro).
Notation heap := (@heap (lvar RN)).
Notation turned_to := (turned_to phi).
Notation turning := (turning phi).
Notation turning_of := (turning_of phi ro).

Lemma circle : cos phi * cos phi + sin phi * sin phi = 1.
Proof. pose proof (sin2_cos2 phi) as H. unfold Rsqr in H. lra. Qed.
Lemma rsum2 n (g : nat -> R) : (2 <= n)%nat -> (forall i, (2 <= i < n)%nat -> g i = 0) -> rsum n g = g 0%nat + g 1%nat.
Proof.
  intros Hn Hz. destruct n as [|[|n]]; [lia|lia|]. clear Hn. induction n; [cbn; lra|]. 
  change (rsum (S (S (S n))) g) with (rsum (S (S n)) g + g (S (S n)))%R. rewrite IHn by (intros; apply Hz; lia). rewrite (Hz (S (S n))) by lia. lra.
Qed.
Lemma turning_sum n i (g : nat -> R) : (2 <= n)%nat -> (i < n)%nat ->
  rsum n (fun e => turning i e * g e) = match i with O => cos phi * g 0%nat - sin phi * g 1%nat | S O => sin phi * g 0%nat + cos phi * g 1%nat | _ => g i end.
Proof.
  intros Hn Hi. destruct i as [|[|i]].
  - rewrite rsum2; [cbn; ring|exact Hn|]. intros [|[|e]] He; try lia. cbn. ring.
  - rewrite rsum2; [cbn; ring|exact Hn|]. intros [|[|e]] He; try lia. cbn. ring.
  - rewrite (rsum_single n (S (S i))); [cbn; rewrite Nat.eqb_refl; ring|exact Hi|]. intros e He Hne. destruct e as [|[|e]]; cbn; try ring. destruct (Nat.eqb_spec i e); [subst; lia|ring].
Qed.
Lemma turning_sum_r n c (g : nat -> R) : (2 <= n)%nat -> (c < n)%nat ->
  rsum n (fun e => g e * turning e c) = match c with O => cos phi * g 0%nat + sin phi * g 1%nat | S O => cos phi * g 1%nat - sin phi * g 0%nat | _ => g c end.
Proof.
  intros Hn Hc. destruct c as [|[|c]].
  - rewrite rsum2; [cbn; ring|exact Hn|]. intros [|[|e]] He; try lia. cbn. ring.
  - rewrite rsum2; [cbn; ring|exact Hn|]. intros [|[|e]] He; try lia. cbn. ring.
  - rewrite (rsum_single n (S (S c))); [cbn; rewrite Nat.eqb_refl; ring|exact Hc|]. intros e He Hne. destruct e as [|[|e]]; cbn; try ring. destruct (Nat.eqb_spec e c); [subst; lia|ring].
Qed.
Lemma still_sum n i (g : nat -> R) : (i < n)%nat -> rsum n (fun e => (if (i =? e)%nat then 1 else 0) * g e) = g i.
Proof. intros Hi. rewrite (rsum_single n i); [rewrite Nat.eqb_refl; ring|exact Hi|]. intros e _ He. destruct (Nat.eqb_spec i e); [subst; contradiction|ring]. Qed.
Lemma still_sum_r n i (g : nat -> R) : (i < n)%nat -> rsum n (fun e => g e * (if (e =? i)%nat then 1 else 0)) = g i.
Proof. intros Hi. rewrite (rsum_single n i); [rewrite Nat.eqb_refl; ring|exact Hi|]. intros e _ He. destruct (Nat.eqb_spec e i); [subst; contradiction|ring]. Qed.
(** columns of the turn are orthonormal *)
Lemma turning_orthogonal n j k : (2 <= n)%nat -> (j < n)%nat -> (k < n)%nat -> rsum n (fun i => turning i j * turning i k) = if (j =? k)%nat then 1 else 0.
Proof.
  intros Hn Hj Hk. pose proof circle as C. rewrite (turning_sum_r n k (fun i => turning i j) Hn Hk). destruct k as [|[|k]], j as [|[|j]]; cbn; try ring; try lra.
  destruct (Nat.eqb_spec k j), (Nat.eqb_spec j k); congruence.
Qed.
Lemma turning_inverse n j k : (2 <= n)%nat -> (j < n)%nat -> (k < n)%nat -> rsum n (fun e => turning j e * turning k e) = if (j =? k)%nat then 1 else 0.
Proof.
  intros Hn Hj Hk. pose proof circle as C. rewrite (turning_sum n j (fun e => turning k e) Hn Hj). destruct j as [|[|j]], k as [|[|k]]; cbn; try ring; try lra.
  destruct (Nat.eqb_spec k j), (Nat.eqb_spec j k); congruence.
Qed.

Lemma reframed_size a v v' : RV a v v' -> ksize (l_kind v') = ksize (l_kind v).
Proof.
  intros (_ & _ & H). destruct (ro a); [| |rewrite H; reflexivity]; destruct (l_kind v), (l_kind v'); try contradiction; try reflexivity; destruct H as (p & q & z & -> & ->); reflexivity.
Qed.
(** what is turned has at least two elements *)
Lemma turned_size a v v' : RV a v v' -> ro a <> Still -> (2 <= ksize (l_kind v))%nat.
Proof.
  intros (_ & _ & H) Hr. destruct (ro a); [| |contradiction]; destruct (l_kind v), (l_kind v'); try contradiction; cbn; try lia; destruct H as (p & q & z & -> & _); cbn; lia.
Qed.
Lemma turned_add dx dy x x' d d' : length d = length x -> turned_to dx dy x x' -> turned_to 0 0 d d' -> turned_to dx dy (vadd (N:=RN) x d) (vadd (N:=RN) x' d').
Proof.
  intros L (p & q & z & -> & ->) (p1 & q1 & z1 & -> & ->). unfold vadd, vzip. cbn [combine map fst snd]. eexists _, _, _. split; [reflexivity|]. cbn. do 2 (apply f_equal2; [rring|]). reflexivity.
Qed.
Lemma increment_turned a n d d' : ro a <> Still -> (2 <= n)%nat -> length d = n -> length d' = n ->
  (forall c, (c < n)%nat -> nth c d' 0 = rsum n (fun e => turning_of a c e * nth e d 0)) -> turned_to 0 0 d d'.
Proof.
  intros Hr Hn L L' H. assert (G : forall c, (c < n)%nat -> nth c d' 0 = rsum n (fun e => turning c e * nth e d 0)).
  { intros c Hc. rewrite (H c Hc). apply rsum_ext. intros e _. unfold SpecFrame.turning_of. destruct (ro a); [reflexivity..|contradiction]. }
  destruct d as [|p [|q z]]; cbn in L; try lia. destruct d' as [|p' [|q' z']]; cbn in L'; try lia. exists p, q, z. split; [reflexivity|].
  pose proof (G 0%nat ltac:(lia)) as A. pose proof (G 1%nat ltac:(lia)) as B. rewrite turning_sum in A, B by lia. cbn in A, B. subst p' q'. apply f_equal2; [rring|]. apply f_equal2; [rring|].
  apply (nth_ext _ _ 0 0); [lia|]. intros i Hi. pose proof (G (S (S i)) ltac:(lia)) as C. rewrite turning_sum in C by lia. exact C.
Qed.
Lemma increment_still a n d d' : ro a = Still -> length d = n -> length d' = n ->
  (forall c, (c < n)%nat -> nth c d' 0 = rsum n (fun e => turning_of a c e * nth e d 0)) -> d' = d.
Proof.
  intros Hr L L' H. apply (nth_ext _ _ 0 0); [congruence|]. intros i Hi. rewrite L' in Hi. rewrite (H i Hi). rewrite (rsum_ext _ _ (fun e => (if (i =? e)%nat then 1 else 0) * nth e d 0)); [apply still_sum; exact Hi|].
  intros e _. unfold SpecFrame.turning_of. rewrite Hr. reflexivity.
Qed.
Ltac stop := intros X X'; solve [discriminate X | discriminate X'].
Lemma frame_coordinates : coordinates (lib RN) RV turning_of.
Proof.
  constructor.
  - intros a v v' H. split; [exact (reframed_size a v v' H)|symmetry; apply H].
  - exists (fun a e c => turning_of a c e). intros a v v' c c' H Hc Hc'. cbn in Hc, Hc' |- *. pose proof (turned_size a v v' H) as K. unfold SpecFrame.turning_of. destruct (ro a).
    1,2: apply turning_inverse; auto; apply K; discriminate.
    rewrite still_sum by exact Hc. rewrite Nat.eqb_sym. reflexivity.
  - intros a v v' d d' w w' H Ld Ld' Hd. pose proof (turned_size a v v' H) as K. pose proof H as (Hi & Hc & Hk). cbn in Ld, Ld', Hd, K.
    destruct v as [i c k], v' as [i' c' k']. cbn in *. subst i' c'. unfold with_kind, omap. cbn [l_id l_const].
    destruct (ro a) eqn:Er.
    + assert (D : turned_to 0 0 d d') by (apply (increment_turned a (ksize k)); auto; [rewrite Er; discriminate|apply K; discriminate]).
      destruct k as [x|x|x A|x A|o b lo hi x|n e|x], k' as [x'|x'|x' A'|x' A'|o' b' lo' hi' x'|n' e'|x']; try contradiction; cbn [kinc ksize] in *; change (car RN) with R in *.
      * destruct (length d =? length x)%nat eqn:E; [|stop]. destruct (length d' =? length x')%nat; [|stop]. intros X X'. injection X as <-. injection X' as <-.
        split; [reflexivity|]. split; [reflexivity|]. cbn [l_kind]. rewrite Er. apply turned_add; auto.
      * destruct (length d =? 3)%nat; [|stop]. destruct (length d' =? 3)%nat; [|stop]. unfold vec_plus; change (car RN) with R. destruct (length x =? length d)%nat eqn:E; [|stop]. destruct (length x' =? length d')%nat; [|stop]. cbn [obind].
        intros X X'. injection X as <-. injection X' as <-. split; [reflexivity|]. split; [reflexivity|]. cbn [l_kind]. rewrite Er. apply turned_add; auto. apply Nat.eqb_eq in E. symmetry; exact E.
      * destruct Hk as (p & q & t & p' & q' & t' & -> & -> & M & Hh). destruct (length d =? 3)%nat eqn:E; [|stop]. destruct (length d' =? 3)%nat; [|stop]. intros X X'. apply Ok_inj in X. apply Ok_inj in X'. subst w w'.
        split; [reflexivity|]. split; [reflexivity|]. cbn [l_kind]. rewrite Er. apply Nat.eqb_eq in E. destruct D as (d0 & d1 & z & -> & ->). destruct z as [|d2 [|? ?]]; try discriminate E.
        destruct M as (p0 & q0' & z0 & M1 & M2). injection M1 as <- <- <-. injection M2 as -> ->. eexists _, _, _, _, _, _. split; [reflexivity|]. split; [reflexivity|]. split.
        -- eexists _, _, _. split; [reflexivity|]. cbn. do 2 (apply f_equal2; [rring|]). reflexivity.
        -- cbn [nth]. change (nadd (n:=RN)) with Rplus. split; [rewrite wrap_cos, !cos_plus, wrap_cos, wrap_sin|rewrite wrap_sin, !sin_plus, wrap_cos, wrap_sin]; destruct Hh as (Hh1 & Hh2); rewrite Hh1, Hh2; rewrite !cos_plus, !sin_plus; rring.
    + assert (D : turned_to 0 0 d d') by (apply (increment_turned a (ksize k)); auto; [rewrite Er; discriminate|apply K; discriminate]).
      destruct k as [x|x|x A|x A|o b lo hi x|n e|x], k' as [x'|x'|x' A'|x' A'|o' b' lo' hi' x'|n' e'|x']; try contradiction; cbn [kinc ksize] in *; change (car RN) with R in *.
      * destruct (length d =? length x)%nat eqn:E; [|stop]. destruct (length d' =? length x')%nat; [|stop]. intros X X'. injection X as <-. injection X' as <-.
        split; [reflexivity|]. split; [reflexivity|]. cbn [l_kind]. rewrite Er. apply turned_add; auto.
      * destruct (length d =? 3)%nat; [|stop]. destruct (length d' =? 3)%nat; [|stop]. unfold vec_plus; change (car RN) with R. destruct (length x =? length d)%nat eqn:E; [|stop]. destruct (length x' =? length d')%nat; [|stop]. cbn [obind].
        intros X X'. injection X as <-. injection X' as <-. split; [reflexivity|]. split; [reflexivity|]. cbn [l_kind]. rewrite Er. apply turned_add; auto. apply Nat.eqb_eq in E. symmetry; exact E.
      * destruct Hk as (p & q & z0 & -> & ->). destruct (length d =? 3)%nat eqn:E; [|stop]. destruct (length d' =? 3)%nat; [|stop]. intros X X'. apply Ok_inj in X. apply Ok_inj in X'. subst w w'.
        split; [reflexivity|]. split; [reflexivity|]. cbn [l_kind]. rewrite Er. destruct D as (d0 & d1 & z & -> & ->). eexists _, _, _. split; [reflexivity|]. cbn [nth]. change (nadd (n:=RN)) with Rplus. do 2 (apply f_equal2; [rring|]). reflexivity.
    + subst k'. rewrite (increment_still a (ksize k) d d' Er Ld Ld' Hd). intros X X'. rewrite X in X'. apply Ok_inj in X'. subst w'. destruct (kinc k d) as [k2| |]; cbn in X; try discriminate. apply Ok_inj in X. subst w. split; [reflexivity|]. split; [reflexivity|]. rewrite Er. reflexivity.
Qed.
End Frame.
