(** The library's variables in another spatial frame. *)
From Coq Require Import List Arith ZArith QArith Bool Reals Lra Lia.
From Verif Require Import Base Sparse Graph SpecGraph ListLemmas Geom Vars Real RSum SpecGeom GeomR GeomExp GeomLog GeomNear VarsRun Trig FactorsLin FactorsGeo FactorLib SpecTwin TwinGraph OptOrder SpecBlocks SpecChange Change UnitsVars SpecSpace ChangeIf.
Import ListNotations.
Local Open Scope R_scope.
Set Bullet Behavior "Strict Subproofs".

Lemma still_sum n i (g : nat -> R) : (i < n)%nat -> rsum n (fun e => (if (i =? e)%nat then 1 else 0) * g e) = g i.
Proof. intros Hi. rewrite (rsum_single n i); [rewrite Nat.eqb_refl; ring|exact Hi|]. intros e _ He. destruct (Nat.eqb_spec i e); [subst; contradiction|ring]. Qed.
Lemma still_sum_r n i (g : nat -> R) : (i < n)%nat -> rsum n (fun e => g e * (if (e =? i)%nat then 1 else 0)) = g i.
Proof. intros Hi. rewrite (rsum_single n i); [rewrite Nat.eqb_refl; ring|exact Hi|]. intros e _ He. destruct (Nat.eqb_spec e i); [subst; contradiction|ring]. Qed.
Lemma rsum3 n (g : nat -> R) : (3 <= n)%nat -> (forall i, (3 <= i < n)%nat -> g i = 0) -> rsum n g = sum3 g.
Proof.
  intros Hn Hz. destruct n as [|[|[|n]]]; [lia|lia|lia|]. clear Hn. induction n; [unfold sum3; cbn; ring|].
  change (rsum (S (S (S (S n)))) g) with (rsum (S (S (S n))) g + g (S (S (S n))))%R. rewrite IHn by (intros; apply Hz; lia). rewrite (Hz (S (S (S n)))) by lia. ring.
Qed.

Section Frame.
Context (Q : m3 RN) (t : v3 RN) (ro : addr -> role3).
Hypothesis HQ : rotation Q.
Notation RV := (reframed3_var Q t ro).
Notation heap := (@heap (lvar RN)).
Notation turning := (turning3 Q).
Notation turning_of := (turning3_of Q ro).
Definition turned (a : addr) : Prop := match ro a with Place | Difference => True | _ => False end.

Lemma turning_sum n i (g : nat -> R) : (3 <= n)%nat -> (i < n)%nat ->
  rsum n (fun e => turning i e * g e) = if (i <? 3)%nat then sum3 (fun k => ent Q i k * g k) else g i.
Proof.
  intros Hn Hi. unfold turning3. destruct (Nat.ltb_spec i 3) as [H|H].
  - rewrite rsum3; [reflexivity|exact Hn|]. intros e He. cbn [andb]. destruct (Nat.ltb_spec e 3); [lia|]. destruct (Nat.eqb_spec i e); [lia|ring].
  - cbn [andb]. apply still_sum. exact Hi.
Qed.
Lemma turning_sum_r n c (g : nat -> R) : (3 <= n)%nat -> (c < n)%nat ->
  rsum n (fun e => g e * turning e c) = if (c <? 3)%nat then sum3 (fun k => g k * ent Q k c) else g c.
Proof.
  intros Hn Hc. unfold turning3. destruct (Nat.ltb_spec c 3) as [H|H].
  - rewrite rsum3; [reflexivity|exact Hn|]. intros e He. rewrite andb_true_r. destruct (Nat.ltb_spec e 3); [lia|]. destruct (Nat.eqb_spec e c); [lia|ring].
  - rewrite (rsum_ext _ _ (fun e => g e * (if (e =? c)%nat then 1 else 0))) by (intros e _; rewrite andb_false_r; reflexivity). apply still_sum_r. exact Hc.
Qed.
Lemma rot_rows (i j : nat) : (i < 3)%nat -> (j < 3)%nat -> sum3 (fun k => ent Q i k * ent Q j k) = delta i j.
Proof. intros Hi Hj. destruct (rot_t Q HQ) as (A & _). rewrite <- (A i j Hi Hj). unfold sum3. destruct i as [|[|[|i]]], j as [|[|[|j]]]; try lia; reflexivity. Qed.
(** the turn is orthogonal *)
Lemma turning_orthogonal n j k : (3 <= n)%nat -> (j < n)%nat -> (k < n)%nat -> rsum n (fun i => turning i j * turning i k) = if (j =? k)%nat then 1 else 0.
Proof.
  intros Hn Hj Hk. rewrite (turning_sum_r n k (fun i => turning i j) Hn Hk). unfold turning3. destruct (Nat.ltb_spec k 3) as [K|K], (Nat.ltb_spec j 3) as [J|J].
  - transitivity (delta j k); [|reflexivity]. rewrite <- (proj1 HQ j k J K). unfold sum3. destruct k as [|[|[|k]]], j as [|[|[|j]]]; try lia; reflexivity.
  - unfold sum3. rewrite !andb_false_r. destruct (Nat.eqb_spec 0 j), (Nat.eqb_spec 1 j), (Nat.eqb_spec 2 j), (Nat.eqb_spec j k); try lia; ring.
  - rewrite andb_true_r. destruct (Nat.ltb_spec k 3); [lia|]. rewrite Nat.eqb_sym. reflexivity.
  - rewrite andb_false_r. rewrite Nat.eqb_sym. reflexivity.
Qed.
Lemma turning_inverse n j k : (3 <= n)%nat -> (j < n)%nat -> (k < n)%nat -> rsum n (fun e => turning j e * turning k e) = if (j =? k)%nat then 1 else 0.
Proof.
  intros Hn Hj Hk. rewrite (turning_sum n j (fun e => turning k e) Hn Hj). unfold turning3. destruct (Nat.ltb_spec k 3) as [K|K], (Nat.ltb_spec j 3) as [J|J].
  - transitivity (delta j k); [|reflexivity]. rewrite <- (rot_rows j k J K). unfold sum3. destruct k as [|[|[|k]]], j as [|[|[|j]]]; try lia; reflexivity.
  - cbn [andb]. rewrite Nat.eqb_sym. reflexivity.
  - unfold sum3. cbn [andb]. destruct (Nat.eqb_spec k 0), (Nat.eqb_spec k 1), (Nat.eqb_spec k 2), (Nat.eqb_spec j k); try lia; ring.
  - cbn [andb]. rewrite Nat.eqb_sym. reflexivity.
Qed.

Lemma point_alg p p' : point_to Q t p p' <-> p' = v3add (m3v Q p) t.
Proof.
  clear HQ. split.
  - intros H. apply v3_eq. intros i Hi. rewrite (H i Hi). destruct Q, p, t. destruct i as [|[|[|i]]]; try lia; gx; reflexivity.
  - intros -> i Hi. destruct Q, p, t. destruct i as [|[|[|i]]]; try lia; gx; reflexivity.
Qed.
Lemma attitude_alg A A' : attitude_to Q A A' -> rotation A /\ rotation A' /\ A' = m3mul A (m3t Q).
Proof.
  intros (R1 & R2 & P). split; [exact R1|]. split; [exact R2|]. apply product_mul in P. rewrite P, m3mul_assoc, (rot_mul_t Q HQ), m3mul_id_r. reflexivity.
Qed.
Lemma alg_attitude A A' : rotation A -> A' = m3mul A (m3t Q) -> attitude_to Q A A'.
Proof.
  intros R1 ->. split; [exact R1|]. split; [apply rot_mul; [exact R1|apply rot_t; exact HQ]|]. apply product_mul. rewrite m3mul_assoc, (rot_t_mul Q HQ), m3mul_id_r. reflexivity.
Qed.

Lemma reframed_size a v v' : RV a v v' -> ksize (l_kind v') = ksize (l_kind v).
Proof.
  intros (_ & _ & H). destruct (ro a); [| | |rewrite H; reflexivity]; destruct (l_kind v), (l_kind v'); try contradiction; try reflexivity; destruct H as (L & L' & _); cbn [ksize]; change (car RN) with R in *; congruence.
Qed.
Lemma turned_size a v v' : RV a v v' -> turned a -> (3 <= ksize (l_kind v))%nat.
Proof.
  unfold turned. intros (_ & _ & H) Hr. destruct (ro a); try contradiction; destruct (l_kind v), (l_kind v'); try contradiction; cbn [ksize]; try lia; destruct H as (L & _); change (car RN) with R in *; lia.
Qed.
Lemma first3_add (x d : list R) : length x = length d -> (3 <= length x)%nat -> first3 (vadd (N:=RN) x d) = v3add (first3 x) (first3 d).
Proof.
  intros L L3. destruct x as [|a [|b [|c x]]]; cbn in L3; try lia. destruct d as [|a' [|b' [|c' d]]]; cbn in L; try lia. reflexivity.
Qed.
Lemma vadd_len (x d : list R) : length x = length d -> length (vadd (N:=RN) x d) = length x.
Proof. intros L. unfold vadd, vzip. change (car RN) with R. rewrite map_length, combine_length. change (car RN) with R in *. lia. Qed.
Lemma increment_turned a n d d' : turned a -> (3 <= n)%nat -> length d = n -> length d' = n ->
  (forall c, (c < n)%nat -> nth c d' 0 = rsum n (fun e => turning_of a c e * nth e d 0)) -> first3 d' = m3v Q (first3 d) /\ forall c, (3 <= c)%nat -> nth c d' 0 = nth c d 0.
Proof.
  intros Hr Hn L L' H. assert (G : forall c, (c < n)%nat -> nth c d' 0 = if (c <? 3)%nat then sum3 (fun k => ent Q c k * nth k d 0) else nth c d 0).
  { intros c Hc. rewrite (H c Hc), <- (turning_sum n c (fun e => nth e d 0) Hn Hc). apply rsum_ext. intros e _. unfold turning3_of, turned in *. destruct (ro a); try contradiction; reflexivity. }
  split.
  - apply v3_eq. intros i Hi. pose proof (G i ltac:(lia)) as X. unfold first3. destruct i as [|[|[|i]]]; try lia; exact X.
  - intros c Hc. destruct (Nat.lt_ge_cases c n) as [Lc|Lc]; [|rewrite !nth_overflow by lia; reflexivity]. rewrite (G c Lc). destruct (Nat.ltb_spec c 3); [lia|reflexivity].
Qed.
Lemma increment_still a n d d' : ~ turned a -> length d = n -> length d' = n ->
  (forall c, (c < n)%nat -> nth c d' 0 = rsum n (fun e => turning_of a c e * nth e d 0)) -> d' = d.
Proof.
  intros Hr L L' H. apply (nth_ext _ _ 0 0); [congruence|]. intros i Hi. rewrite L' in Hi. rewrite (H i Hi). rewrite (rsum_ext _ _ (fun e => (if (i =? e)%nat then 1 else 0) * nth e d 0)); [apply still_sum; exact Hi|].
  intros e _. unfold turning3_of, turned in *. destruct (ro a); try (exfalso; apply Hr; exact I); reflexivity.
Qed.
Lemma turn_add p d : v3add (v3add (m3v Q p) t) (m3v Q d) = v3add (m3v Q (v3add p d)) t.
Proof. clear HQ. destruct Q, p, d, t. gring. Qed.
Lemma turn_add0 p d : v3add (m3v Q p) (m3v Q d) = m3v Q (v3add p d).
Proof. clear HQ. destruct Q, p, d. gring. Qed.
Lemma clip_big lo hi y : / 1000000000 <= lo -> / 1000000000 <= hi -> / 1000000000 <= clip (N:=RN) lo hi y.
Proof.
  intros A B. unfold clip. rewrite r_nmin, r_nmax. unfold Rmin, Rmax. repeat destruct (Rle_dec _ _); lra.
Qed.
Ltac stop := intros X X'; solve [discriminate X | discriminate X'].
Lemma space_coordinates : coordinates_if (lib RN) exact_turn RV turning_of.
Proof.
  constructor.
  - intros a v v' H. split; [exact (reframed_size a v v' H)|symmetry; apply H].
  - exists (fun a e c => turning_of a c e). intros a v v' c c' H Hc Hc'. cbn in Hc, Hc' |- *. pose proof (turned_size a v v' H) as K. unfold turned in K. unfold turning3_of. destruct (ro a).
    1,2: apply turning_inverse; auto; apply K; exact I.
    all: rewrite still_sum by exact Hc; rewrite Nat.eqb_sym; reflexivity.
  - intros a v v' d d' w w' H Ld Ld' Hd U U'. pose proof (turned_size a v v' H) as K. pose proof H as (Hi & Hc & Hk). cbn in Ld, Ld', Hd, K.
    destruct v as [i c k], v' as [i' c' k']. cbn in Hi, Hc, Hk, Ld, Ld', Hd, K. cbn [vinc lib]. subst i' c'. unfold with_kind, omap. cbn [l_id l_const l_kind].
    pose proof (increment_turned a (ksize k) d d') as IT. pose proof (increment_still a (ksize k) d d') as IS. unfold turned in K, IT, IS. destruct (ro a) eqn:Er.
    + destruct (IT I (K I) Ld Ld' Hd) as (D3 & Dr). clear IT IS.
      destruct k as [x|x|x A|x A|o b lo hi x|n e|x], k' as [x'|x'|x' A'|x' A'|o' b' lo' hi' x'|n' e'|x']; try contradiction; cbn [kinc ksize] in *; change (car RN) with R in *.
      * destruct Hk as (L & L' & P). destruct (length d =? length x)%nat eqn:E; [|stop]. destruct (length d' =? length x')%nat eqn:E'; [|stop]. intros X X'. injection X as <-. injection X' as <-. apply Nat.eqb_eq in E, E'.
        split; [reflexivity|]. split; [reflexivity|]. cbn [l_kind]. rewrite Er. change (car RN) with R. rewrite !vadd_len by lia. split; [exact L|]. split; [exact L'|]. apply point_alg. apply point_alg in P. rewrite !first3_add by lia. rewrite P, D3. apply turn_add.
      * destruct Hk as (L & L' & P). destruct (length d =? 3)%nat eqn:E0; [|stop]. destruct (length d' =? 3)%nat eqn:E0'; [|stop]. unfold vec_plus; change (car RN) with R. destruct (length x =? length d)%nat eqn:E; [|stop]. destruct (length x' =? length d')%nat eqn:E'; [|stop]. cbn [obind].
        intros X X'. injection X as <-. injection X' as <-. apply Nat.eqb_eq in E, E'.
        split; [reflexivity|]. split; [reflexivity|]. cbn [l_kind]. rewrite Er. change (car RN) with R. rewrite !vadd_len by lia. split; [exact L|]. split; [exact L'|]. apply point_alg. apply point_alg in P. rewrite !first3_add by lia. rewrite P, D3. apply turn_add.
      * destruct Hk as (L & L' & P & At). destruct (length d =? 6)%nat eqn:E; [|stop]. destruct (length d' =? 6)%nat eqn:E'; [|stop]. rewrite L, L'. cbn [Nat.ltb Nat.leb]. cbv zeta. 
        apply attitude_alg in At. destruct At as (R1 & R2 & EA). unfold exact_turn in U, U'. cbn [l_kind] in U, U'. destruct U as (U1 & U2), U' as (U1' & U2').
        assert (Ew : seg3 (N:=RN) 3 d' = seg3 3 d) by (unfold seg3; cbn [Nat.add]; change (nzero (N:=RN)) with (Q2R 0); rewrite q0, !Dr by lia; reflexivity).
        assert (Sw : forall d, V3 (N:=RN) (nth 3 d 0) (nth 4 d 0) (nth 5 d 0) = seg3 3 d) by (intros e; unfold seg3; cbn [Nat.add]; change (nzero (N:=RN)) with (Q2R 0); rewrite q0; reflexivity).
        rewrite Sw in U1, U1', U2, U2'. rewrite Ew in *. set (w0 := seg3 3 d) in *. 
        assert (Rw : rotation (exp_so3 w0)) by (apply exp_rotation; destruct U1 as [U1|U1]; [right; rewrite U1; unfold v3zero; change (nzero (N:=RN)) with (Q2R 0); rewrite q0; reflexivity|left; exact U1]).
        assert (X1 : dcm_of_rot (log_so3 (m3mul (exp_so3 w0) A)) = m3mul (exp_so3 w0) A).
        { apply dcm_log; [apply rot_mul; assumption|]. apply U2. apply product_mul. reflexivity. }
        assert (X2 : dcm_of_rot (log_so3 (m3mul (exp_so3 w0) A')) = m3mul (exp_so3 w0) A').
        { apply dcm_log; [apply rot_mul; assumption|]. apply U2'. apply product_mul. reflexivity. }
        rewrite X1, X2. intros X X'. apply Ok_inj in X. apply Ok_inj in X'. subst w w'. split; [reflexivity|]. split; [reflexivity|]. cbn [l_kind]. rewrite Er. split; [rewrite !app_length, skipn_length, L; reflexivity|]. split; [rewrite !app_length, skipn_length, L'; reflexivity|]. split.
        -- apply point_alg. apply point_alg in P. assert (S0 : forall e, seg3 (N:=RN) 0 e = first3 e) by (intros e; unfold seg3, first3; cbn [Nat.add]; change (nzero (N:=RN)) with (Q2R 0); rewrite q0; reflexivity).
           rewrite !S0. transitivity (v3add (first3 x') (first3 d')); [reflexivity|]. rewrite P, D3, turn_add. reflexivity.
        -- apply alg_attitude; [apply rot_mul; assumption|]. rewrite EA, m3mul_assoc. reflexivity.
    + destruct (IT I (K I) Ld Ld' Hd) as (D3 & Dr). clear IT IS.
      destruct k as [x|x|x A|x A|o b lo hi x|n e|x], k' as [x'|x'|x' A'|x' A'|o' b' lo' hi' x'|n' e'|x']; try contradiction; cbn [kinc ksize] in *; change (car RN) with R in *.
      * destruct Hk as (L & L' & P). destruct (length d =? length x)%nat eqn:E; [|stop]. destruct (length d' =? length x')%nat eqn:E'; [|stop]. intros X X'. injection X as <-. injection X' as <-. apply Nat.eqb_eq in E, E'.
        split; [reflexivity|]. split; [reflexivity|]. cbn [l_kind]. rewrite Er. change (car RN) with R. rewrite !vadd_len by lia. split; [exact L|]. split; [exact L'|]. apply image_mul. apply image_mul in P. rewrite !first3_add by lia. rewrite P, D3. apply turn_add0.
      * destruct Hk as (L & L' & P). destruct (length d =? 3)%nat eqn:E0; [|stop]. destruct (length d' =? 3)%nat eqn:E0'; [|stop]. unfold vec_plus; change (car RN) with R. destruct (length x =? length d)%nat eqn:E; [|stop]. destruct (length x' =? length d')%nat eqn:E'; [|stop]. cbn [obind].
        intros X X'. injection X as <-. injection X' as <-. apply Nat.eqb_eq in E, E'.
        split; [reflexivity|]. split; [reflexivity|]. cbn [l_kind]. rewrite Er. change (car RN) with R. rewrite !vadd_len by lia. split; [exact L|]. split; [exact L'|]. apply image_mul. apply image_mul in P. rewrite !first3_add by lia. rewrite P, D3. apply turn_add0.
    + rewrite (IS (fun x => x) Ld Ld' Hd). destruct k as [x|x|x A|x A|o b lo hi x|n e|x], k' as [x'|x'|x' A'|x' A'|o' b' lo' hi' x'|n' e'|x']; try contradiction; cbn [kinc ksize] in *; change (car RN) with R in *.
      destruct Hk as (P1 & P2 & P3 & P4 & P5). injection P3 as <- <- <-. destruct x as [|y [|? ?]]; try discriminate P4. destruct d as [|e [|? ?]]; try discriminate Ld. cbn [length Nat.eqb]. unfold vec_plus. cbn [length Nat.eqb obind].
      intros X X'. cbn in X, X'. apply Ok_inj in X. apply Ok_inj in X'. subst w w'. split; [reflexivity|]. split; [reflexivity|]. cbn [l_kind]. rewrite Er. split; [exact P1|]. split; [exact P2|]. split; [reflexivity|]. split; [reflexivity|].
      inversion P5 as [|? ? F1 P6]; subst. inversion P6 as [|? ? F2 P7]; subst. constructor; [exact F1|]. constructor; [exact F2|]. constructor; [apply clip_big; assumption|constructor].
    + subst k'. rewrite (IS (fun x => x) Ld Ld' Hd). intros X X'. rewrite X in X'. apply Ok_inj in X'. subst w'. destruct (kinc k d) as [k2| |]; cbn in X; try discriminate. apply Ok_inj in X. subst w. split; [reflexivity|]. split; [reflexivity|]. cbn [l_kind]. rewrite Er. reflexivity.
Qed.
End Frame.
