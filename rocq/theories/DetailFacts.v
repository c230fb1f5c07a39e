(** Proofs for PropsNumJac: the verdict of detailed_factor_test. *)
From Coq Require Import List Arith ZArith QArith Bool Lia Reals Lra.
From Verif Require Import Base Sparse Graph SpecGraph ListLemmas Real RSum NumJac SpecTools NumJacFacts.
Import ListNotations.
Set Bullet Behavior "Strict Subproofs".
Local Open Scope nat_scope.

(** ** The largest coefficient *)
Lemma in_coeffs (M : mat RN) x : In x (coeffs M) <-> exists i j, i < mrows M /\ j < mcols M /\ x = mat_at M i j.
Proof.
  unfold coeffs. rewrite in_flat_map. split.
  - intros (j & Hj & H). apply in_map_iff in H. destruct H as (i & <- & Hi). apply in_seq in Hj, Hi. exists i, j. repeat split; lia.
  - intros (i & j & Hi & Hj & ->). exists j. split; [apply in_seq; lia|]. apply in_map_iff. exists i. split; auto. apply in_seq. lia.
Qed.
Lemma fold_max (l : list R) x : (In (fold_left Rmax l x) (x :: l)) /\ forall y, In y (x :: l) -> (y <= fold_left Rmax l x)%R.
Proof.
  revert x. induction l as [|z l IH]; intros x; cbn [fold_left].
  - split; [left; reflexivity|]. intros y [<-|[]]. lra.
  - destruct (IH (Rmax x z)) as (A & B). split.
    + destruct A as [A|A]; [|right; right; exact A]. rewrite <- A. unfold Rmax. destruct (Rle_dec x z); [right; left; reflexivity|left; reflexivity].
    + intros y Hy. destruct Hy as [<-|[<-|Hy]].
      * eapply Rle_trans; [apply (Rmax_l x z)|]. apply B. left. reflexivity.
      * eapply Rle_trans; [apply (Rmax_r x z)|]. apply B. left. reflexivity.
      * apply B. right. exact Hy.
Qed.
Lemma fold_nmax (l : list R) x : fold_left (nmax (N:=RN)) l x = fold_left Rmax l x.
Proof. revert x. induction l as [|y l IH]; intros x; [reflexivity|]. cbn [fold_left]. rewrite r_nmax. apply IH. Qed.
Lemma max_abs_largest (M : mat RN) m : max_abs (N:=RN) M = Ok m -> largest M m.
Proof.
  unfold max_abs. destruct (map nabs (coeffs M)) as [|x l] eqn:E; [discriminate|]. intros H. injection H as H. rewrite fold_nmax in H. subst m.
  destruct (fold_max l x) as (A & B). change (list (car RN)) with (list R) in *. change (car RN) with R in *. rewrite <- E in A, B. split.
  - intros i j Hi Hj. apply B. apply (in_map (nabs (n:=RN))). apply in_coeffs. eauto.
  - apply in_map_iff in A. destruct A as (y & Ey & Hy). apply in_coeffs in Hy. destruct Hy as (i & j & Hi & Hj & ->). exists i, j. split; auto.
Qed.
Lemma max_abs_total (M : mat RN) : 0 < mrows M -> 0 < mcols M -> exists m, max_abs (N:=RN) M = Ok m.
Proof.
  intros Hr Hc. unfold max_abs. destruct (map nabs (coeffs M)) as [|x l] eqn:E; [|eauto]. exfalso.
  assert (H : In (nabs (mat_at M 0 0)) (map nabs (coeffs M))) by (apply in_map, in_coeffs; exists 0, 0; auto). rewrite E in H. exact H.
Qed.
Lemma largest_unique (M : mat RN) m m' : largest M m -> largest M m' -> m = m'.
Proof.
  intros (A & i & j & Hi & Hj & E) (A' & i' & j' & Hi' & Hj' & E'). apply Rle_antisym; [rewrite <- E; auto|rewrite <- E'; auto].
Qed.

(** ** One block *)
Section V.
Context {V : Type} (VC : vclass RN V).
Notation factor := (factor (N:=RN) (V:=V)).
Definition block_agrees (tol : R) (v : V) (A B : mat RN) : Prop :=
  if vconst VC v then (mrows A = 0 \/ mcols A = 0) /\ (mrows B = 0 \/ mcols B = 0)
  else mrows A = mrows B /\ mcols A = mcols B /\ exists m, largest B m /\
       forall i j, i < mrows B -> j < mcols B -> (Rabs (mat_at B i j - mat_at A i j) < Rmax (1 / 100) (tol * m))%R.
Lemma no_coeffs_spec (M : mat RN) : no_coeffs M = true <-> mrows M = 0 \/ mcols M = 0.
Proof. unfold no_coeffs. rewrite Nat.eqb_eq. split; intros H; [destruct (mrows M); [auto|right; nia]|destruct H as [->| ->]; lia]. Qed.
Lemma test_block_spec tol v A B b : test_block VC tol v A B = Ok b -> (b = true <-> block_agrees tol v A B).
Proof.
  unfold test_block, block_agrees. destruct (vconst VC v).
  - intros H. injection H as <-. rewrite andb_true_iff, !no_coeffs_spec. reflexivity.
  - destruct ((mrows A =? mrows B) && (mcols A =? mcols B)) eqn:D; cbn [negb].
    + apply andb_prop in D. destruct D as (D1 & D2). apply Nat.eqb_eq in D1, D2.
      destruct (max_abs (N:=RN) B) as [m| |] eqn:Em; try discriminate. cbn [obind]. destruct (max_abs (N:=RN) (mminus B A)) as [e| |] eqn:Ee; try discriminate. cbn [obind].
      intros H. injection H as <-. apply max_abs_largest in Em, Ee.
      assert (W : negb (nleb (nmax (nlit (1 # 100)) (nmul m tol)) e) = true <-> (e < Rmax (1 / 100) (tol * m))%R).
      { rewrite r_nmax. assert (Q : (Q2R (1 # 100) = 1 / 100)%R) by (unfold Q2R; simpl; lra). rewrite negb_true_iff.
        change (Rleb (Rmax (Q2R (1 # 100)) (m * tol)) e = false <-> (e < Rmax (1 / 100) (tol * m))%R). rewrite Q, (Rmult_comm m tol). unfold Rleb. destruct (Rle_dec _ _); split; intros; try discriminate; auto; try lra. }
      rewrite W. clear W. destruct Ee as (E1 & i0 & j0 & Hi0 & Hj0 & E2). cbn [mminus mrows mcols mat_at] in *. split.
      * intros H. split; auto. split; auto. exists m. split; auto. intros i j Hi Hj. eapply Rle_lt_trans; [apply (E1 i j Hi Hj)|exact H].
      * intros (_ & _ & m' & Hm' & H). rewrite (largest_unique _ _ _ Em Hm'). rewrite <- E2. apply (H i0 j0 Hi0 Hj0).
    + intros H. injection H as <-. split; [discriminate|]. intros (D1 & D2 & _). rewrite D1, D2, !Nat.eqb_refl in D. discriminate.
Qed.
(** ** One factor *)
Lemma test_blocks_spec tol (h : @heap V) : forall vars Ja Jn b, length Ja = length Jn -> length Jn = length vars -> test_blocks VC tol h vars Ja Jn = Ok b ->
  (b = true <-> forall q a v A B, nth_error vars q = Some (Some a) -> nth_error h a = Some v -> nth_error Ja q = Some A -> nth_error Jn q = Some B -> block_agrees tol v A B).
Proof.
  induction vars as [|p vars IH]; intros [|A Ja] [|B Jn] b L1 L2 H; simpl in L1, L2; try lia.
  - cbn in H. injection H as <-. split; auto. intros _ [|q]; discriminate.
  - cbn [test_blocks] in H. destruct p as [a|]; [|discriminate]. unfold hget in H. destruct (nth_error h a) as [v|] eqn:Ha; [|discriminate]. cbn [obind] in H.
    destruct (test_block VC tol v A B) as [b1| |] eqn:E1; try discriminate. cbn [obind] in H. destruct (test_blocks VC tol h vars Ja Jn) as [b2| |] eqn:E2; try discriminate. cbn [obind] in H.
    injection H as <-. pose proof (test_block_spec _ _ _ _ _ E1) as S1. pose proof (IH Ja Jn b2 ltac:(lia) ltac:(lia) E2) as S2.
    rewrite andb_true_iff, S1, S2. split.
    + intros (H1 & H2) [|q] a' v' A' B' Hq Ha' HA HB; cbn in Hq, HA, HB; [|eauto]. injection Hq as <-. injection HA as <-. injection HB as <-. assert (v' = v) by congruence. subst v'. exact H1.
    + intros H. split; [apply (H 0 a v A B); auto|]. intros q a' v' A' B' Hq Ha' HA HB. apply (H (S q) a' v' A' B'); auto.
Qed.
(** difference quotients are unique *)
Lemma along_unique n k (eps : RN) dx dx' : along (N:=RN) n k eps dx -> along (N:=RN) n k eps dx' -> dx = dx'.
Proof.
  intros (L & H) (L' & H'). apply list_ext_nth. intros i. destruct (lt_dec i n) as [Hi|Hi]; [rewrite H, H' by auto; reflexivity|].
  rewrite !(proj2 (nth_error_None _ _)); auto; lia.
Qed.
Lemma column_unique (f : factor) (h : @heap V) a v (eps : RN) B B' k i : difference_column VC f h a v eps B k -> difference_column VC f h a v eps B' k ->
  i < f_rsize f -> mat_at B i k = mat_at B' i k.
Proof.
  intros (dx & vp & vm & rp & rm & A1 & A2 & A3 & A4 & A5 & A6 & A7 & A8) (dx' & vp' & vm' & rp' & rm' & B1 & B2 & B3 & B4 & B5 & B6 & B7 & B8) Hi.
  assert (dx' = dx) by (eapply along_unique; eauto). subst dx'. rewrite A2 in B2. injection B2 as <-. rewrite A3 in B3. injection B3 as <-.
  rewrite A4 in B4. injection B4 as <-. rewrite A5 in B5. injection B5 as <-. rewrite A8, B8 by auto. reflexivity.
Qed.
Lemma largest_ext (B B' : mat RN) m : mrows B = mrows B' -> mcols B = mcols B' -> (forall i j, i < mrows B -> j < mcols B -> mat_at B i j = mat_at B' i j) -> largest B m -> largest B' m.
Proof.
  intros R C E (A & i & j & Hi & Hj & M). split.
  - intros i' j' Hi' Hj'. rewrite <- E by lia. apply A; lia.
  - exists i, j. rewrite <- E by lia. repeat split; auto; lia.
Qed.
Lemma agree_ext (h : @heap V) (f : factor) tol (eps : RN) Ja J1 J2 : difference_quotients VC f h eps J1 -> difference_quotients VC f h eps J2 ->
  jacobians_agree VC h f tol Ja J1 -> jacobians_agree VC h f tol Ja J2.
Proof.
  intros (L1 & D1) (L2 & D2) (L & H). split; [congruence|]. intros q a v A B2 Hq Ha HA HB2.
  destruct (nth_error J1 q) as [B1|] eqn:HB1. 2: { exfalso. apply nth_error_None in HB1. pose proof (lt_of_nth _ _ _ HB2). lia. }
  pose proof (H q a v A B1 Hq Ha HA HB1) as G.
  destruct (D1 _ _ _ Hq HB1) as (a1 & v1 & E1 & Ha1 & C1). injection E1 as <-. assert (v1 = v) by congruence. subst v1.
  destruct (D2 _ _ _ Hq HB2) as (a2 & v2 & E2 & Ha2 & C2). injection E2 as <-. assert (v2 = v) by congruence. subst v2.
  destruct (vconst VC v).
  - split; [apply G|]. left. apply C2.
  - destruct C1 as (R1 & K1 & C1), C2 as (R2 & K2 & C2). destruct G as (G1 & G2 & m & Gm & G3).
    assert (E : forall i j, i < mrows B1 -> j < mcols B1 -> mat_at B1 i j = mat_at B2 i j).
    { intros i j Hi Hj. eapply column_unique; [apply C1|apply C2|]; lia. }
    split; [lia|]. split; [lia|]. exists m. split; [eapply largest_ext; [| |exact E|exact Gm]; lia|]. intros i j Hi Hj. rewrite <- E by lia. apply G3; lia.
Qed.
Lemma test_factor_spec tol (f : factor) (h h' : @heap V) b : each_variable VC f h (returns VC) -> test_factor VC tol f h = (h', Ok b) ->
  h' = h /\ exists Ja Jn, f_jac f h [] = (Ja, Ok tt) /\ difference_quotients VC f h (nlit (1 # 1000000)) Jn /\ (b = true <-> jacobians_agree VC h f tol Ja Jn).
Proof.
  intros R. unfold test_factor. destruct (f_jac f h []) as [Ja o]. intros H. apply hthen_ok in H. destruct H as (h1 & [] & E1 & H). injection E1 as <- ->.
  apply hthen_ok in H. destruct H as (h2 & Jn & E2 & H). destruct (num_jac_ok VC _ _ _ _ _ R E2) as (-> & D). pose proof (proj1 D) as LD.
  destruct (length Ja =? length Jn) eqn:L; cbn [negb] in H.
  - apply Nat.eqb_eq in L. injection H as <- H. split; auto. exists Ja, Jn. split; auto. split; auto.
    rewrite (test_blocks_spec tol h _ _ _ _ L LD H). split; [intros K; split; [exact L|exact K]|intros (_ & K); exact K].
  - injection H as <- <-. split; auto. exists Ja, Jn. split; auto. split; auto. split; [discriminate|]. intros (K & _). rewrite K, Nat.eqb_refl in L. discriminate.
Qed.
(** ** The graph *)
Definition passes (h : @heap V) (tol : R) (f : factor) : Prop := exists Ja Jn, f_jac f h [] = (Ja, Ok tt) /\ difference_quotients VC f h (nlit (1 # 1000000)) Jn /\ jacobians_agree VC h f tol Ja Jn.
Lemma test_factors_spec tol fs : forall (h h' : @heap V) b, (forall f, In f fs -> each_variable VC f h (returns VC)) -> test_factors VC tol fs h = (h', Ok b) ->
  h' = h /\ (b = true <-> forall f, In f fs -> passes h tol f).
Proof.
  induction fs as [|f fs IH]; intros h h' b R H; cbn [test_factors] in H; [injection H as <- <-; split; auto; split; auto; intros _ f []|].
  apply hthen_ok in H. destruct H as (h1 & b1 & E1 & H). destruct (test_factor_spec _ _ _ _ _ (R f (or_introl eq_refl)) E1) as (-> & Ja & Jn & F1 & F2 & F3).
  apply hthen_ok in H. destruct H as (h2 & b2 & E2 & H). destruct (IH _ _ _ (fun g Hg => R g (or_intror Hg)) E2) as (-> & F4). injection H as <- <-. split; auto.
  rewrite andb_true_iff, F3, F4. split.
  - intros (A & B) g [<-|Hg]; auto. exists Ja, Jn. auto.
  - intros A. split; [|intros g Hg; apply A; right; exact Hg]. destruct (A f (or_introl eq_refl)) as (Ja' & Jn' & G1 & G2 & G3). rewrite F1 in G1. injection G1 as <-. eapply agree_ext; eauto.
Qed.
Lemma verdict tol (h h' : @heap V) g b : (forall f, In f (get_all_factors g) -> each_variable VC f h (returns VC)) -> detailed_factor_test VC tol h g = (h', Ok b) ->
  h' = h /\ (b = true <-> forall f, In f (get_all_factors g) -> exists Ja Jn, f_jac f h [] = (Ja, Ok tt) /\ difference_quotients VC f h (nlit (1 # 1000000)) Jn /\ jacobians_agree VC h f tol Ja Jn).
Proof. intros R. unfold detailed_factor_test. destruct (ly_final (g_lay g)); cbn [negb]; [|discriminate]. intros H. apply (test_factors_spec tol _ h h' b R H). Qed.
End V.
Lemma verdict_needs_final {N : num} {V} (VC : vclass N V) tol (h : @heap V) (g : graph (N:=N) (V:=V)) : ly_final (g_lay g) = false -> detailed_factor_test VC tol h g = (h, Throw ENotFinalized).
Proof. intros E. unfold detailed_factor_test. rewrite E. reflexivity. Qed.
