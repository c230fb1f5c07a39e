(** The library's factors in another planar frame. *)
From Coq Require Import List Arith ZArith QArith Bool Reals Lra Lia.
From Verif Require Import Base Sparse Graph SpecGraph ListLemmas Geom Vars Real RSum GeomR Trig FactorsLin FactorsLinFacts FactorsGeo FactorLib FactorShape SpecTwin TwinGraph SpecBlocks SpecChange Change SpecPart PartLib UnitsVars UnitsRead UnitsFactors SpecFrame FrameVars.
Import ListNotations.
Local Open Scope R_scope.
Set Bullet Behavior "Strict Subproofs".

Section Factors.
Context (phi tx ty : R) (ro : addr -> role).
Notation RV := (reframed_var phi tx ty ro).
Notation heap := (@heap (lvar RN)).
Notation turning := (turning phi).
Notation turning_of := (turning_of phi ro).

(** ** reading *)
Definition shift (a : addr) : R * R := match ro a with Place => (tx, ty) | _ => (0, 0) end.
(** the first two elements are turned; nothing is said about the others *)
Definition firsts (s : R * R) (x x' : list R) : Prop :=
  exists p q z z', x = p :: q :: z /\ x' = (cos phi * p - sin phi * q + fst s) :: (sin phi * p + cos phi * q + snd s) :: z' /\ length z = length z'.
Lemma value_firsts h h' a : heaps RV h h' -> ro a <> Still -> alike (fun x x' => firsts (shift a) x x' /\ (ro a = Difference -> rotated_to phi x x')) (value_at h a) (value_at h' a).
Proof.
  intros H Hr. pose proof (hget_pair RV h h' a H) as X. unfold value_at, shift. destruct (hget h a) as [v| |], (hget h' a) as [v'| |]; cbn [alike obind] in *; auto. destruct X as (_ & _ & X).
  destruct (ro a) eqn:Er; [| |contradiction]; destruct (l_kind v), (l_kind v'); try contradiction; cbn [kval]; (split; [|first [discriminate|intros _; exact X]]).
  1,2,4,5,6: destruct X as (p & q & z & -> & ->); exists p, q, z, z; auto.
  destruct X as (p & q & t & p' & q' & t' & -> & -> & (p0 & q0' & z0 & M1 & M2) & _). injection M1 as <- <- <-. injection M2 as -> ->. eexists _, _, [t], [t']. split; [reflexivity|]. split; reflexivity.
Qed.
Lemma pose2_placed h h' a : heaps RV h h' -> ro a = Place ->
  alike (fun P P' => fst P' = V2 (N:=RN) (cos phi * v2x (fst P) - sin phi * v2y (fst P) + tx) (sin phi * v2x (fst P) + cos phi * v2y (fst P) + ty) /\ same_heading (snd P') (snd P + phi)) (pose2_at h a) (pose2_at h' a).
Proof.
  intros H Hr. pose proof (hget_pair RV h h' a H) as X. unfold pose2_at. destruct (hget h a) as [v| |], (hget h' a) as [v'| |]; cbn [alike obind] in *; try contradiction; try exact X. destruct X as (_ & _ & X). rewrite Hr in X.
  destruct (l_kind v), (l_kind v'); try contradiction; try reflexivity.
  destruct X as (p & q & t & p' & q' & t' & -> & -> & (p0 & q0' & z0 & M1 & M2) & Hh). injection M1 as <- <- <-. injection M2 as -> ->. cbn [alike fst snd v2x v2y]. split; [reflexivity|exact Hh].
Qed.
Lemma value2_turned h h' a : heaps RV h h' -> ro a <> Still ->
  alike (fun P P' => P' = V2 (N:=RN) (cos phi * v2x P - sin phi * v2y P + fst (shift a)) (sin phi * v2x P + cos phi * v2y P + snd (shift a))) (value2_at h a) (value2_at h' a).
Proof.
  intros H Hr. pose proof (value_firsts h h' a H Hr) as X. unfold value2_at. destruct (value_at h a), (value_at h' a); cbn [alike obind] in *; try contradiction; try exact X. destruct X as ((p & q & z & z' & -> & -> & _) & _). reflexivity.
Qed.

(** ** blocks *)
Definition turned_entries (U : nat -> nat -> R) (n : nat) (h : heap) (a : addr) (B B' : mat RN) : Prop :=
  forall i c, (i < n)%nat -> (c < width (lib RN) h a)%nat -> rsum (width (lib RN) h a) (fun c' => mat_at B' i c' * turning_of a c' c) = rsum n (fun j => U i j * mat_at B j c).
Fixpoint turned_blocks (U : nat -> nat -> R) (n : nat) (h : heap) (vars : list (option addr)) (js js' : list (mat RN)) : Prop :=
  match vars, js, js' with
  | [], _, _ => True
  | _, [], [] => True
  | Some a :: t, B :: js, B' :: js' => turned_entries U n h a B B' /\ turned_blocks U n h t js js'
  | _, _, _ => False
  end.
Definition framed_factor (f f' : factor (N:=RN) (V:=lvar RN)) : Prop :=
  f_rsize f' = f_rsize f /\ f_vars f' = f_vars f /\ exists U : nat -> nat -> R,
    (forall j k, (j < f_rsize f)%nat -> (k < f_rsize f)%nat -> rsum (f_rsize f) (fun i => U i j * U i k) = if (j =? k)%nat then 1 else 0) /\
    forall h h', heaps RV h h' ->
    (forall x x' i, f_res_ref f h = Ok x -> f_res_ref f' h' = Ok x' -> (i < f_rsize f)%nat -> nth i x' 0 = rsum (f_rsize f) (fun j => U i j * nth j x 0)) /\
    (forall js js', f_jac f h [] = (js, Ok tt) -> f_jac f' h' [] = (js', Ok tt) -> turned_blocks U (f_rsize f) h (f_vars f) js js').
Lemma turned_deriv U n h vars js js' a q : turned_blocks U n h vars js js' -> listed_at a vars = Some q ->
  (nth_error js q = None /\ nth_error js' q = None) \/ exists B B', nth_error js q = Some B /\ nth_error js' q = Some B' /\ turned_entries U n h a B B'.
Proof.
  revert js js' q. induction vars as [|[b|] vars IH]; intros js js' q H L; cbn in L; [discriminate| |].
  - destruct js as [|B js], js' as [|B' js']; cbn in H; try contradiction; [left; split; destruct q; reflexivity|]. destruct H as (E & H).
    destruct (Nat.eqb_spec a b) as [->|]; [injection L as <-; right; exists B, B'; auto|]. destruct (listed_at a vars) as [q'|] eqn:Eq; [|discriminate]. injection L as <-. cbn [nth_error]. eapply IH; eauto.
  - destruct js as [|B js], js' as [|B' js']; cbn in H; try contradiction. left; split; destruct q; reflexivity.
Qed.
Lemma framed_changed f f' h h' vs : framed_factor f f' -> heaps RV h h' -> changed (lib RN) turning_of 1 h h' vs f f'.
Proof.
  intros (A & B & U & O & C) H. destruct (C h h' H) as (C1 & C2). split; [exact A|]. split; [exact B|]. exists U. split; [exact O|]. split; [exact C1|].
  intros js js' a i c J J' Ha Hi Hc. specialize (C2 js js' J J'). unfold deriv. rewrite B, J, J'. cbn [fst]. destruct (listed_at a (f_vars f)) as [q|] eqn:Eq.
  - destruct (turned_deriv _ _ _ _ _ _ _ _ C2 Eq) as [(-> & ->)|(M & M' & -> & -> & E)]; [rewrite !rsum_zero; [reflexivity|intros; ring..]|exact (E i c Hi Hc)].
  - rewrite !rsum_zero; [reflexivity|intros; ring..].
Qed.
Lemma wide_turned h h' a : heaps RV h h' -> width (lib RN) h' a = width (lib RN) h a.
Proof.
  intros H. specialize (H a). unfold width. destruct (nth_error h a) as [v|], (nth_error h' a) as [v'|]; try contradiction; auto. cbn.
  rewrite (reframed_size phi tx ty ro a v v' H). destruct H as (_ & <- & _). reflexivity.
Qed.
Lemma wide_enough h h' a c : heaps RV h h' -> ro a <> Still -> (c < width (lib RN) h a)%nat -> (2 <= width (lib RN) h a)%nat.
Proof.
  intros H Hr. specialize (H a). unfold width. destruct (nth_error h a) as [v|], (nth_error h' a) as [v'|]; try contradiction; try lia. cbn. destruct (l_const v); [lia|]. intros _. exact (turned_size phi tx ty ro a v v' H Hr).
Qed.
(** an entry of M' T, and of U M for the turn U *)
Definition right_turned (M : mat RN) (i c : nat) : R :=
  match c with O => cos phi * mat_at M i 0 + sin phi * mat_at M i 1 | S O => cos phi * mat_at M i 1 - sin phi * mat_at M i 0 | _ => mat_at M i c end.
Definition left_turned (M : mat RN) (i c : nat) : R :=
  match i with O => cos phi * mat_at M 0 c - sin phi * mat_at M 1 c | S O => sin phi * mat_at M 0 c + cos phi * mat_at M 1 c | _ => mat_at M i c end.
Lemma entries_turned U n h h' a (B B' : mat RN) : heaps RV h h' -> ro a <> Still ->
  (forall i c, (i < n)%nat -> (c < width (lib RN) h a)%nat -> right_turned B' i c = rsum n (fun j => U i j * mat_at B j c)) -> turned_entries U n h a B B'.
Proof.
  intros H Hr E i c Hi Hc. pose proof (wide_enough h h' a c H Hr Hc) as W. rewrite <- (E i c Hi Hc). transitivity (rsum (width (lib RN) h a) (fun e => mat_at B' i e * turning e c)).
  - apply rsum_ext. intros e _. unfold SpecFrame.turning_of. destruct (ro a); [reflexivity..|contradiction].
  - rewrite (turning_sum_r phi _ c (fun e => mat_at B' i e) W Hc). reflexivity.
Qed.
Lemma blk_turned U n h h' a M M' B B' : heaps RV h h' -> ro a <> Still -> blk h a M = Ok B -> blk h' a M' = Ok B' ->
  (forall i c, (i < n)%nat -> (c < width (lib RN) h a)%nat -> right_turned M' i c = rsum n (fun j => U i j * mat_at M j c)) -> turned_entries U n h a B B'.
Proof.
  intros H Hr X X' E. apply (entries_turned U n h h' a B B' H Hr). intros i c Hi Hc. pose proof (wide_enough h h' a c H Hr Hc) as W. pose proof (wide_turned h h' a H) as Ew.
  rewrite (rsum_ext n _ (fun j => U i j * mat_at M j c)) by (intros j _; rewrite (blk_entry _ _ _ _ j c X Hc); reflexivity). rewrite <- (E i c Hi Hc).
  unfold right_turned. destruct c as [|[|c]]; rewrite ?(blk_entry _ _ _ _ i 0 X'), ?(blk_entry _ _ _ _ i 1 X') by lia; try reflexivity. apply (blk_entry _ _ _ _ i _ X'). lia.
Qed.
(** residual turned like places *)
Lemma by_turning n M i c : (2 <= n)%nat -> (i < n)%nat -> rsum n (fun j => turning i j * mat_at (N:=RN) M j c) = left_turned M i c.
Proof. intros Hn Hi. rewrite (turning_sum phi n i (fun j => mat_at (N:=RN) M j c) Hn Hi). reflexivity. Qed.
Lemma by_standing n (M : mat RN) i c : (i < n)%nat -> rsum n (fun j => (if (i =? j)%nat then 1 else 0) * mat_at M j c) = mat_at M i c.
Proof. intros Hi. exact (still_sum n i (fun j => mat_at (N:=RN) M j c) Hi). Qed.
Ltac zz := change (nzero (N:=RN)) with (Q2R 0); rewrite ?q0.
Lemma diag_turned n (w : RN) i c : right_turned (diagm n w) i c = left_turned (diagm n w) i c.
Proof. unfold right_turned, left_turned. cbn [diagm mat_at]. zz. destruct i as [|[|i]], c as [|[|c]]; cbn [Nat.eqb]; try rring. all: reflexivity. Qed.
Lemma nth_turned n i (x : list R) : (2 <= n)%nat -> (i < n)%nat ->
  rsum n (fun j => turning i j * nth j x 0) = match i with O => cos phi * nth 0 x 0 - sin phi * nth 1 x 0 | S O => sin phi * nth 0 x 0 + cos phi * nth 1 x 0 | _ => nth i x 0 end.
Proof. intros Hn Hi. exact (turning_sum phi n i (fun j => nth j x 0) Hn Hi). Qed.

Lemma f_still f : (forall a, In (Some a) (f_vars (build f)) -> ro a = Still) -> framed_factor (build f) (build f).
Proof.
  intros S. split; [reflexivity|]. split; [reflexivity|]. exists (fun i j => if (i =? j)%nat then 1 else 0). split.
  { intros j k Hj Hk. rewrite (rsum_ext _ _ (fun i => (if (j =? i)%nat then 1 else 0) * (if (i =? k)%nat then 1 else 0))) by (intros i _; rewrite (Nat.eqb_sym i j); reflexivity). apply (still_sum _ j (fun i => if (i =? k)%nat then 1 else 0) Hj). }
  intros h h' H. assert (Eq : forall a, In (Some a) (f_vars (build f)) -> nth_error h a = nth_error h' a).
  { intros a Ha. specialize (H a). destruct (nth_error h a) as [[i c k]|], (nth_error h' a) as [[i' c' k']|]; try contradiction; auto. destruct H as (E1 & E2 & E3). rewrite (S a Ha) in E3. cbn in *. subst. reflexivity. }
  destruct (lib_reads_only f h h' Eq) as (Q1 & Q2). split.
  - intros x x' i X X' Hi. rewrite <- Q1, X in X'. apply Ok_inj in X'. subst x'. symmetry. exact (still_sum _ i (fun j => nth j x 0) Hi).
  - intros js js' X X'. assert (Es : js' = js) by (rewrite <- Q2, X in X'; apply (f_equal fst) in X'; symmetry; exact X'). subst js'.
    assert (G : forall vars (l : list (mat RN)), (forall a, In (Some a) vars -> ro a = Still) -> (forall o, In o vars -> exists a, o = Some a) -> turned_blocks (fun i j => if (i =? j)%nat then 1 else 0) (f_rsize (build f)) h vars l l).
    { induction vars as [|[a|] vars IH]; intros l Sv Av; [exact I| |destruct (Av None (or_introl eq_refl)); discriminate]. destruct l as [|B l]; [exact I|]. split; [|apply IH; [intros; apply Sv; right; assumption|intros; apply Av; right; assumption]].
      intros i c Hi Hc. rewrite by_standing by exact Hi. rewrite (rsum_ext _ _ (fun e => mat_at B i e * (if (e =? c)%nat then 1 else 0))) by (intros e _; unfold SpecFrame.turning_of; rewrite (Sv a (or_introl eq_refl)); reflexivity).
      exact (still_sum_r _ c (fun e => mat_at B i e) Hc). }
    apply G; [exact S|intros o Ho; destruct f; cbn in Ho; repeat destruct Ho as [<-|Ho]; try contradiction; eauto].
Qed.

(** ** one factor at a time *)
Ltac rd L Y := pose proof L as Y; match type of Y with alike _ ?o ?o' => destruct o as [?y|?e|?u], o' as [?y'|?e'|?u'] end; cbn [alike] in Y; try contradiction; cbn [obind withj] in *;
  try (match goal with Z : _ = Ok _ |- _ => discriminate Z | Z : _ = (_, Ok tt) |- _ => discriminate Z end).
Ltac got X X' := apply Ok_inj in X; apply Ok_inj in X'; subst.
Ltac entries := cbn [diagm Nat.eqb fst snd diag2 rows_mat mat_at nth v3list v2list app vx vy vz v2x v2y].
Ltac i3 i := destruct i as [|[|[|i]]]; [| | |lia].
Ltac cols c := destruct c as [|[|[|[|[|[|[|c]]]]]]].
Ltac turn n := split; [reflexivity|]; split; [reflexivity|]; exists turning; split; [intros j1 j2 J1 J2; apply (turning_orthogonal phi n); [lia|exact J1|exact J2]|];
  intros h h' H; split; [intros zr zr' i X X' Hi | intros js js' X X']; cbn [f_res_ref f_jac f_rsize f_vars] in *.
Ltac stand n := split; [reflexivity|]; split; [reflexivity|]; exists (fun i j => if (i =? j)%nat then 1 else 0); split;
  [intros j1 j2 J1 J2; rewrite (rsum_ext _ _ (fun i => (if (j1 =? i)%nat then 1 else 0) * (if (i =? j2)%nat then 1 else 0))) by (intros i _; rewrite (Nat.eqb_sym i j1); reflexivity); apply (still_sum n j1 (fun i => if (i =? j2)%nat then 1 else 0)); exact J1|];
  intros h h' H; split; [intros zr zr' i X X' Hi | intros js js' X X']; cbn [f_res_ref f_jac f_rsize f_vars] in *.
Lemma firsts_nth s x x' : firsts s x x' -> nth 0 x' 0 = cos phi * nth 0 x 0 - sin phi * nth 1 x 0 + fst s /\ nth 1 x' 0 = sin phi * nth 0 x 0 + cos phi * nth 1 x 0 + snd s.
Proof. intros (p & q & z & z' & -> & -> & _). cbn. auto. Qed.
Lemma rotated_nth x x' i : rotated_to phi x x' -> nth (S (S i)) x' 0 = nth (S (S i)) x 0.
Proof. intros (p & q & z & -> & ->). reflexivity. Qed.
Lemma rotated_firsts x x' : rotated_to phi x x' -> firsts (0, 0) x x'.
Proof. intros (p & q & z & -> & ->). exists p, q, z, z. auto. Qed.
Lemma shift_difference a : ro a = Difference -> shift a = (0, 0).
Proof. unfold shift. intros ->. reflexivity. Qed.
Lemma shift_place a : ro a = Place -> shift a = (tx, ty).
Proof. unfold shift. intros ->. reflexivity. Qed.

Lemma f_generic_prior j a x s x' : ro a = Place /\ length x = 2%nat /\ displaced_to phi tx ty x x' \/ ro a = Difference /\ rotated_to phi x x' -> framed_factor (build (LGenericPrior j a x s)) (build (LGenericPrior j a x' s)).
Proof.
  intros G. assert (Hr : ro a <> Still) by (destruct G as [(-> & _)|(-> & _)]; discriminate). assert (L : length x' = length x /\ (2 <= length x)%nat) by (destruct G as [(_ & _ & p & q & z & -> & ->)|(_ & p & q & z & -> & ->)]; cbn; split; lia). destruct L as (L & L2).
  assert (Fx : firsts (shift a) x x') by (destruct G as [(E & _ & p & q & z & -> & ->)|(E & G)]; [rewrite (shift_place _ E); exists p, q, z, z; auto|rewrite (shift_difference _ E); apply rotated_firsts; exact G]).
  cbn [build]. unfold generic_prior. cbv zeta. generalize (nunit / s)%num. intros w. split; [exact L|]. split; [reflexivity|]. exists turning. cbn [f_res_ref f_jac f_rsize f_vars]. split; [intros j1 j2 J1 J2; apply (turning_orthogonal phi (length x)); [exact L2|exact J1|exact J2]|].
  intros h h' H. split.
  - intros zr zr' i X X' Hi. unfold gprior_ref in *. pose proof (value_firsts h h' a H Hr) as Y. unfold value_at in Y. destruct (hget h a) as [v| |], (hget h' a) as [v'| |]; cbn [alike obind] in *; try contradiction; try discriminate. cbn [vval lib] in *. destruct Y as (Y & Yd).
    destruct (vec_minus (kval (l_kind v)) x) as [d| |] eqn:Ed; cbn [obind] in X; try discriminate. destruct (vec_minus (kval (l_kind v')) x') as [d'| |] eqn:Ed'; cbn [obind] in X'; try discriminate. got X X'.
    change (car RN) with R in *. rewrite (nth_turned (length x) i) by (try exact L2; exact Hi). destruct (firsts_nth _ _ _ Y) as (Y0 & Y1). destruct (firsts_nth _ _ _ Fx) as (F0 & F1).
    rewrite !nth_vscale. destruct i as [|[|i]]; [rewrite (nth_minus _ _ _ 0 Ed'), !(nth_minus _ _ _ _ Ed), Y0, F0; rring|rewrite (nth_minus _ _ _ 1 Ed'), !(nth_minus _ _ _ _ Ed), Y1, F1; rring|].
    destruct G as [(_ & G & _)|(E & G)]; [exfalso; cbn in Hi; change (car RN) with R in *; lia|]. rewrite (nth_minus _ _ _ _ Ed'), (nth_minus _ _ _ _ Ed), (rotated_nth _ _ i (Yd E)), (rotated_nth _ _ i G). reflexivity.
  - intros js js' X X'. unfold gprior_jac in *. pose proof (hget_pair RV h h' a H) as Y. assert (Ew : forall v, hget h a = Ok v -> l_const v = true -> width (lib RN) h a = 0%nat).
    { intros v. unfold hget, width. destruct (nth_error h a) as [w0|]; [|discriminate]. intros Q. apply Ok_inj in Q. subst w0. cbn. intros ->. reflexivity. }
    destruct (hget h a) as [v| |], (hget h' a) as [v'| |]; cbn [alike obind all_blocks] in *; try contradiction; try discriminate. destruct Y as (_ & C & _). cbn [vconst lib] in *. rewrite <- C in X'. destruct (l_const v) eqn:Ec.
    + inversion X. inversion X'. split; [|exact I]. intros i c _ Hc. rewrite (Ew v eq_refl Ec) in Hc. lia.
    + apply (f_equal fst) in X. apply (f_equal fst) in X'. cbn [fst] in X, X'. subst js js'. split; [|exact I]. apply (entries_turned _ _ h h' a _ _ H Hr). intros i c Hi _. rewrite by_turning by (try exact L2; exact Hi). change (car RN) with R in *. rewrite L. apply diag_turned.
Qed.
Lemma f_generic_between j a b d n s : ro d = Difference -> ro a = Place /\ ro b = Place /\ n = 2%nat \/ ro a = Difference /\ ro b = Difference /\ (2 <= n)%nat ->
  framed_factor (build (LGenericBetween j a b d n s)) (build (LGenericBetween j a b d n s)).
Proof.
  intros Gd G. assert (Ra : ro a <> Still) by (destruct G as [(-> & _)|(-> & _)]; discriminate). assert (Rb : ro b <> Still) by (destruct G as [(_ & -> & _)|(_ & -> & _)]; discriminate). assert (Rd : ro d <> Still) by (rewrite Gd; discriminate).
  assert (N2 : (2 <= n)%nat) by (destruct G as [(_ & _ & ->)|(_ & _ & G)]; lia). assert (Sh : shift a = shift b) by (destruct G as [(A & B & _)|(A & B & _)]; [rewrite !shift_place by assumption|rewrite !shift_difference by assumption]; reflexivity).
  cbn [build]. unfold generic_between. cbv zeta. generalize (nunit / s)%num. intros w. turn n.
  - unfold gbetween_ref in *. pose proof (value_firsts h h' a H Ra) as Ya. pose proof (value_firsts h h' b H Rb) as Yb. pose proof (value_firsts h h' d H Rd) as Yd. unfold value_at in Ya, Yb, Yd.
    destruct (hget h a) as [va| |], (hget h' a) as [va'| |]; cbn [alike obind] in *; try contradiction; try discriminate. destruct (hget h b) as [vb| |], (hget h' b) as [vb'| |]; cbn [alike obind] in *; try contradiction; try discriminate.
    destruct (hget h d) as [vd| |], (hget h' d) as [vd'| |]; cbn [alike obind] in *; try contradiction; try discriminate. cbn [vval lib] in *.
    destruct (vec_minus (kval (l_kind vb)) (kval (l_kind va))) as [q| |] eqn:Eq; cbn [obind] in X; try discriminate. destruct (vec_minus (kval (l_kind vb')) (kval (l_kind va'))) as [q'| |] eqn:Eq'; cbn [obind] in X'; try discriminate.
    destruct (vec_minus q _) as [z| |] eqn:Ez; cbn [obind] in X; try discriminate. destruct (vec_minus q' _) as [z'| |] eqn:Ez'; cbn [obind] in X'; try discriminate. got X X'.
    destruct Ya as (Ya & Da), Yb as (Yb & Db), Yd as (Yd & Dd). specialize (Dd Gd). rewrite (shift_difference _ Gd) in Yd. rewrite Sh in Ya. destruct (firsts_nth _ _ _ Ya) as (A0 & A1), (firsts_nth _ _ _ Yb) as (B0 & B1), (firsts_nth _ _ _ Yd) as (D0 & D1). cbn [fst snd] in D0, D1.
    rewrite (nth_turned n i) by (try exact N2; exact Hi). rewrite !nth_vscale.
    destruct i as [|[|i]]; rewrite (nth_minus _ _ _ _ Ez'), (nth_minus _ _ _ _ Eq'), !(nth_minus _ _ _ _ Ez), !(nth_minus _ _ _ _ Eq); [rewrite A0, B0, D0; rring|rewrite A1, B1, D1; rring|].
    destruct G as [(_ & _ & G)|(Ea & Eb & _)]; [exfalso; lia|]. rewrite (rotated_nth _ _ i (Da Ea)), (rotated_nth _ _ i (Db Eb)), (rotated_nth _ _ i Dd). reflexivity.
  - unfold gbetween_jac in *. apply all3 in X. apply all3 in X'. destruct X as (B0 & B1 & B2 & X0 & X1 & X2 & ->), X' as (C0 & C1 & C2 & X0' & X1' & X2' & ->).
    split; [|split; [|split; [|exact I]]]; [eapply (blk_turned _ n h h' a)|eapply (blk_turned _ n h h' b)|eapply (blk_turned _ n h h' d)]; try exact H; try eassumption; intros i c Hi _; rewrite by_turning by assumption; apply diag_turned.
Qed.
Lemma same_minus (x y : list R) : length x = length y -> vec_minus (N:=RN) x y = Ok (vsub (N:=RN) x y).
Proof. unfold vec_minus. change (car RN) with R. intros ->. rewrite Nat.eqb_refl. reflexivity. Qed.
Lemma f_linear_velocity j a b c dt s : ro c = Difference -> ro a = Place /\ ro b = Place \/ ro a = Difference /\ ro b = Difference ->
  framed_factor (build (LLinearVelocity j a b c 2 dt s 0)) (build (LLinearVelocity j a b c 2 dt s 0)).
Proof.
  intros Gc G. assert (Ra : ro a <> Still) by (destruct G as [(-> & _)|(-> & _)]; discriminate). assert (Rb : ro b <> Still) by (destruct G as [(_ & ->)|(_ & ->)]; discriminate). assert (Rc : ro c <> Still) by (rewrite Gc; discriminate).
  assert (Sh : shift a = shift b) by (destruct G as [(A & B)|(A & B)]; [rewrite !shift_place by assumption|rewrite !shift_difference by assumption]; reflexivity).
  cbn [build]. unfold linear_velocity. cbv zeta. generalize (nunit / s)%num. intros w. turn 2%nat.
  - unfold linvel_ref in *. rd (value_firsts h h' b H Rb) Yb. destruct (segment 0 2 y) as [sb| |] eqn:Eb; cbn [obind] in X; try discriminate. destruct (segment 0 2 y') as [sb'| |] eqn:Eb'; cbn [obind] in X'; try discriminate.
    rd (value_firsts h h' a H Ra) Ya. destruct (segment 0 2 y0) as [sa| |] eqn:Ea; cbn [obind] in X; try discriminate. destruct (segment 0 2 y'0) as [sa'| |] eqn:Ea'; cbn [obind] in X'; try discriminate. rd (value_firsts h h' c H Rc) Yc.
    destruct (vec_minus (vsub sb sa) _) as [z| |] eqn:Ez; cbn [obind] in X; try discriminate. destruct (vec_minus (vsub sb' sa') _) as [z'| |] eqn:Ez'; cbn [obind] in X'; try discriminate. got X X'.
    destruct Ya as (Ya & _), Yb as (Yb & _), Yc as (Yc & _). rewrite (shift_difference _ Gc) in Yc. rewrite Sh in Ya. destruct (firsts_nth _ _ _ Ya) as (A0 & A1), (firsts_nth _ _ _ Yb) as (B0 & B1), (firsts_nth _ _ _ Yc) as (D0 & D1). cbn [fst snd] in D0, D1.
    rewrite (nth_turned 2 i) by lia. rewrite !nth_vscale. pose proof (fun i => nth_segment _ _ _ _ i Eb) as Sb. pose proof (fun i => nth_segment _ _ _ _ i Eb') as Sb'. pose proof (fun i => nth_segment _ _ _ _ i Ea) as Sa. pose proof (fun i => nth_segment _ _ _ _ i Ea') as Sa'. cbn [Nat.add] in *.
    assert (V : forall i, nth i (vsub (N:=RN) sb sa) 0 = nth i sb 0 - nth i sa 0) by (intros e; apply nth_minus; apply same_minus; rewrite (segment_length _ _ _ _ Eb), (segment_length _ _ _ _ Ea); reflexivity).
    assert (V' : forall i, nth i (vsub (N:=RN) sb' sa') 0 = nth i sb' 0 - nth i sa' 0) by (intros e; apply nth_minus; apply same_minus; rewrite (segment_length _ _ _ _ Eb'), (segment_length _ _ _ _ Ea'); reflexivity).
    destruct i as [|[|i]]; [| |lia]; rewrite (nth_minus _ _ _ _ Ez'), !(nth_minus _ _ _ _ Ez), !nth_mapdt, !V, V'; rewrite ?Sb, ?Sb', ?Sa, ?Sa' by lia; [rewrite A0, B0, D0; rring|rewrite A1, B1, D1; rring].
  - unfold linvel_jac in *. pose proof (hget_pair RV h h' c H) as Yc. destruct (hget h c) as [vc| |] eqn:Ec, (hget h' c) as [vc'| |] eqn:Ec'; cbn [alike obind withj] in *; try contradiction; try discriminate. pose proof (reframed_size phi tx ty ro c vc vc' Yc) as K. change (car RN) with R in *. rewrite K in X'. clear K.
    pose proof (turned_size phi tx ty ro c vc vc' Yc Rc) as K2. apply set3 in X. apply set3 in X'. destruct X as (B0 & B1 & B2 & X0 & X1 & X2 & ->), X' as (C0 & C1 & C2 & X0' & X1' & X2' & ->). remember (ksize (l_kind vc)) as dim eqn:Ed. 
    assert (F : forall (w : R) v B B', ro v <> Still ->
       (let* x := hget h v in if l_const x then Ok mempty else diag_block 2 (ksize (l_kind x)) 0 dim (w : RN)) = Ok B ->
       (let* x := hget h' v in if l_const x then Ok mempty else diag_block 2 (ksize (l_kind x)) 0 dim (w : RN)) = Ok B' -> turned_entries turning 2 h v B B').
    { intros w0 v B B' Rv Q Q'. apply (entries_turned _ 2 h h' v B B' H Rv). intros i q Hi Hq. pose proof (hget_pair RV h h' v H) as Y. unfold width in Hq. unfold hget in *. destruct (nth_error h v) as [x|], (nth_error h' v) as [x'|]; cbn [alike obind] in *; try contradiction; try discriminate.
      pose proof (proj1 (proj2 Y)) as Ek. cbn in Hq. rewrite <- Ek in Q'. destruct (l_const x); [cbn in Hq; lia|]. unfold diag_block in *.
      destruct ((dim <=? 2) && (0 + dim <=? ksize (l_kind x)))%bool; [|discriminate]. destruct ((dim <=? 2) && (0 + dim <=? ksize (l_kind x')))%bool; [|discriminate]. apply Ok_inj in Q. apply Ok_inj in Q'. subst B B'.
      rewrite by_turning by (try exact Hi; auto). unfold right_turned, left_turned. cbn [mat_at]. destruct dim as [|[|dim]]; [cbn in K2; lia|cbn in K2; lia|].
      destruct i as [|[|i]]; [| |lia]; destruct q as [|[|q]]; cbn [Nat.eqb Nat.add Nat.ltb Nat.leb andb]; zz; rring. }
    split; [|split; [|split; [|exact I]]].
    + exact (F _ a B0 C0 Ra X0 X0').
    + exact (F _ b B1 C1 Rb X1 X1').
    + eapply (blk_turned _ 2 h h' c); try exact H; try eassumption. intros i q Hi _. rewrite by_turning by (try exact Hi; auto). apply diag_turned.
Qed.
Ltac flat := unfold v2scale, v2sub, m2v, m2t, dcm2; cbn [fst snd v2x v2y Geom.a00 Geom.a01 Geom.a10 Geom.a11].
(** what is seen from a pose stays the same *)
Lemma local_turned h h' p l : heaps RV h h' -> ro p = Place -> ro l = Place ->
  alike (fun d d' => fst d' = fst d /\ same_heading (snd d') (snd d + phi)) (local2 h p l) (local2 h' p l).
Proof.
  intros H Rp Rl. unfold local2. pose proof (pose2_placed h h' p H Rp) as Y. destruct (pose2_at h p) as [y| |], (pose2_at h' p) as [y'| |]; cbn [alike obind] in *; try contradiction; auto.
  pose proof (value2_turned h h' l H ltac:(rewrite Rl; discriminate)) as Z. destruct (value2_at h l) as [z| |], (value2_at h' l) as [z'| |]; cbn [alike obind] in *; try contradiction; auto. destruct Y as (Y & Yh). rewrite (shift_place _ Rl) in Z. subst z'.
  destruct y as [[a b] t], y' as [P' t'], z as [c d]. cbn [fst snd] in *. subst P'. split; [|exact Yh]. destruct Yh as (C & S0). rewrite cos_plus in C. rewrite sin_plus in S0. pose proof (circle phi) as K.
  flat. gx. change (ncos (n:=RN)) with cos. change (nsin (n:=RN)) with sin. rewrite C, S0. revert K. generalize (cos phi) (sin phi) (cos t) (sin t). intros u v m n K. f_equal; match goal with |- ?a = ?b => change (@eq R a b) end.
  - transitivity (m * (c - a) * (u * u + v * v) + n * (d - b) * (u * u + v * v))%R; [cbn; ring|]. rewrite K. cbn. ring.
  - transitivity (- n * (c - a) * (u * u + v * v) + m * (d - b) * (u * u + v * v))%R; [cbn; ring|]. rewrite K. cbn. ring.
Qed.
Ltac passed X := match type of X with context [if ?b then _ else _] => destruct b; cbn [withj obind] in X; [discriminate X|] end.
Ltac by_circle K := match goal with |- ?a = ?b => change (@eq R a b); transitivity (b * (cos phi * cos phi + sin phi * sin phi))%R; [unfold Rdiv; ring|rewrite K; ring] end.
Lemma f_bearing2 j p l o s : ro p = Place -> ro l = Place -> framed_factor (build (LBearing2 j p l o s)) (build (LBearing2 j p l o s)).
Proof.
  intros Rp Rl. cbn [build]. unfold bearing_observation_2d. cbv zeta. generalize (nunit / s)%num. intros w. stand 1%nat.
  - unfold bear2_ref in *. rd (local_turned h h' p l H Rp Rl) Y. destruct y as [d t], y' as [d' t']. cbn [fst snd] in Y. destruct Y as (-> & _). cbn [fst snd] in *. got X X'. rewrite (still_sum 1 i (fun e => nth e _ 0) Hi). reflexivity.
  - unfold bear2_jac in *. rd (local_turned h h' p l H Rp Rl) Y. destruct y as [[a b] t], y' as [d' t']. cbn [fst snd] in Y. destruct Y as (-> & C & S0). cbn [fst snd v2x v2y] in *. passed X. cbn [withj] in X'. cbv zeta in X, X'. rewrite cos_plus in C. rewrite sin_plus in S0.
    apply set2 in X. apply set2 in X'. destruct X as (B0 & B1 & X0 & X1 & ->), X' as (C0 & C1 & X0' & X1' & ->). change (ncos (n:=RN)) with cos in *. change (nsin (n:=RN)) with sin in *. rewrite C, S0 in *. pose proof (circle phi) as K.
    split; [|split; [|exact I]]; [eapply (blk_turned _ 1 h h' p)|eapply (blk_turned _ 1 h h' l)]; try exact H; try eassumption; try (rewrite ?Rp, ?Rl; discriminate); intros i c Hi _; rewrite by_standing by exact Hi; clear -Hi K; destruct i; try lia; unfold right_turned; cols c; entries; gx; try rring; by_circle K.
Qed.
Lemma f_range2 j p l r o s t0 : ro p = Place -> ro l = Place -> framed_factor (build (LRangeBearing2 j p l r o s t0)) (build (LRangeBearing2 j p l r o s t0)).
Proof.
  intros Rp Rl. cbn [build]. unfold range_bearing_2d. cbv zeta. generalize (nunit / s)%num (nunit / t0)%num. intros w w2. stand 2%nat.
  - unfold range2_ref in *. rd (local_turned h h' p l H Rp Rl) Y. destruct y as [d t], y' as [d' t']. cbn [fst snd] in Y. destruct Y as (-> & _). cbn [fst snd] in *. cbv zeta in X, X'. got X X'. rewrite (still_sum 2 i (fun e => nth e _ 0) Hi). reflexivity.
  - unfold range2_jac in *. rd (local_turned h h' p l H Rp Rl) Y. destruct y as [[a b] t], y' as [d' t']. cbn [fst snd] in Y. destruct Y as (-> & C & S0). cbn [fst snd v2x v2y] in *. passed X. cbn [withj] in X'. cbv zeta in X, X'. rewrite cos_plus in C. rewrite sin_plus in S0.
    apply set2 in X. apply set2 in X'. destruct X as (B0 & B1 & X0 & X1 & ->), X' as (C0 & C1 & X0' & X1' & ->). change (ncos (n:=RN)) with cos in *. change (nsin (n:=RN)) with sin in *. rewrite C, S0 in *. pose proof (circle phi) as K.
    split; [|split; [|exact I]]; [eapply (blk_turned _ 2 h h' p)|eapply (blk_turned _ 2 h h' l)]; try exact H; try eassumption; try (rewrite ?Rp, ?Rl; discriminate); intros i c Hi _; rewrite by_standing by exact Hi; clear -Hi K; destruct i as [|[|i]]; try lia; unfold right_turned; cols c; entries; gx; try rring; by_circle K.
Qed.
Lemma diag2_turned (w v : RN) i c : (i < 3)%nat -> right_turned (diag2 w v) i c = left_turned (diag2 w v) i c.
Proof. intros Hi. unfold right_turned, left_turned. i3 i; cols c; entries; zz; first [reflexivity|rring]. Qed.
Lemma f_pose2_prior j p x s t0 x' : ro p = Place -> displaced_to phi tx ty [vx x; vy x] [vx x'; vy x'] -> same_heading (vz x') (vz x + phi) -> framed_factor (build (LPose2Prior j p x s t0)) (build (LPose2Prior j p x' s t0)).
Proof.
  intros Rp D A. cbn [build]. unfold pose2_prior. cbv zeta. generalize (nunit / s)%num (nunit / t0)%num. intros w w2. destruct x as [x0 x1 x2], x' as [z0 z1 z2]. cbn [vx vy vz] in *. destruct D as (p0 & q0' & z & D1 & D2). injection D1 as <- <- <-. injection D2 as -> ->. turn 3%nat.
  - unfold pri2_ref in *. rd (pose2_placed h h' p H Rp) Y. destruct y as [[a b] t], y' as [d' t']. cbn [fst snd v2x v2y] in Y. destruct Y as (-> & Yh). cbn [fst snd v2x v2y vx vy vz] in *.
    assert (E : wrap_angle (N:=RN) (t' - z2)%num = wrap_angle (N:=RN) (t - x2)%num).
    { apply wrap_same. change (t - x2)%num with (t - x2)%R. replace (t - x2)%R with ((t + phi) - (x2 + phi))%R by ring. apply heading_minus; assumption. }
    rewrite E in X'. got X X'. rewrite (nth_turned 3 i) by lia. generalize (wrap_angle (N:=RN) (t - x2)%num). intros q. i3 i; flat; entries; gx; rring.
  - unfold pri2_jac in *. apply set1 in X. apply set1 in X'. destruct X as (B0 & X0 & ->), X' as (C0 & X0' & ->). split; [|exact I]. eapply (blk_turned _ 3 h h' p); try exact H; try eassumption; try (rewrite Rp; discriminate). intros i c Hi _. rewrite by_turning by (try exact Hi; lia). apply diag2_turned. exact Hi.
Qed.
Lemma f_pose2_between j a b m s t0 : ro a = Place -> ro b = Place -> ro m = Difference -> framed_factor (build (LPose2Between j a b m s t0 false)) (build (LPose2Between j a b m s t0 false)).
Proof.
  intros Ra Rb Rm. assert (Rm' : ro m <> Still) by (rewrite Rm; discriminate). cbn [build]. unfold pose2_between. cbv zeta. generalize (nunit / s)%num (nunit / t0)%num. intros w w2. turn 3%nat.
  - unfold bet2_ref in *. rd (pose2_placed h h' b H Rb) Y. rd (pose2_placed h h' a H Ra) Y1. rd (value2_turned h h' m H Rm') Y2. rd (value_firsts h h' m H Rm') Y3. rewrite (shift_difference _ Rm) in Y2.
    destruct y as [[b0 b1] tb], y' as [d' tb'], y0 as [[a0 a1] ta], y'0 as [c' ta'], y1 as [m0 m1]. cbn [fst snd v2x v2y] in *. destruct Y as (-> & Yb), Y1 as (-> & Ya). subst y'1. destruct Y3 as (_ & Y3). specialize (Y3 Rm). 
    assert (N3 : nth_error y'2 2 = nth_error y2 2) by (destruct Y3 as (e0 & e1 & z & -> & ->); reflexivity). change (car RN) with R in *. rewrite N3 in X'. destruct (nth_error y2 2) as [ma|]; [|discriminate X].
    assert (E : wrap_angle (N:=RN) (tb' - ta' - ma)%num = wrap_angle (N:=RN) (tb - ta - ma)%num).
    { apply wrap_same. change (tb - ta - ma)%num with (tb - ta - ma)%R. replace (tb - ta - ma)%R with (((tb + phi) - (ta + phi)) - ma)%R by ring. apply heading_minus; [apply heading_minus; assumption|split; reflexivity]. }
    rewrite E in X'. got X X'. rewrite (nth_turned 3 i) by lia. generalize (wrap_angle (N:=RN) (tb - ta - ma)%num). intros q. i3 i; flat; entries; gx; rring.
  - unfold bet2_jac in *. cbv zeta in X, X'. apply set3 in X. apply set3 in X'. destruct X as (B0 & B1 & B2 & X0 & X1 & X2 & ->), X' as (C0 & C1 & C2 & X0' & X1' & X2' & ->).
    split; [|split; [|split; [|exact I]]]; [eapply (blk_turned _ 3 h h' a)|eapply (blk_turned _ 3 h h' b)|eapply (blk_turned _ 3 h h' m)]; try exact H; try eassumption; try (rewrite ?Ra, ?Rb; discriminate); intros i c Hi _; rewrite by_turning by (try exact Hi; lia); apply diag2_turned; exact Hi.
Qed.
Theorem measurements_framed f f' : same_in_frame phi tx ty ro f f' -> framed_factor f f'.
Proof.
  intros (lf & lf' & -> & -> & [(-> & H)|H]); [apply f_still; exact H|]. destruct lf, lf'; try contradiction H; cbn in H.
  - destruct H as (E & H). injection E as <- <- <-. apply f_generic_prior. exact H.
  - destruct H as (E & D & H). injection E as <- <- <- <- <- <-. apply f_generic_between; assumption.
  - destruct H as (E & D & -> & -> & H). injection E as <- <- <- <- <- <- <- <-. apply f_linear_velocity; assumption.
  - destruct H as (E & P & L). injection E as <- <- <- <- <-. apply f_bearing2; assumption.
  - destruct H as (E & P & L). injection E as <- <- <- <- <- <- <-. apply f_range2; assumption.
  - destruct H as (E & P & D & A). injection E as <- <- <- <-. apply f_pose2_prior; assumption.
  - destruct H as (E & A & B & M & ->). injection E as <- <- <- <- <- <- <-. apply f_pose2_between; assumption.
Qed.
End Factors.
