(** Holding variables constant does not enlarge the covariances of the others. *)
From Coq Require Import List Arith ZArith Bool Lia Permutation Reals Lra.
From Verif Require Import Base Sparse Graph SpecGraph SpecOpt ListLemmas GraphLayout GraphFin GraphBasic GraphVec GraphDense GraphSparse Optimizer OptLemmas OptWork OptMore Real RSum SpecSolver SpecSteps OptSteps SpecBlocks OptOrder OptPart Change SpecCov CovRun SpecMarginal Marginal MarginalMore MarginalRun SpecInfo Info SpecGrown Grown GrownRun SpecPinned.
From Verif Require Import Geom Vars VarsLemmas FactorsLin FactorsGeo FactorLib SpecShape FactorSafe OptStepsLib SpecFree.
Import ListNotations.
Local Open Scope nat_scope.
Set Bullet Behavior "Strict Subproofs".

Section Core.
Context {V : Type} (VC : vclass RN V).
Notation factor := (factor (N:=RN) (V:=V)).
Context (h h' : @heap V) (vs vs' : list addr) (fs fs' : list factor).
Hypothesis Nd : NoDup vs.
Hypothesis Nd' : NoDup vs'.
Hypothesis Hg : same_graph vs vs' fs fs'.
Hypothesis Wd : forall a, In a vs -> width VC h' a = width VC h a \/ width VC h' a = 0.
Hypothesis Dv : forall f a i c, In f fs -> c < width VC h' a -> deriv h' f a i c = deriv h f a i c.

Lemma pinned_perm : Permutation vs' vs.
Proof. apply NoDup_Permutation; auto. intros a. symmetry. apply (proj1 Hg). Qed.
Definition only_free (w : addr -> nat -> R) (a : addr) (c : nat) : R := if c <? width VC h' a then w a c else 0%R.
Lemma first_order_pinned w f i : In f fs -> first_order VC h vs (only_free w) f i = first_order VC h' vs' w f i.
Proof.
  intros Hf. unfold first_order. rewrite (lsum_perm _ _ _ pinned_perm). apply lsum_ext. intros a Ha. unfold only_free. destruct (Wd a Ha) as [E|E].
  - rewrite <- E. apply rsum_ext. intros c Hc. rewrite (proj2 (Nat.ltb_lt _ _) Hc), (Dv f a i c Hf Hc). reflexivity.
  - rewrite E. cbn [rsum]. apply rsum_zero. intros c _. rewrite (proj2 (Nat.ltb_ge c 0)) by lia. ring.
Qed.
Lemma energy_pinned w : joint VC h vs fs (only_free w) (only_free w) = joint VC h' vs' fs' w w.
Proof.
  unfold joint. rewrite (lsum_perm _ _ _ (proj2 Hg)). apply lsum_ext. intros f Hf. apply rsum_ext. intros i _. rewrite (first_order_pinned w f i Hf). reflexivity.
Qed.
Lemma marginal_pinned b P Q (z : nat -> R) : In b vs -> 0 < width VC h' b -> marginal VC h vs fs b P -> marginal VC h' vs' fs' b Q ->
  (rsum (width VC h b) (fun i => z i * rsum (width VC h b) (fun e => mat_at Q i e * z e)) <= rsum (width VC h b) (fun i => z i * rsum (width VC h b) (fun e => mat_at P i e * z e)))%R.
Proof.
  intros Hb Wb MP MQ. destruct (combination VC h vs fs b P z MP _ (le_n _)) as (x & X1 & X2). destruct (combination VC h' vs' fs' b Q z MQ _ (le_n _)) as (w & W1 & W2).
  pose proof (proj1 (proj1 Hg b) Hb) as Hb'. assert (Eb : width VC h' b = width VC h b) by (destruct (Wd b Hb); lia).
  assert (A : forall y, joint VC h vs fs x y = rsum (width VC h b) (fun c => z c * y b c)%R).
  { intros y. rewrite joint_normal, <- (block_sum VC h vs b z y Nd Hb). apply lsum_ext. intros a Ha. apply rsum_ext. intros c Hc. rewrite (X1 a c Ha Hc). reflexivity. }
  assert (B : joint VC h' vs' fs' w w = rsum (width VC h b) (fun c => z c * w b c)%R).
  { rewrite joint_normal. rewrite <- Eb, <- (block_sum VC h' vs' b z w Nd' Hb'). apply lsum_ext. intros a Ha. apply rsum_ext. intros c Hc. rewrite (W1 a c Ha Hc). reflexivity. }
  pose proof (joint_square VC h vs fs x (only_free w)) as S. rewrite (energy_pinned w), B, !A in S.
  rewrite (rsum_ext _ (fun c => z c * only_free w b c)%R (fun c => z c * w b c)%R) in S by (intros c Hc; unfold only_free; rewrite Eb, (proj2 (Nat.ltb_lt _ _) Hc); reflexivity).
  rewrite Eb in W2. rewrite <- (rsum_ext _ (fun c => z c * w b c)%R _ (fun c Hc => f_equal (Rmult (z c)) (W2 c Hc))). rewrite <- (rsum_ext _ (fun c => z c * x b c)%R _ (fun c Hc => f_equal (Rmult (z c)) (X2 c Hc))). lra.
Qed.
Lemma answers_pinned est est' : answers VC h vs fs est -> answers VC h' vs' fs' est' -> forall b, In b vs -> 0 < width VC h' b -> no_larger (est b) (est' b).
Proof.
  intros A A' b Hb Wb P E. assert (Eb : width VC h' b = width VC h b) by (destruct (Wd b Hb); lia).
  destruct A as [((d & Hd) & N)|(X & K)]; [rewrite (N b Hb) in E; discriminate|].
  destruct A' as [((d' & (a & c & Ha & Hc & Hx) & Z) & N')|(X' & K')].
  - exfalso. apply (X (only_free d')). apply (proj1 Hg) in Ha. split.
    + exists a, c. split; [exact Ha|]. split; [destruct (Wd a Ha); lia|]. unfold only_free. rewrite (proj2 (Nat.ltb_lt _ _) Hc). exact Hx.
    + intros f i Hf Hi. rewrite (first_order_pinned d' f i Hf). apply Z; [|exact Hi]. exact (Permutation_in f (Permutation_sym (proj2 Hg)) Hf).
  - destruct (K b Hb) as (P0 & M & [(E0 & L)|(E0 & _)]); [lia| |congruence]. assert (P0 = P) by congruence. subst P0.
    destruct (K' b (proj1 (proj1 Hg b) Hb) Wb) as (Q & MQ & AQ). rewrite Eb in AQ.
    destruct AQ as [(EQ & _)|(_ & i & Hi & LQ)].
    + exists Q. split; [exact EQ|]. pose proof M as (M1 & M2 & _). pose proof MQ as (Q1 & Q2 & _). rewrite Eb in Q1, Q2. split; [congruence|]. split; [congruence|].
      intros z. rewrite (quad_rows Q _ z Q1), (quad_rows P _ z M1). exact (marginal_pinned b P Q (fun i => nth i z 0%R) Hb Wb M MQ).
    + exfalso. specialize (L i Hi). pose proof (marginal_pinned b P Q (fun j => if j =? i then 1%R else 0%R) Hb Wb M MQ) as S.
      assert (T : forall T : mat RN, rsum (width VC h b) (fun j => (if j =? i then 1 else 0) * rsum (width VC h b) (fun e => mat_at T j e * (if e =? i then 1 else 0)))%R = mat_at T i i).
      { intros T. rewrite (rsum_delta _ i _ Hi). rewrite (rsum_ext _ _ (fun e => (if e =? i then 1 else 0) * mat_at T i e)%R) by (intros; apply Rmult_comm). apply (rsum_delta _ i _ Hi). }
      rewrite !T in S. change (car RN) with R in *. lra.
Qed.
End Core.

Section Two.
Context {V : Type} (VC : vclass RN V) {S S' : Type} (SV : solver RN S) (SV' : solver RN S') (EV EV' : nat -> env (N:=RN) (V:=V)).
Hypothesis Hok : vclass_ok VC.
Hypothesis HE : forall n, env_ok (EV n).
Hypothesis HE' : forall n, env_ok (EV' n).
Hypothesis HF : factorising_solver SV.
Hypothesis HF' : factorising_solver SV'.
Theorem pinned_covariances (I I' : V -> Prop) l1 l1' l2 l2' h1 h1' g1 g1' (p p' : pstate (N:=RN) (V:=V) (S:=S)) (q q' : pstate (N:=RN) (V:=V) (S:=S')) :
  finalized_history VC l1 l2 h1 (p_heap p) g1 (p_graph p) -> unfinalized VC ([], empty_graph) l1 ->
  finalized_history VC l1' l2' h1' (p_heap q) g1' (p_graph q) -> unfinalized VC ([], empty_graph) l1' ->
  let vs := get_all_variables (p_graph p) in let fs := get_all_factors (p_graph p) in let vs' := get_all_variables (p_graph q) in let fs' := get_all_factors (p_graph q) in
  pinned VC (p_heap p) (p_heap q) -> same_graph vs vs' fs fs' ->
  (forall f h h' js js', In f fs -> revalued VC (p_heap p) h -> revalued VC (p_heap q) h' -> f_jac f h [] = (js, Ok tt) -> f_jac f h' [] = (js', Ok tt) ->
     forall k a, nth_error (f_vars f) k = Some (Some a) -> 0 < width VC h' a -> nth_error js' k = nth_error js k) ->
  Forall (factor_wf VC (p_heap p) vs) fs -> some_active VC (p_heap p) fs -> Forall buf_indep fs -> shape_contract VC (p_heap p) fs ->
  Forall (factor_wf VC (p_heap q) vs') fs' -> some_active VC (p_heap q) fs' -> Forall buf_indep fs' -> shape_contract VC (p_heap q) fs' ->
  st_method (p_set p) = GaussNewton \/ undoable VC I /\ (forall a v, nth_error (p_heap p) a = Some v -> I v) ->
  st_method (p_set q) = GaussNewton \/ undoable VC I' /\ (forall a v, nth_error (p_heap q) a = Some v -> I' v) ->
  1 <= st_max_iter (p_set p) -> 1 <= st_max_iter (p_set q) -> p_hvalid p = false -> p_hvalid q = false ->
  optimize VC SV EV p = (p', Ok tt) -> optimize VC SV' EV' q = (q', Ok tt) -> p_caught p' = false -> p_caught q' = false ->
  exists p1 q1, prepare SV p' = (p1, Ok tt) /\ prepare SV' q' = (q1, Ok tt) /\
    forall b, In b vs -> 0 < width VC (p_heap q) b -> no_larger (snd (estimate_covariance VC SV (Some b) p1)) (snd (estimate_covariance VC SV' (Some b) q1)).
Proof.
  intros A B A' B' vs fs vs' fs' Th Gr Cj W Ac Bf Sh W' Ac' Bf' Sh' Hm Hm' Hn Hn' Hv Hv' E E' Hc Hc'.
  destruct (held_answers VC SV EV Hok HE HF I l1 l2 h1 g1 p p' A B W Ac Bf Sh Hm Hn Hv E Hc) as (Nd & Hl & h & p1 & R1 & P1 & An & Jo).
  destruct (held_answers VC SV' EV' Hok HE' HF' I' l1' l2' h1' g1' q q' A' B' W' Ac' Bf' Sh' Hm' Hn' Hv' E' Hc') as (Nd' & Hl' & h' & q1 & R1' & P1' & An' & Jo'). fold vs fs in Nd, Hl, An, Jo. fold vs' fs' in Nd', Hl', An', Jo'.
  exists p1, q1. split; [exact P1|]. split; [exact P1'|].
  assert (Wp : forall a, In a vs -> width VC h a = width VC (p_heap p) a) by (intros a Ha; rewrite Forall_forall in Hl; apply (revalued_width VC Hok); auto).
  assert (Wq : forall a, In a vs' -> width VC h' a = width VC (p_heap q) a) by (intros a Ha; rewrite Forall_forall in Hl'; apply (revalued_width VC Hok); auto).
  intros b Hb Wb. apply (answers_pinned VC h h' vs vs' fs fs' Nd Nd' Gr) with (3 := An) (4 := An'); [| |exact Hb|].
  - intros a Ha. rewrite (Wq a (proj1 (proj1 Gr a) Ha)), (Wp a Ha). rewrite Forall_forall in Hl. specialize (Hl a Ha). unfold width.
    destruct (nth_error (p_heap p) a) as [v|] eqn:Ev; [|apply nth_error_None in Ev; unfold addr in *; lia]. destruct (Th a v Ev) as (v' & -> & _ & Sz & C).
    destruct (vconst VC v'); [right; reflexivity|]. left. destruct (vconst VC v); [specialize (C eq_refl); discriminate|exact Sz].
  - intros f a i c Hf Hw. unfold deriv. destruct (listed_at a (f_vars f)) as [k|] eqn:El; [|reflexivity].
    destruct (Jo f Hf) as (js & Ej). destruct (Jo' f (Permutation_in f (Permutation_sym (proj2 Gr)) Hf)) as (js' & Ej').
    rewrite Ej, Ej'. cbn [fst]. rewrite (Cj f h h' js js' Hf R1 R1' Ej Ej' k a (listed_at_nth _ _ _ El)); [reflexivity|lia].
  - rewrite (Wq b (proj1 (proj1 Gr b) Hb)). exact Wb.
Qed.
End Two.

(** ** Library classes: the blocks of the variables that are not constant *)
Lemma setj_ok k o (x : jacs (N:=RN)) js : setj k o x = (js, Ok tt) -> exists J M, x = (J, Ok tt) /\ o = Ok M /\ k < length J /\ js = lupd k M J.
Proof.
  destruct x as [J r]. unfold setj, withj. destruct r as [[]| |]; [|discriminate|discriminate]. destruct o as [M| |]; [|discriminate|discriminate].
  destruct (Nat.ltb_spec k (length J)); [|discriminate]. intros X. injection X as <-. eauto 6.
Qed.
Definition holds_more (h h' : @heap (lvar RN)) : Prop :=
  forall a v v', nth_error h a = Some v -> nth_error h' a = Some v' -> ksize (l_kind v') = ksize (l_kind v) /\ (l_const v = true -> l_const v' = true).
Lemma free_at h h' a v v' : holds_more h h' -> hget h a = Ok v -> hget h' a = Ok v' -> 0 < width (lib RN) h' a -> l_const v = false /\ l_const v' = false /\ ksize (l_kind v') = ksize (l_kind v).
Proof.
  intros Hm. unfold hget, width. destruct (nth_error h a) as [u|] eqn:Eu; [|discriminate]. destruct (nth_error h' a) as [u'|] eqn:Eu'; [|discriminate]. intros X Y. injection X as <-. injection Y as <-.
  destruct (Hm a u u' Eu Eu') as (Sz & C). cbn [vconst lib]. destruct (l_const u'); [intros Hw; lia|]. intros _. split; [|auto]. destruct (l_const u); [specialize (C eq_refl); discriminate|reflexivity].
Qed.
Lemma blk_free h h' a M X X' : holds_more h h' -> block_for (lib RN) h a M = Ok X -> block_for (lib RN) h' a M = Ok X' -> 0 < width (lib RN) h' a -> X' = X.
Proof.
  intros Hm. unfold block_for. destruct (hget h a) as [v| |] eqn:Ev; [|discriminate|discriminate]. destruct (hget h' a) as [v'| |] eqn:Ev'; [|discriminate|discriminate]. cbn [obind vconst lib].
  intros A B Hw. destruct (free_at h h' a v v' Hm Ev Ev' Hw) as (C & C' & _). rewrite C in A. rewrite C' in B. congruence.
Qed.
Ltac peel H := let J := fresh "J" in let M := fresh "M" in let O := fresh "O" in let L := fresh "L" in let Q := fresh "Q" in
  apply setj_ok in H; destruct H as (J & M & H & O & L & Q); subst.
Ltac same_block := unfold blk in *; match goal with
  | Hm : holds_more ?h ?h', A : block_for _ ?h ?a ?M = Ok ?X, B : block_for _ ?h' ?a ?M = Ok ?X', W : 0 < width _ ?h' ?a |- _ => pose proof (blk_free h h' a M X X' Hm A B W); subst end.
Ltac which k H := destruct k as [|[|[|k]]]; cbn in H; try discriminate H; try (destruct k; discriminate H); injection H as H; subst.
Lemma pinned_blocks h h' (lf : lib_factor RN) js js' : value_free lf -> holds_more h h' -> f_jac (build lf) h [] = (js, Ok tt) -> f_jac (build lf) h' [] = (js', Ok tt) ->
  forall k a, nth_error (f_vars (build lf)) k = Some (Some a) -> 0 < width (lib RN) h' a -> nth_error js' k = nth_error js k.
Proof.
  intros Vf Hm E E' k x Hk Hw.
  destruct lf; try destruct loc; cbn [value_free] in Vf; try contradiction; cbn [build f_jac f_vars generic_prior generic_between linear_velocity pose_position_prior pose_position_between pose2_prior pose2_between] in *.
  - unfold gprior_jac, all_blocks in E, E'. which k Hk. destruct (hget h x) as [v| |] eqn:Ev; [|discriminate|discriminate]. destruct (hget h' x) as [v'| |] eqn:Ev'; [|discriminate|discriminate]. cbn [obind vconst lib] in E, E'.
    destruct (free_at h h' x v v' Hm Ev Ev' Hw) as (C & C' & _). rewrite C in E. rewrite C' in E'. congruence.
  - unfold gbetween_jac, all_blocks in E, E'.
    destruct (block_for (lib RN) h a _) as [A| |] eqn:EA in E; [|discriminate|discriminate]. cbn [obind] in E. destruct (block_for (lib RN) h b _) as [B| |] eqn:EB in E; [|discriminate|discriminate]. cbn [obind] in E.
    destruct (block_for (lib RN) h d _) as [D| |] eqn:ED in E; [|discriminate|discriminate]. cbn [obind] in E.
    destruct (block_for (lib RN) h' a _) as [A'| |] eqn:EA' in E'; [|discriminate|discriminate]. cbn [obind] in E'. destruct (block_for (lib RN) h' b _) as [B'| |] eqn:EB' in E'; [|discriminate|discriminate]. cbn [obind] in E'.
    destruct (block_for (lib RN) h' d _) as [D'| |] eqn:ED' in E'; [|discriminate|discriminate]. cbn [obind] in E'. injection E as <-. injection E' as <-.
    which k Hk; same_block; reflexivity.
  - unfold linvel_jac, withj in E, E'. cbn zeta in E, E'.
    destruct (hget h c) as [v2| |] eqn:E2; [|discriminate|discriminate]. destruct (hget h' c) as [v2'| |] eqn:E2'; [|discriminate|discriminate]. cbn [obind] in E, E'.
    peel E. peel E. peel E. peel E'. peel E'. peel E'. injection E as <-. injection E' as <-.
    assert (Z2 : ksize (l_kind v2') = ksize (l_kind v2)).
    { revert E2 E2'. unfold hget. destruct (nth_error h c) as [u|] eqn:Eu; [|discriminate]. destruct (nth_error h' c) as [u'|] eqn:Eu'; [|discriminate]. intros X Y. injection X as <-. injection Y as <-. exact (proj1 (Hm c u u' Eu Eu')). }
    which k Hk.
    + destruct (hget h x) as [v| |] eqn:Ev; [|discriminate|discriminate]. destruct (hget h' x) as [v'| |] eqn:Ev'; [|discriminate|discriminate]. cbn [obind] in *.
      destruct (free_at h h' x v v' Hm Ev Ev' Hw) as (C & C' & Sz). rewrite C in *. rewrite C', Sz, Z2 in *. cbn. congruence.
    + destruct (hget h x) as [v| |] eqn:Ev; [|discriminate|discriminate]. destruct (hget h' x) as [v'| |] eqn:Ev'; [|discriminate|discriminate]. cbn [obind] in *.
      destruct (free_at h h' x v v' Hm Ev Ev' Hw) as (C & C' & Sz). rewrite C in *. rewrite C', Sz, Z2 in *. cbn. congruence.
    + same_block. reflexivity.
  - unfold pospri_jac in E, E'. peel E. peel E'. injection E as <-. injection E' as <-. which k Hk. same_block. reflexivity.
  - unfold posbet_jac in E, E'. cbn zeta in E, E'. peel E. peel E. peel E. peel E'. peel E'. peel E'. injection E as <-. injection E' as <-. which k Hk; same_block; reflexivity.
  - unfold pri2_jac in E, E'. peel E. peel E'. injection E as <-. injection E' as <-. which k Hk. same_block. reflexivity.
  - unfold bet2_jac in E, E'. cbn zeta in E, E'. peel E. peel E. peel E. peel E'. peel E'. peel E'. injection E as <-. injection E' as <-. which k Hk; same_block; reflexivity.
Qed.

Theorem pinned_covariances_lib {S S' : Type} (SV : solver RN S) (SV' : solver RN S') (EV EV' : nat -> env (N:=RN) (V:=lvar RN)) (HE : forall n, env_ok (EV n)) (HE' : forall n, env_ok (EV' n)) (HF : factorising_solver SV) (HF' : factorising_solver SV')
  l1 l1' l2 l2' h1 h1' g1 g1' (p p' : pstate (N:=RN) (V:=lvar RN) (S:=S)) (q q' : pstate (N:=RN) (V:=lvar RN) (S:=S')) :
  finalized_history (lib RN) l1 l2 h1 (p_heap p) g1 (p_graph p) -> unfinalized (lib RN) ([], empty_graph) l1 -> careful ([], empty_graph) l1 -> careful (h1, g1) l2 ->
  finalized_history (lib RN) l1' l2' h1' (p_heap q) g1' (p_graph q) -> unfinalized (lib RN) ([], empty_graph) l1' -> careful ([], empty_graph) l1' -> careful (h1', g1') l2' ->
  let vs := get_all_variables (p_graph p) in let fs := get_all_factors (p_graph p) in let vs' := get_all_variables (p_graph q) in let fs' := get_all_factors (p_graph q) in
  pinned (lib RN) (p_heap p) (p_heap q) -> same_graph vs vs' fs fs' -> Forall (fun f => exists lf, f = build lf /\ value_free lf) fs ->
  Forall (factor_wf (lib RN) (p_heap p) vs) fs -> some_active (lib RN) (p_heap p) fs -> Forall (factor_wf (lib RN) (p_heap q) vs') fs' -> some_active (lib RN) (p_heap q) fs' ->
  st_method (p_set p) = GaussNewton \/ (forall a v, nth_error (p_heap p) a = Some v -> real_kind (l_kind v)) ->
  st_method (p_set q) = GaussNewton \/ (forall a v, nth_error (p_heap q) a = Some v -> real_kind (l_kind v)) ->
  1 <= st_max_iter (p_set p) -> 1 <= st_max_iter (p_set q) -> p_hvalid p = false -> p_hvalid q = false ->
  optimize (lib RN) SV EV p = (p', Ok tt) -> optimize (lib RN) SV' EV' q = (q', Ok tt) -> p_caught p' = false -> p_caught q' = false ->
  exists p1 q1, prepare SV p' = (p1, Ok tt) /\ prepare SV' q' = (q1, Ok tt) /\
    forall b, In b vs -> 0 < width (lib RN) (p_heap q) b -> no_larger (snd (estimate_covariance (lib RN) SV (Some b) p1)) (snd (estimate_covariance (lib RN) SV' (Some b) q1)).
Proof.
  intros A B C1 C2 A' B' C1' C2' vs fs vs' fs' Th Gr Hfr W Ac W' Ac' Hm Hm' Hn Hn' Hv Hv' E E' Hc Hc'.
  destruct (lib_history _ _ _ _ _ _ A C1 C2) as (G1 & G2). destruct (lib_history _ _ _ _ _ _ A' C1' C2') as (G1' & G2').
  apply (pinned_covariances (lib RN) SV SV' EV EV' lib_ok HE HE' HF HF' (fun v => real_kind (l_kind v)) (fun v => real_kind (l_kind v)) l1 l1' l2 l2' h1 h1' g1 g1' p p' q q'); auto using traceable_undoable.
  intros f h h' js js' Hf R1 R1' Ej Ej' k a. rewrite Forall_forall in Hfr. destruct (Hfr f Hf) as (lf & -> & Vf). apply (pinned_blocks h h' lf js js' Vf); [|exact Ej|exact Ej'].
  clear - Th R1 R1'. intros b v v' Ev Ev'.
  assert (L : b < length (p_heap p)).
  { assert (length h = length (p_heap p)) as <-; [|apply nth_error_Some; congruence]. clear - R1. induction R1; congruence. }
  destruct (nth_error (p_heap p) b) as [u|] eqn:Eu; [|apply nth_error_None in Eu; lia]. destruct (Th b u Eu) as (u' & Eu' & _ & Sz & C).
  destruct (revalued_hpres (lib RN) lib_ok _ _ R1 b u Eu) as (x & Ex & _ & Sx & Cx). rewrite Ev in Ex. injection Ex as <-.
  destruct (revalued_hpres (lib RN) lib_ok _ _ R1' b u' Eu') as (x & Ex & _ & Sx' & Cx'). rewrite Ev' in Ex. injection Ex as <-.
  specialize (Cx eq_refl). specialize (Cx' eq_refl). cbn [vsize vconst lib] in *. split; [congruence|]. rewrite Cx, Cx'. exact C.
Qed.
