(** Proofs for PropsNumJac: detailed_factor_test runs to its end on graphs of library objects. *)
From Coq Require Import List Arith ZArith QArith Bool Lia.
From Verif Require Import Base Sparse Graph Geom Vars SpecGraph ListLemmas FactorsLin FactorsGeo FactorLib SpecFactor SpecShape FactorShape FactorSafe NumJac SpecTools NumJacFacts NumJacLib.
Import ListNotations.
Set Bullet Behavior "Strict Subproofs".
Local Open Scope nat_scope.

Section Any.
Context {N : num}.
Notation heap := (@heap (lvar N)).
Definition no_empty (h : heap) : Prop := forall a v, nth_error h a = Some v -> 0 < ksize (l_kind v).
Lemma rows_pos (h : heap) (f : lib_factor N) : no_empty h -> well_used h f -> 0 < f_rsize (build f).
Proof.
  intros P. destruct f; cbn [build well_used]; intros W;
    try (cbn; lia).
  - destruct W as (v & Hv & _ & K). unfold of_size in K. cbn. rewrite <- K. exact (P _ _ Hv).
  - destruct W as ((v & Hv & _ & K) & _). unfold of_size in K. cbn. rewrite <- K. exact (P _ _ Hv).
  - destruct W as (_ & _ & (v & Hv & _ & K)). unfold of_size in K. cbn. rewrite <- K. exact (P _ _ Hv).
Qed.
Lemma max_abs_runs (M : mat N) : 0 < mrows M -> 0 < mcols M -> exists m, max_abs M = Ok m.
Proof. intros A B. unfold max_abs, coeffs. destruct (mcols M) as [|c]; [lia|]. destruct (mrows M) as [|r]; [lia|]. cbn. eauto. Qed.
Lemma block_runs tol (v : lvar N) (A B : mat N) r : 0 < r -> 0 < vsize (lib N) v ->
  (if l_const v then mrows B = 0 /\ mcols B = 0 else mrows B = r /\ mcols B = vsize (lib N) v) -> exists b, test_block (lib N) tol v A B = Ok b.
Proof.
  intros Hr Hs HB. unfold test_block. change (vconst (lib N) v) with (l_const v). destruct (l_const v); [eauto|]. destruct HB as (E1 & E2).
  destruct ((mrows A =? mrows B) && (mcols A =? mcols B)); cbn [negb]; [|eauto].
  destruct (max_abs_runs B) as (m & ->); try lia. cbn [obind]. destruct (max_abs_runs (mminus B A)) as (m' & ->); cbn; try lia. eauto.
Qed.
Lemma blocks_run tol (h : heap) r vars Ja Jn : 0 < r -> no_empty h -> length Ja = length vars -> shaped h r vars Jn -> exists b, test_blocks (lib N) tol h vars Ja Jn = Ok b.
Proof.
  intros Hr P. revert Ja Jn. induction vars as [|p vars IH]; intros Ja Jn L S; inversion S as [|? ? ? Jn' (a & v & -> & Ha & HB) S']; subst.
  - destruct Ja; [|discriminate]. cbn. eauto.
  - destruct Ja as [|A Ja]; [discriminate|]. injection L as L. cbn [test_blocks]. unfold hget. rewrite Ha. cbn [obind].
    destruct (block_runs tol v A y r Hr (P _ _ Ha) HB) as (b & ->). cbn [obind]. destruct (IH Ja Jn' L S') as (bs & ->). cbn [obind]. eauto.
Qed.
Lemma quotients_shaped (f : factor (N:=N) (V:=lvar N)) (h : heap) eps Js : difference_quotients (lib N) f h eps Js -> shaped h (f_rsize f) (f_vars f) Js.
Proof.
  intros (L & H). unfold shaped. revert L H. generalize (f_vars f). intros vs. revert Js. induction vs as [|p vs IH]; intros [|J Js] L H; try discriminate; constructor.
  - destruct (H 0 p J eq_refl eq_refl) as (a & v & E & Ha & C). exists a, v. split; auto. split; auto. change (l_const v) with (vconst (lib N) v). destruct (vconst (lib N) v); [exact C|]. split; apply C.
  - apply IH; [injection L; auto|]. intros q. apply (H (S q)).
Qed.
Lemma factor_runs tol (h : heap) (f : lib_factor N) : shapely h -> no_empty h -> well_used h f -> each_variable (lib N) (build f) h (returns (lib N)) ->
  exists o, test_factor (lib N) tol (build f) h = (h, o) /\ ((may_refuse f /\ o = Throw EDegenerate) \/ exists b, o = Ok b).
Proof.
  intros S P W R. destruct (lib_num_jac h f (nlit (1 # 1000000)) S W R) as (Jn & E & Q). unfold test_factor.
  assert (D : (exists Ja, f_jac (build f) h [] = (Ja, Ok tt)) \/ (may_refuse f /\ exists J, f_jac (build f) h [] = (J, Throw EDegenerate))).
  { assert (C : constant_generic_prior h f \/ ~ constant_generic_prior h f).
    { destruct f; cbn; try (right; tauto). destruct (nth_error h a) as [v|] eqn:Ha; [|right; intros (? & ? & _); discriminate]. destruct (l_const v) eqn:C; [left; eauto|].
      right. intros (w & Hw & C'). congruence. }
    destruct C as [C|C].
    - left. destruct f; try contradiction. destruct C as (v & Ha & C). eexists. apply (constant_prior_two _ _ _ _ _ _ [] Ha C).
    - assert (O : ~ odd_transform_buffer f (@nil (mat N))) by (destruct f; cbn; tauto). destruct (jac_shapes f h [] W C O) as [(J & EJ & _)|X]; [left; eauto|right; exact X]. }
  destruct D as [(Ja & ->)|(M & Ja & ->)].
  - cbn [hthen]. rewrite E. cbn [hthen]. destruct (length Ja =? length Jn) eqn:L; cbn [negb]; [|eauto]. apply Nat.eqb_eq in L.
    destruct (blocks_run tol h (f_rsize (build f)) (f_vars (build f)) Ja Jn (rows_pos h f P W) P) as (b & B); [destruct Q as (Q & _); congruence|apply (quotients_shaped _ _ _ _ Q)|].
    rewrite B. eauto.
  - cbn [hthen]. exists (Throw EDegenerate). split; auto.
Qed.
Lemma test_runs tol (h : heap) (g : graph (N:=N) (V:=lvar N)) : ly_final (g_lay g) = true -> shapely h -> no_empty h ->
  (forall f, In f (get_all_factors g) -> exists lf, f = build lf /\ well_used h lf /\ each_variable (lib N) f h (returns (lib N))) ->
  exists o, detailed_factor_test (lib N) tol h g = (h, o) /\ ((exists b, o = Ok b) \/ (o = Throw EDegenerate /\ exists lf, In (build lf) (get_all_factors g) /\ may_refuse lf)).
Proof.
  intros F S P. unfold detailed_factor_test. rewrite F. cbn [negb]. unfold get_all_factors. generalize (rg_factors (g_reg g)). intros fs. induction fs as [|f fs IH]; intros H.
  - cbn. eauto.
  - destruct (H f (or_introl eq_refl)) as (lf & -> & W & R). destruct (factor_runs tol h lf S P W R) as (o & E & O). cbn [test_factors]. rewrite E.
    destruct O as [(M & ->)|(b & ->)]; cbn [hthen].
    + eexists. split; [reflexivity|]. right. split; [reflexivity|]. exists lf. split; [left; reflexivity|exact M].
    + destruct IH as (o & E' & O); [intros f Hf; apply H; right; exact Hf|]. rewrite E'. destruct O as [(b' & ->)|(-> & lf' & I & M)]; cbn [hthen]; eexists; (split; [reflexivity|]); [left; eauto|].
      right. split; [reflexivity|]. exists lf'. split; [right; exact I|exact M].
Qed.
End Any.
