(** Proofs for PropsShape: correct use is kept by all calls, and the library's factors are safe inside graphs. *)
From Coq Require Import List Arith ZArith QArith Bool Lia.
From Verif Require Import Base ListLemmas Sparse Graph Geom Vars FactorsLin FactorsGeo FactorLib SpecGraph GraphBasic GraphVec GraphSafe VarsLemmas SpecFactor SpecShape FactorShape.
Import ListNotations.
Local Open Scope nat_scope.
Set Bullet Behavior "Strict Subproofs".

Section FactorSafe.
Context {N : num}.
Notation heap := (@heap (lvar N)).
Notation graph := (graph (N:=N) (V:=lvar N)).

(** classes and shapes under calls *)
Lemma same_class_refl (k : kind N) : same_class k k. Proof. destruct k; exact I || reflexivity. Qed.
Lemma same_class_trans (a b c : kind N) : same_class a b -> same_class b c -> same_class a c.
Proof. destruct a, b; cbn; try contradiction; destruct c; cbn; intros; congruence || auto. Qed.
Lemma same_class_size (a b : kind N) : same_class a b -> ksize a = ksize b.
Proof. destruct a, b; cbn; auto; contradiction. Qed.
Lemma v3list_length (v : v3 N) : length (v3list v) = 3. Proof. reflexivity. Qed.
Lemma vec_plus_len (a b c : list N) : vec_plus a b = Ok c -> length c = length a /\ length b = length a.
Proof.
  unfold vec_plus. destruct (Nat.eqb_spec (length a) (length b)) as [E|]; [|discriminate]. intros H. inversion H. unfold vadd, vzip. rewrite map_length, combine_length. lia.
Qed.
Lemma clip0_len (lo hi : N) x y : clip0 lo hi x = Ok y -> length y = length x.
Proof. unfold clip0. destruct x; [discriminate|]. intros H. inversion H. reflexivity. Qed.
Lemma kset_keeps (k k' : kind N) x : length x = ksize k -> kset k x = Ok k' -> same_class k k' /\ in_shape k'.
Proof.
  unfold in_shape. destruct k; cbn [kset ksize]; intros L H.
  - destruct (length x =? _); inversion H; subst. cbn. auto.
  - inversion H; subst. cbn. auto.
  - rewrite L in H. inversion H; subst. cbn. auto.
  - unfold to_v3 in H. rewrite L in H. inversion H; subst. cbn. auto.
  - destruct (clip0 _ _ x) as [y| |] eqn:C; inversion H; subst. cbn. split; [exact I|]. rewrite (clip0_len _ _ _ _ C). exact L.
  - rewrite L in H. inversion H; subst. cbn. auto.
  - rewrite L in H. inversion H; subst. cbn. auto.
Qed.
Lemma kinc_keeps (k k' : kind N) x : in_shape k -> kinc k x = Ok k' -> same_class k k' /\ in_shape k'.
Proof.
  unfold in_shape. destruct k; cbn [kinc ksize kval]; intros S H.
  - destruct (Nat.eqb_spec (length x) (length x0)); inversion H; subst. cbn. unfold vadd, vzip. rewrite map_length, combine_length. split; lia.
  - destruct (length x =? 3); [|discriminate]. destruct (vec_plus _ x) as [z| |] eqn:P; inversion H; subst. cbn. split; [exact I|]. apply vec_plus_len in P. lia.
  - destruct (length x =? 6); [|discriminate]. rewrite S in H. inversion H; subst. split; [exact I|]. destruct x0 as [|? [|? [|? [|? [|? [|? [|]]]]]]]; try discriminate; reflexivity.
  - destruct (to_v3 x); inversion H; subst. cbn. auto.
  - destruct (length x =? 1); [|discriminate]. destruct (vec_plus _ x) as [z| |] eqn:P; cbn in H; try discriminate.
    destruct (clip0 _ _ z) as [y| |] eqn:C; inversion H; subst. cbn. split; [exact I|]. rewrite (clip0_len _ _ _ _ C). apply vec_plus_len in P. lia.
  - destruct (length x =? 4); inversion H; subst. cbn. auto.
  - destruct (length x =? 3); inversion H; subst. cbn. auto.
Qed.
Lemma kinc_defined (k : kind N) x u : in_shape k -> length x = ksize k -> kinc k x <> UB u.
Proof.
  unfold in_shape. destruct k; cbn [kinc ksize kval]; intros S L.
  - destruct (length x =? _); discriminate.
  - rewrite L. cbn. unfold vec_plus. rewrite S, L. discriminate.
  - rewrite L, S. discriminate.
  - unfold to_v3. rewrite L. discriminate.
  - rewrite L. cbn. unfold vec_plus. rewrite S, L. cbn [Nat.eqb obind]. unfold clip0, vadd, vzip. destruct x as [|p [|]]; try discriminate. destruct x0; discriminate.
  - rewrite L. discriminate.
  - rewrite L. discriminate.
Qed.

(** heaps *)
Definition shapely (h : heap) : Prop := forall a v, nth_error h a = Some v -> in_shape (l_kind v).
Definition extends (h h' : heap) : Prop := forall a v, nth_error h a = Some v -> exists v', nth_error h' a = Some v' /\ same_class (l_kind v) (l_kind v').
Lemma extends_refl h : extends h h. Proof. intros a v H. exists v. split; [exact H|]. apply same_class_refl. Qed.
Lemma extends_trans a b c : extends a b -> extends b c -> extends a c.
Proof. intros A B x v H. destruct (A _ _ H) as (v' & H' & S). destruct (B _ _ H') as (w & Hw & S'). exists w. split; [exact Hw|]. eapply same_class_trans; eauto. Qed.
Lemma var_at_kept (h h' : heap) a (P : kind N -> Prop) : extends h h' -> shapely h' -> (forall k k', same_class k k' -> P k -> P k') -> var_at h a P -> var_at h' a P.
Proof. intros E S HP (v & Hv & _ & Pv). destruct (E _ _ Hv) as (v' & Hv' & C). exists v'. split; [exact Hv'|]. split; [exact (S _ _ Hv')|]. eapply HP; eauto. Qed.
Lemma well_used_kept (h h' : heap) f : extends h h' -> shapely h' -> well_used h f -> well_used h' f.
Proof.
  intros E S. assert (Z : forall n (k k' : kind N), same_class k k' -> of_size n k -> of_size n k') by (unfold of_size; intros n k k' C <-; symmetry; apply same_class_size; exact C).
  assert (Z2 : forall n (k k' : kind N), same_class k k' -> n <= ksize k -> n <= ksize k') by (intros n k k' C H; rewrite <- (same_class_size _ _ C); exact H).
  pose proof (fun a P HP => var_at_kept h h' a P E S HP) as K.
  destruct f; cbn [well_used]; intros W; repeat match goal with H : _ /\ _ |- _ => destruct H end; repeat split; (eapply K; [|eassumption]);
    (apply Z || apply Z2 || (intros k k' C [G1 G2]; split; [|eapply Z; eauto]; clear G2; revert C G1) || idtac);
    try (intros k k'; destruct k, k'; cbn; tauto); destruct k, k'; cbn; tauto.
Qed.
Lemma hupd_kept (h : heap) a f h' r : shapely h -> (forall v v', nth_error h a = Some v -> f v = Ok v' -> same_class (l_kind v) (l_kind v') /\ in_shape (l_kind v')) ->
  hupd h a f = (h', r) -> extends h h' /\ shapely h'.
Proof.
  unfold hupd, hget. intros S Hf. destruct (nth_error h a) as [v|] eqn:Ha; [|intros E; inversion E; subst; split; [apply extends_refl|exact S]].
  destruct (f v) as [v'|e|u] eqn:F; intros E; inversion E; subst; try (split; [apply extends_refl|exact S]). destruct (Hf _ _ eq_refl F) as [C I'].
  assert (La : a < length h) by (apply nth_error_Some; congruence). split.
  - intros b w Hb. destruct (Nat.eq_dec b a) as [->|n].
    + exists v'. rewrite lupd_nth_same by exact La. split; [reflexivity|]. assert (v = w) as <- by congruence. exact C.
    + exists w. rewrite lupd_nth_other by auto. split; [exact Hb|apply same_class_refl].
  - intros b w Hb. destruct (Nat.eq_dec b a) as [->|n].
    + rewrite lupd_nth_same in Hb by exact La. inversion Hb; subst. exact I'.
    + rewrite lupd_nth_other in Hb by auto. exact (S _ _ Hb).
Qed.
Lemma with_kind_ok (v v' : lvar N) o : with_kind v o = Ok v' -> o = Ok (l_kind v').
Proof. destruct o; cbn; intros H; inversion H. reflexivity. Qed.
Lemma segment_length off n (x s : list N) : segment off n x = Ok s -> length s = n.
Proof.
  unfold segment. destruct (off + n <=? length x) eqn:E; [|discriminate]. intros H. inversion H. apply Nat.leb_le in E. rewrite firstn_length, skipn_length. lia.
Qed.
Lemma set_loop_kept (h : heap) vs off x h' r : shapely h -> set_vector_loop (lib N) h vs off x = (h', r) -> extends h h' /\ shapely h'.
Proof.
  revert h off. induction vs as [|a t IH]; simpl; intros h off S E; [inversion E; subst; split; [apply extends_refl|exact S]|].
  unfold hget in E. destruct (nth_error h a) as [v|] eqn:Ha; [|inversion E; subst; split; [apply extends_refl|exact S]].
  destruct (l_const v) eqn:C; [eauto|].
  destruct (segment off _ x) as [s| |] eqn:G; try (inversion E; subst; split; [apply extends_refl|exact S]).
  destruct (hupd h a _) as [h2 o] eqn:U. assert (AB : extends h h2 /\ shapely h2); [eapply hupd_kept; [exact S| |exact U]|destruct AB as [A B]].
  { intros w w' Hw F. apply with_kind_ok in F. apply (kset_keeps _ _ s); [|exact F]. assert (v = w) as <- by congruence. rewrite (segment_length _ _ _ _ G). reflexivity. }
  destruct o; [|inversion E; subst; auto|inversion E; subst; auto].
  destruct (IH _ _ B E) as [A' B']. split; [eapply extends_trans; eauto|exact B'].
Qed.
Lemma inc_loop_kept ck (h : heap) (g : graph) vs dx h' r : shapely h -> inc_loop (lib N) ck h g vs dx = (h', r) -> extends h h' /\ shapely h'.
Proof.
  revert h. induction vs as [|a t IH]; simpl; intros h S E; [inversion E; subst; split; [apply extends_refl|exact S]|].
  unfold hget in E. destruct (nth_error h a) as [v|] eqn:Ha; [|inversion E; subst; split; [apply extends_refl|exact S]].
  destruct (l_const v) eqn:C; [eauto|].
  destruct (variable_placement g _) as [p|]; [|eauto].
  destruct (ck && _); [inversion E; subst; split; [apply extends_refl|exact S]|].
  destruct (segment _ _ dx) as [s| |] eqn:G; try (inversion E; subst; split; [apply extends_refl|exact S]).
  destruct (hupd h a _) as [h2 o] eqn:U. assert (AB : extends h h2 /\ shapely h2); [eapply hupd_kept; [exact S| |exact U]|destruct AB as [A B]].
  { intros w w' Hw F. apply with_kind_ok in F. apply (kinc_keeps _ _ s); [exact (S _ _ Hw)|exact F]. }
  destruct o; [|inversion E; subst; auto|inversion E; subst; auto].
  destruct (IH _ B E) as [A' B']. split; [eapply extends_trans; eauto|exact B'].
Qed.

(** runs *)
Definition sound (s : heap * graph) : Prop :=
  shapely (fst s) /\ Forall (fun f => exists lf, f = build lf /\ well_used (fst s) lf) (get_all_factors (snd s)).
Lemma sound_heap (h h' : heap) (g g' : graph) : get_all_factors g' = get_all_factors g -> extends h h' -> shapely h' -> sound (h, g) -> sound (h', g').
Proof.
  intros Eg E S [_ W]. split; [exact S|]. cbn [fst snd] in *. rewrite Eg. eapply Forall_impl; [|exact W]. cbn. intros f (lf & -> & U). exists lf. split; [reflexivity|].
  eapply well_used_kept; eauto.
Qed.
Lemma step_heap E h (g : graph) o :
  shapely h -> careful (h, g) [(E, o)] -> extends h (fst (fst (step (lib N) E (h, g) o))) /\ shapely (fst (fst (step (lib N) E (h, g) o))).
Proof.
  intros S [Ho _]. pose proof (conj (extends_refl h) S) as R. destruct o; cbn [step fst] in *;
  repeat match goal with |- context [let '(_, _) := ?t in _] => destruct t eqn:? end; cbn [fst]; try exact R.
  - eapply set_loop_kept; eauto.
  - unfold apply_increment in Heqp. destruct (negb _); [inversion Heqp; subst; exact R|]. destruct (negb _); [inversion Heqp; subst; exact R|]. eapply inc_loop_kept; eauto.
  - split.
    + intros a w Hw. exists w. rewrite nth_error_app1 by (apply nth_error_Some; congruence). split; [exact Hw|apply same_class_refl].
    + intros a w Hw. destruct (Nat.lt_ge_cases a (length h)) as [L|L].
      * rewrite nth_error_app1 in Hw by exact L. exact (S _ _ Hw).
      * rewrite nth_error_app2 in Hw by exact L. destruct (a - length h) as [|k]; [|destruct k; discriminate]. inversion Hw; subst. exact Ho.
  - eapply hupd_kept; [exact S| |eassumption]. cbn. intros v v' Hv F. inversion F; subst. cbn. split; [apply same_class_refl|exact (S _ _ Hv)].
  - eapply hupd_kept; [exact S| |eassumption]. cbn. intros v v' Hv F. apply with_kind_ok in F. eapply kset_keeps; [|exact F]. exact (Ho _ Hv).
  - eapply hupd_kept; [exact S| |eassumption]. cbn. intros v v' Hv F. apply with_kind_ok in F. eapply kinc_keeps; [|exact F]. exact (S _ _ Hv).
Qed.
Lemma careful_sound l s : careful s l -> sound s -> sound (run (lib N) s l).
Proof.
  revert s. induction l as [|[E o] t IH]; cbn [run]; intros s; [auto|]. intros [Ho Ht] Hs. apply IH; [exact Ht|]. clear IH Ht. destruct s as [h g].
  destruct (step_heap E h g o) as [X S]; [apply Hs|split; [exact Ho|exact I]|]. destruct (step (lib N) E (h, g) o) as [[h' g'] ans] eqn:Es.
  destruct (step_reg_lists _ _ _ _ _ _ Es) as [_ L]. cbn [fst snd] in *. split; [exact S|]. unfold get_all_factors. cbn [snd fst]. rewrite L. apply Forall_app. split.
  - destruct Hs as [_ W]. cbn [fst snd] in W. eapply Forall_impl; [|exact W]. cbn. intros f (lf & -> & U). exists lf. split; [reflexivity|]. eapply well_used_kept; eauto.
  - destruct o as [|[f|]| | | | | | | | | | | | |]; try constructor. destruct ans as [[| |]| | |]; try constructor; [|constructor].
    destruct Ho as (lf & -> & U). exists lf. split; [reflexivity|]. eapply well_used_kept; eauto.
Qed.
Lemma empty_sound : sound ([], empty_graph).
Proof. split; [|constructor]. intros [|a] v H; discriminate. Qed.

(** safety *)
Lemma setj_length k o (x : list (mat N) * outcome unit) : length (fst (setj k o x)) = length (fst x).
Proof. destruct x as [J [[]| |]]; cbn [setj]; auto. destruct o; cbn [withj fst]; auto. destruct (k <? length J); cbn [fst]; auto. apply lupd_length. Qed.
Lemma transform_buffer id r o s la lb sg b : buf_reach (coordinate_transform (N:=N) id r o s la lb sg) b -> length b = 0 \/ length b = 5.
Proof.
  induction 1 as [|h b _ IH]; [auto|]. unfold coordinate_transform. cbv zeta. cbn [f_jac]. unfold ctrans_jac.
  match goal with |- context [withj _ ?x _] => destruct x as [[[R k] bb]| |] end; cbn [withj fst]; auto. right. rewrite !setj_length. cbn [fst].
  destruct (ctrans_sized_5 b IH) as (? & ? & ? & ? & ? & ->). reflexivity.
Qed.
Lemma reach_not_odd f b : buf_reach (build f) b -> ~ odd_transform_buffer (N:=N) f b.
Proof. destruct f; cbn [build odd_transform_buffer]; auto. intros H [A B]. destruct (transform_buffer _ _ _ _ _ _ _ _ H); contradiction. Qed.
Lemma constant_prior_jac (h : heap) id a prior sg v b : nth_error h a = Some v -> l_const v = true ->
  f_jac (generic_prior (lib N) id a prior sg) h b = ([mempty; mempty], Ok tt).
Proof. intros H C. unfold generic_prior. cbv zeta. cbn [f_jac]. unfold gprior_jac. rewrite (get_at _ _ _ H). cbn. rewrite C. reflexivity. Qed.
Lemma Forall2_len {A B} (P : A -> B -> Prop) l l' : Forall2 P l l' -> length l = length l'.
Proof. induction 1; cbn; congruence. Qed.
Lemma Forall2_weaken {A B} (P Q : A -> B -> Prop) l l' : (forall a b, P a b -> Q a b) -> Forall2 P l l' -> Forall2 Q l l'.
Proof. induction 2; constructor; auto. Qed.
Lemma shaped_blocks (h : heap) rs vars J : shaped h rs vars J -> blocks_ok (lib N) h rs vars J.
Proof.
  intros S. split; [apply Nat.eq_le_incl; induction S; cbn; congruence|]. induction S as [|o M vs J (a & v & -> & Hv & HM) _ IH]; intros q a' v' M' Q Hv' HM'; [destruct q; discriminate|].
  destruct q as [|q]; [|exact (IH _ _ _ _ Q Hv' HM')]. cbn in Q, HM'. inversion Q; subst. inversion HM'; subst. rewrite Hv in Hv'. inversion Hv'; subst. cbn.
  destruct (l_const v'); [left; apply HM|exact HM].
Qed.
Lemma const_prior_dec (h : heap) f : well_used h f -> constant_generic_prior h f \/ ~ constant_generic_prior h f.
Proof.
  destruct f; cbn; auto. intros (v & Hv & _). destruct (l_const v) eqn:C; [left; eauto|]. right. intros (w & Hw & D). congruence.
Qed.
Lemma lib_safe (h : heap) f : well_used h f -> factor_safe (lib N) h (build f).
Proof.
  intros W. destruct (residual_size_ok f h W) as (r & Hr & Lr). rewrite overloads_agree in Hr. split; [|split].
  - intros u. rewrite Hr. discriminate.
  - intros r' E. congruence.
  - intros b B. destruct (const_prior_dec h f W) as [C|C].
    + destruct f; try contradiction. destruct C as (v & Hv & C). cbn [build]. rewrite (constant_prior_jac _ _ _ _ _ _ _ Hv C). cbn [fst snd]. split; [discriminate|]. intros _.
      split; [cbn; auto|]. intros q a' v' J Q Hv' HJ. destruct q as [|[|]]; try discriminate. cbn in Q. inversion Q; subst. rewrite Hv in Hv'. inversion Hv'; subst. cbn. rewrite C.
      inversion HJ. left. reflexivity.
    + destruct (jac_shapes f h b W C (reach_not_odd _ _ B)) as [(J & -> & S)|(_ & J & ->)]; cbn [fst snd]; (split; [discriminate|]).
      * intros _. apply shaped_blocks. exact S.
      * discriminate.
Qed.
Lemma constant_prior_two id a prior sg (h : heap) v J0 : nth_error h a = Some v -> l_const v = true ->
  f_jac (build (LGenericPrior id a prior sg)) h J0 = ([mempty; mempty], Ok tt) /\
  ~ shaped h (length prior) (f_vars (build (LGenericPrior id a prior sg))) [mempty; mempty].
Proof. intros H C. split; [exact (constant_prior_jac _ _ _ _ _ _ _ H C)|]. intros S. apply Forall2_len in S. discriminate. Qed.
Lemma sound_history l1 l2 h1 (h : heap) (g1 g : graph) :
  finalized_history (lib N) l1 l2 h1 h g1 g -> careful ([], empty_graph) l1 -> careful (h1, g1) l2 -> sound (h, g).
Proof.
  intros HF C1 C2. destruct HF as (g0 & R1 & F & _ & R2). rewrite <- R2. apply careful_sound; [exact C2|]. pose proof (careful_sound _ _ C1 empty_sound) as X. rewrite R1 in X.
  eapply sound_heap; [|apply extends_refl|apply X|exact X].
  assert (Es : step (lib N) (Env (fun l => l) (fun _ => [])) (h1, g0) OFinalize = ((h1, g1), AUnit (Ok tt))) by (cbn; rewrite F; reflexivity).
  destruct (step_reg_lists _ _ _ _ _ _ Es) as [_ L]. cbn in L. unfold get_all_factors. cbn in *. rewrite L, app_nil_r. reflexivity.
Qed.
Lemma no_undefined_lib l1 l2 h1 (h : heap) (g1 g : graph) (E : env) (o : op) :
  finalized_history (lib N) l1 l2 h1 h g1 g -> careful ([], empty_graph) l1 -> careful (h1, g1) l2 -> env_ok E -> compute_op o ->
  Forall (lists_members (lib N) h (get_all_variables g)) (get_all_factors g) -> ~ undefined (snd (step (lib N) E (h, g) o)).
Proof.
  intros HF C1 C2 He Ho HM. pose proof (sound_history _ _ _ _ _ _ HF C1 C2) as S.
  eapply (no_undefined (lib N) lib_ok); eauto.
  - destruct S as [_ W]. cbn in W. eapply Forall_impl; [|exact W]. intros f (lf & -> & U). apply lib_safe. exact U.
  - intros a v x u _ Hv L. cbn. pose proof (kinc_defined (l_kind v) x u (proj1 S _ _ Hv) L) as K. destruct (kinc (l_kind v) x); cbn; congruence.
Qed.
Lemma residual_lib l1 l2 h1 (h : heap) (g1 g : graph) (E : env) :
  finalized_history (lib N) l1 l2 h1 h g1 g -> careful ([], empty_graph) l1 -> careful (h1, g1) l2 -> env_ok E ->
  exists rs, Forall2 (fun f r => f_res f h = Ok r /\ length r = f_rsize f) (get_all_factors g) rs /\ snd (compute_residual E h g) = Ok (concat rs).
Proof.
  intros HF C1 C2 He. destruct (sound_history _ _ _ _ _ _ HF C1 C2) as [_ W]. cbn [fst snd] in W.
  assert (X : exists rs, Forall2 (fun f r => f_res f h = Ok r /\ f_res_ref f h = Ok r /\ length r = f_rsize f) (get_all_factors g) rs).
  { induction W as [|f fs (lf & -> & U) _ (rs & IH)]; [exists []; constructor|]. destruct (residual_size_ok lf h U) as (r & Hr & L). exists (r :: rs).
    constructor; [|exact IH]. rewrite <- overloads_agree. auto. }
  destruct X as (rs & X). exists rs. split; [eapply Forall2_weaken; [|exact X]; cbn; tauto|].
  destruct (residual_stack (lib N) lib_ok _ _ _ _ _ _ rs E HF He) as [(g' & A & _) _]; [eapply Forall2_weaken; [|exact X]; cbn; tauto|]. rewrite A. reflexivity.
Qed.

(** independence of the output vector *)
Lemma mat_eq_refl (A : mat N) : mat_eq A A. Proof. repeat split. Qed.
Definition same_jacs (x y : list (mat N) * outcome unit) : Prop := snd x = snd y /\ (snd y = Ok tt -> Forall2 mat_eq (fst x) (fst y)).
Lemma same_jacs_refl x : same_jacs x x.
Proof. split; [reflexivity|]. intros _. induction (fst x); constructor; auto using mat_eq_refl. Qed.
Definition sim (n : nat) (ks : list nat) (x y : list (mat N) * outcome unit) : Prop :=
  snd x = snd y /\ length (fst x) = n /\ length (fst y) = n /\ (snd x = Ok tt -> forall k, In k ks -> nth_error (fst x) k = nth_error (fst y) k).
Lemma sim_start n J J' : length J = n -> length J' = n -> sim n [] (J, Ok tt) (J', Ok tt).
Proof. intros A B. repeat split; auto. intros _ k []. Qed.
Lemma sim_sized n (b b' : list (mat N)) : sim n [] (FactorsGeo.sized n b, Ok tt) (FactorsGeo.sized n b', Ok tt).
Proof. apply sim_start; apply sized_length. Qed.
Lemma sim_setj n ks k o x y : sim n ks x y -> sim n (k :: ks) (setj k o x) (setj k o y).
Proof.
  intros (A & B & C & D). unfold sim. rewrite !setj_length. split; [|split; [exact B|split; [exact C|]]];
  destruct x as [J rx], y as [J' ry]; cbn [fst snd] in *; subst ry; destruct rx as [[]|e|u]; cbn [setj]; auto; try discriminate;
  destruct o as [M| |]; cbn [withj snd fst]; auto; try discriminate; rewrite B, C; destruct (k <? n) eqn:L; cbn [fst snd]; auto; try discriminate.
  intros _ q [<-|Q].
  - apply Nat.ltb_lt in L. rewrite !lupd_nth_same by lia. reflexivity.
  - destruct (Nat.eq_dec k q) as [<-|NE]; [apply Nat.ltb_lt in L; rewrite !lupd_nth_same by lia; reflexivity|]. rewrite !lupd_nth_other by exact NE. auto.
Qed.
Lemma sim_withj {A} n J J' (o : outcome A) F F' : length J = n -> length J' = n -> (forall a, same_jacs (F a) (F' a)) -> same_jacs (withj J o F) (withj J' o F').
Proof. intros H H' HF. destruct o; cbn [withj]; [apply HF| |]; (split; [reflexivity|discriminate]). Qed.
Lemma sim_all n ks x y : sim n ks x y -> (forall k, k < n -> In k ks) -> same_jacs x y.
Proof.
  intros (A & B & C & D) K. split; [exact A|]. intros E. rewrite <- A in E. specialize (D E).
  assert (fst x = fst y) as ->; [|apply (proj2 (same_jacs_refl (fst y, Ok tt))); reflexivity].
  apply list_ext_nth. intros q. destruct (Nat.lt_ge_cases q n) as [L|L]; [apply D, K, L|]. rewrite (proj2 (nth_error_None (fst x) q)) by lia. rewrite (proj2 (nth_error_None (fst y) q)) by lia. reflexivity.
Qed.
Lemma same_jacs_fail {e : outcome unit} J J' : e <> Ok tt -> same_jacs (J, e) (J', e).
Proof. intros H. split; [reflexivity|]. cbn. intros X. contradiction. Qed.
Ltac sims := repeat apply sim_setj; apply sim_sized.
Ltac cover := eapply sim_all; [sims|intros k Hk; cbn; lia].
Ltac start := apply (sim_withj _ _ _ _ _ _ (sized_length _ _) (sized_length _ _)).
Lemma lib_buf_indep (f : lib_factor N) : buf_indep (build f).
Proof.
  intros h b B. change (same_jacs (f_jac (build f) h b) (f_jac (build f) h [])). destruct f; cbn [build].
  - apply same_jacs_refl.
  - apply same_jacs_refl.
  - cbn [f_jac linear_velocity]. unfold linvel_jac. start. intros d. cover.
  - cbn [f_jac pose_position_prior]. unfold pospri_jac. cover.
  - cbn [f_jac pose_orientation_prior]. unfold oripri_jac. start. intros d. destruct (l_const d); cover.
  - cbn [f_jac rotation_prior]. unfold rotpri_jac. start. intros d. destruct (l_const d); cover.
  - cbn [f_jac pose_position_between]. unfold posbet_jac. destruct loc; [|cover].
    match goal with |- context [withj _ ?o _] => destruct o as [[]| |] end; cbn [withj]; [cover|cbn [setj]; apply same_jacs_fail; discriminate|cbn [setj]; apply same_jacs_fail; discriminate].
  - cbn [f_jac pose_orientation_between]. unfold oribet_jac. start. intros [[C E] M]. cover.
  - cbn [f_jac bearing_observation]. unfold bearing_jac. start. intros [D P]. cover.
  - cbn [f_jac inverse_range_bearing]. unfold invbear_jac. start. intros [[D P] [[a1 a2] a3]]. cover.
  - cbn [f_jac bearing_projection]. unfold proj_jac. start. intros [D P]. destruct (nleb _ _); cover.
  - cbn [f_jac bearing_observation_2d]. unfold bear2_jac. start. intros [[[a1 a2] a3] a4]. cover.
  - cbn [f_jac range_bearing_2d]. unfold range2_jac. start. intros [[[a1 a2] a3] a4]. cover.
  - cbn [f_jac pose2_prior]. unfold pri2_jac. cover.
  - cbn [f_jac pose2_between]. unfold bet2_jac. destruct loc; [|cover].
    match goal with |- context [withj _ ?o _] => destruct o as [[]| |] end; cbn [withj]; [cover|cbn [setj]; apply same_jacs_fail; discriminate|cbn [setj]; apply same_jacs_fail; discriminate].
  - cbn [f_jac plane_factor]. unfold plane_jac. start. intros [P [n d]]. destruct sc as [[]|]; cover.
  - cbn [f_jac plane_prior]. unfold planepri_jac. start. intros d. destruct (l_const d); cover.
  - pose proof (transform_buffer _ _ _ _ _ _ _ _ B) as L. cbn [f_jac coordinate_transform]. unfold ctrans_jac.
    match goal with |- context [withj _ ?o _] => destruct o as [[[]]| |] end; cbn [withj]; [|apply same_jacs_fail; discriminate|apply same_jacs_fail; discriminate].
    eapply sim_all; [repeat apply sim_setj; apply (sim_start 5)|intros k Hk; cbn; lia].
    + destruct (ctrans_sized_5 b L) as (? & ? & ? & ? & ? & ->). reflexivity.
    + reflexivity.
Qed.
End FactorSafe.
