(** Registry invariant and closed form of finalize_structure. *)
From Coq Require Import List Arith ZArith Bool Lia Permutation.
From Verif Require Import Base Sparse Graph SpecGraph ListLemmas.
Import ListNotations.

Lemma nat_eqb_reflect a b : reflect (a = b) (Nat.eqb a b).
Proof. apply Nat.eqb_spec. Qed.
Lemma z_eqb_reflect a b : reflect (a = b) (Z.eqb a b).
Proof. apply Z.eqb_spec. Qed.
#[export] Hint Resolve nat_eqb_reflect z_eqb_reflect : core.

(** the payloads written to column [c] *)
Definition sub {A} (c : nat) (l : list (nat * A)) : list A := map snd (filter (fun p => fst p =? c) l).

Lemma sub_app {A} c (l1 l2 : list (nat * A)) : sub c (l1 ++ l2) = sub c l1 ++ sub c l2.
Proof. unfold sub. rewrite filter_app, map_app. reflexivity. Qed.

Lemma sub_cons_same {A} c (x : A) l : sub c ((c, x) :: l) = x :: sub c l.
Proof. unfold sub; simpl. rewrite Nat.eqb_refl. reflexivity. Qed.

Lemma sub_cons_other {A} c c' (x : A) l : c' <> c -> sub c ((c', x) :: l) = sub c l.
Proof. unfold sub; simpl. intros. destruct (Nat.eqb_spec c' c); congruence. Qed.

Lemma sub_map {A B} (f : A -> B) c (l : list (nat * A)) :
  sub c (map (fun p => (fst p, f (snd p))) l) = map f (sub c l).
Proof.
  unfold sub. induction l as [|[c' x] l IH]; simpl; auto.
  destruct (c' =? c); simpl; congruence.
Qed.

(** one row of a block *)
Lemma sub_row {A} c base (f : nat -> A) n s :
  sub c (map (fun k => (base + k, f k)) (seq s n)) =
  if (base + s <=? c) && (c <? base + s + n) then [f (c - base)] else [].
Proof.
  revert s; induction n; intros s; simpl.
  - destruct (Nat.leb_spec (base + s) c), (Nat.ltb_spec c (base + s + 0)); simpl; auto; lia.
  - destruct (Nat.eq_dec (base + s) c) as [E|E].
    + rewrite E, sub_cons_same, IHn.
      replace (c - base) with s by lia.
      destruct (Nat.leb_spec (base + S s) c); try lia. simpl.
      destruct (Nat.leb_spec c c); try lia. destruct (Nat.ltb_spec c (c + S n)); try lia. reflexivity.
    + rewrite sub_cons_other by auto. rewrite IHn.
      destruct (Nat.leb_spec (base + S s) c), (Nat.ltb_spec c (base + S s + n)),
        (Nat.leb_spec (base + s) c), (Nat.ltb_spec c (base + s + S n)); simpl; auto; lia.
Qed.

(** a block of cells: payloads of one column are the entries of that column from top to bottom *)
Definition gcells {A} (rd base cd : nat) (f : nat -> nat -> A) : list (nat * A) :=
  flat_map (fun r => map (fun c => (base + c, f r c)) (seq 0 cd)) (seq 0 rd).

Lemma sub_gcells {A} c rd base cd (f : nat -> nat -> A) :
  sub c (gcells rd base cd f) =
  if (base <=? c) && (c <? base + cd) then map (fun r => f r (c - base)) (seq 0 rd) else [].
Proof.
  unfold gcells. remember (seq 0 rd) as rs eqn:Ers. clear Ers. induction rs as [|s rs IH]; simpl.
  - destruct (_ && _); reflexivity.
  - rewrite sub_app, (sub_row c base (f s)), IH. rewrite Nat.add_0_r.
    destruct (_ && _); reflexivity.
Qed.

Lemma gcells_map {A B} rd base cd (f : nat -> nat -> A) (g : A -> B) :
  map (fun p => (fst p, g (snd p))) (gcells rd base cd f) = gcells rd base cd (fun r c => g (f r c)).
Proof.
  unfold gcells. rewrite !flat_map_concat_map, concat_map, map_map. f_equal.
  apply map_ext; intros r. rewrite map_map. reflexivity.
Qed.

Lemma gcells_fst_bound {A} rd base cd (f : nat -> nat -> A) n :
  base + cd <= n -> Forall (fun p => fst p < n) (gcells rd base cd f).
Proof.
  intros H. unfold gcells. apply Forall_forall. intros [c x] Hin.
  apply in_flat_map in Hin. destruct Hin as (r & _ & Hin).
  apply in_map_iff in Hin. destruct Hin as (k & E & Hk). inversion E; subst.
  apply in_seq in Hk. simpl. lia.
Qed.

Section Layout.
Context {N : num} {V : Type} (VC : vclass N V).
Notation factor := (factor (N:=N) (V:=V)).
Notation graph := (graph (N:=N) (V:=V)).
Notation env := (env (N:=N) (V:=V)).
Notation op := (op (N:=N) (V:=V)).

(** ** Relations between heaps *)
Definition same_obj (flags : bool) (v v' : V) : Prop :=
  vid VC v' = vid VC v /\ vsize VC v' = vsize VC v /\ (flags = true -> vconst VC v' = vconst VC v).
Definition hpres (flags : bool) (h h' : heap) : Prop :=
  forall a v, nth_error h a = Some v -> exists v', nth_error h' a = Some v' /\ same_obj flags v v'.

Lemma hpres_refl b h : hpres b h h.
Proof. intros a v H. exists v. unfold same_obj. auto. Qed.
Lemma hpres_trans b h1 h2 h3 : hpres b h1 h2 -> hpres b h2 h3 -> hpres b h1 h3.
Proof.
  intros H12 H23 a v H. destruct (H12 _ _ H) as (v2 & H2 & A & B & C).
  destruct (H23 _ _ H2) as (v3 & H3 & A' & B' & C'). exists v3. unfold same_obj.
  repeat split; auto; try congruence. intros E. rewrite C', C; auto.
Qed.
Lemma hpres_weaken h h' : hpres true h h' -> hpres false h h'.
Proof.
  intros H a v Hv. destruct (H _ _ Hv) as (v' & ? & ? & ? & ?). exists v'. unfold same_obj. auto.
Qed.

Lemma hupd_pres b h a f h' r :
  (forall v v', f v = Ok v' -> same_obj b v v') -> hupd h a f = (h', r) -> hpres b h h'.
Proof.
  unfold hupd, hget. intros Hf. destruct (nth_error h a) as [v|] eqn:Ha.
  - destruct (f v) as [v'| |] eqn:Fv; intros E; inversion E; subst; try apply hpres_refl.
    intros b0 w Hw. rewrite lupd_nth.
    destruct (Nat.eqb_spec a b0); subst; simpl.
    + rewrite (proj2 (Nat.ltb_lt _ _)) by (apply nth_error_Some; congruence).
      exists v'. split; auto. replace w with v by congruence. auto.
    + exists w. unfold same_obj; auto.
  - intros E; inversion E; subst. apply hpres_refl.
Qed.

Hypothesis Hok : vclass_ok VC.

Lemma set_vector_pres h vs off x h' r : set_vector_loop VC h vs off x = (h', r) -> hpres true h h'.
Proof.
  revert h off. induction vs as [|a t IH]; simpl; intros h off E.
  - inversion E; apply hpres_refl.
  - destruct (hget h a) as [v| |] eqn:G; try (inversion E; subst; apply hpres_refl).
    destruct (vconst VC v); [eauto|].
    destruct (segment off (vsize VC v) x) as [s| |]; try (inversion E; subst; apply hpres_refl).
    destruct (hupd h a _) as [h1 [u|e|u]] eqn:U.
    + eapply hpres_trans; [|eauto].
      eapply hupd_pres; [|exact U]. intros w w' Hw. destruct (ok_set _ Hok _ _ _ Hw) as (?&?&?).
      unfold same_obj; auto.
    + inversion E; subst. eapply hupd_pres; [|exact U]. intros w w' Hw.
      destruct (ok_set _ Hok _ _ _ Hw) as (?&?&?). unfold same_obj; auto.
    + inversion E; subst. eapply hupd_pres; [|exact U]. intros w w' Hw.
      destruct (ok_set _ Hok _ _ _ Hw) as (?&?&?). unfold same_obj; auto.
Qed.

Lemma inc_loop_pres ck h g vs dx h' r : inc_loop VC ck h g vs dx = (h', r) -> hpres true h h'.
Proof.
  revert h. induction vs as [|a t IH]; simpl; intros h E.
  - inversion E; apply hpres_refl.
  - destruct (hget h a) as [v| |] eqn:G; try (inversion E; subst; apply hpres_refl).
    destruct (vconst VC v); [eauto|].
    destruct (variable_placement g (vid VC v)) as [p|]; [|eauto].
    destruct (ck && _); [inversion E; subst; apply hpres_refl|].
    destruct (segment _ _ dx) as [s| |]; try (inversion E; subst; apply hpres_refl).
    destruct (hupd h a _) as [h1 [u|e|u]] eqn:U.
    + eapply hpres_trans; [|eauto].
      eapply hupd_pres; [|exact U]. intros w w' Hw. destruct (ok_inc _ Hok _ _ _ Hw) as (?&?&?).
      unfold same_obj; auto.
    + inversion E; subst. eapply hupd_pres; [|exact U]. intros w w' Hw.
      destruct (ok_inc _ Hok _ _ _ Hw) as (?&?&?). unfold same_obj; auto.
    + inversion E; subst. eapply hupd_pres; [|exact U]. intros w w' Hw.
      destruct (ok_inc _ Hok _ _ _ Hw) as (?&?&?). unfold same_obj; auto.
Qed.

Lemma apply_increment_pres h g dx h' r : apply_increment VC h g dx = (h', r) -> hpres true h h'.
Proof.
  unfold apply_increment. destruct (negb _); [intros E; inversion E; apply hpres_refl|].
  destruct (negb _); [intros E; inversion E; apply hpres_refl|]. apply inc_loop_pres.
Qed.

Lemma step_heap_pres E s o s' ans :
  step VC E s o = (s', ans) -> hpres false (fst s) (fst s') /\ (value_op o -> hpres true (fst s) (fst s')).
Proof.
  destruct s as [h g]. simpl. destruct o; simpl;
    repeat match goal with
    | |- context [let '(_, _) := ?t in _] => destruct t eqn:?
    end; intros Es; inversion Es; subst; clear Es; simpl;
    try (split; [apply hpres_refl | intros _; apply hpres_refl]);
    try (match goal with
    | H : set_variable_values_from_vector _ _ _ _ = _ |- _ => apply set_vector_pres in H
    | H : apply_increment _ _ _ _ = _ |- _ => apply apply_increment_pres in H
    end; split; [apply hpres_weaken|]; auto; fail).
  - assert (hpres true h (h ++ [v])).
    { intros a w Ha. exists w. rewrite nth_error_app1; [unfold same_obj; auto|].
      apply nth_error_Some; congruence. }
    split; [apply hpres_weaken|]; auto.
  - split; [|tauto]. eapply hupd_pres; [|exact Heqp]. intros w w' Hw. inversion Hw; subst.
    destruct (ok_const _ Hok b w) as (?&?&?&?). unfold same_obj. repeat split; auto. discriminate.
  - split; [apply hpres_weaken|intros _]; (eapply hupd_pres; [|exact Heqp]); intros w w' Hw;
      destruct (ok_set _ Hok _ _ _ Hw) as (?&?&?); unfold same_obj; auto.
  - split; [apply hpres_weaken|intros _]; (eapply hupd_pres; [|exact Heqp]); intros w w' Hw;
      destruct (ok_inc _ Hok _ _ _ Hw) as (?&?&?); unfold same_obj; auto.
Qed.

Lemma idz_pres b h h' a : hpres b h h' -> a < length h -> idz VC h' a = idz VC h a.
Proof.
  intros H Ha. destruct (nth_error h a) as [v|] eqn:E; [|apply nth_error_None in E; lia].
  destruct (H _ _ E) as (v' & E' & I & _). unfold idz. rewrite E, E'. auto.
Qed.
Lemma width_pres h h' a : hpres true h h' -> a < length h -> width VC h' a = width VC h a.
Proof.
  intros H Ha. destruct (nth_error h a) as [v|] eqn:E; [|apply nth_error_None in E; lia].
  destruct (H _ _ E) as (v' & E' & I & S & C). unfold width. rewrite E, E', S, C; auto.
Qed.
Lemma hpres_length b h h' : hpres b h h' -> length h <= length h'.
Proof.
  intros H. destruct h as [|x t]; [simpl; lia|].
  destruct (H (length t) (nth (length t) (x :: t) x)) as (v' & E & _).
  { apply nth_error_nth'. simpl; lia. }
  assert (length t < length h') by (apply nth_error_Some; congruence). simpl; lia.
Qed.

(** ** Registry invariant *)
Record reg_inv (h : heap) (g : graph) : Prop := RegInv {
  ri_live : Forall (fun a => a < length h) (rg_vars (g_reg g));
  ri_vmap : rg_vmap (g_reg g) = map (fun a => (idz VC h a, a)) (rg_vars (g_reg g));
  ri_nodup : NoDup (map (idz VC h) (rg_vars (g_reg g)));
  ri_fmap : rg_fmap (g_reg g) = map (fun f => (f_id f, f)) (rg_factors (g_reg g));
  ri_fnodup : NoDup (map f_id (rg_factors (g_reg g)))
}.

Lemma reg_inv_empty h : reg_inv h empty_graph.
Proof. constructor; simpl; auto; constructor. Qed.

Lemma reg_inv_heap h h' g g' : hpres false h h' -> g_reg g' = g_reg g -> reg_inv h g -> reg_inv h' g'.
Proof.
  intros Hp Er [L M ND F FN]. rewrite <- Er in *.
  assert (Hid : forall a, In a (rg_vars (g_reg g')) -> idz VC h' a = idz VC h a).
  { intros a Ha. rewrite Forall_forall in L. eapply idz_pres; eauto. }
  constructor; auto.
  - eapply Forall_impl; [|exact L]. simpl; intros a Ha. pose proof (hpres_length _ _ _ Hp). lia.
  - rewrite M. apply map_ext_in. intros a Ha. rewrite Hid; auto.
  - rewrite (map_ext_in _ _ _ Hid). auto.
Qed.

Lemma finalize_reg h (g g' : graph) r : finalize_structure VC h g = (g', r) -> g_reg g' = g_reg g.
Proof.
  unfold finalize_structure.
  destruct (place_vars VC h _ 0 []) as [[vp nc]| |]; try (intros E; inversion E; reflexivity).
  destruct (place_factors VC h vp _ 0 0 []) as [fps [nr| |]]; try (intros E; inversion E; reflexivity).
  destruct (nr <? nc); [intros E; inversion E; reflexivity|].
  destruct (obind _ _) as [[cnt rows]| |]; intros E; inversion E; reflexivity.
Qed.

Lemma compute_residual_reg E h (g g' : graph) r : compute_residual E h g = (g', r) -> g_reg g' = g_reg g /\ g_lay g' = g_lay g /\ g_sc g' = g_sc g.
Proof.
  unfold compute_residual. destruct (negb _); [intros X; inversion X; auto|].
  destruct (compute_residual_into _ _ _ _) as [buf [|e|u]]; intros X; inversion X; auto.
Qed.
Lemma compute_dense_reg E h (g g' : graph) r : compute_dense VC E h g = (g', r) -> g_reg g' = g_reg g /\ g_lay g' = g_lay g /\ g_sc g' = g_sc g.
Proof.
  unfold compute_dense. destruct (negb _); [intros X; inversion X; auto|].
  destruct (dense_loop _ _ _ _ _) as [buf [|e|u]]; intros X; inversion X; auto.
Qed.
Lemma compute_both_reg E h (g g' : graph) r : compute_both VC E h g = (g', r) -> g_reg g' = g_reg g /\ g_lay g' = g_lay g /\ g_sc g' = g_sc g.
Proof.
  unfold compute_both. destruct (negb _); [intros X; inversion X; auto|].
  destruct (compute_dense VC E h g) as [g1 [m|e|u]] eqn:D; pose proof (compute_dense_reg _ _ _ _ _ D) as (R1 & R2 & R3).
  - destruct (compute_residual E h g1) as [g2 [x|e|u]] eqn:R; pose proof (compute_residual_reg _ _ _ _ _ R) as (Q1 & Q2 & Q3);
      intros X; inversion X; subst; repeat split; congruence.
  - intros X; inversion X; subst; auto.
  - intros X; inversion X; subst; auto.
Qed.
Lemma compute_sparse_reg h (g g' : graph) r : compute_sparse VC h g = (g', r) -> g_reg g' = g_reg g /\ g_lay g' = g_lay g /\ g_dc g' = g_dc g.
Proof.
  unfold compute_sparse. destruct (negb _); [intros X; inversion X; auto|].
  destruct (negb _); [intros X; inversion X; auto|].
  destruct (sparse_factors_loop _ _ _ _ _ _ _ _) as [[comps data] [|e|u]]; try (intros X; inversion X; auto; fail).
  destruct (sc_valid (g_sc g)).
  - destruct (copy_sparse _ _ _ _) as [m [|e|u]]; intros X; inversion X; auto.
  - destruct (populate _ _ _ _ _) as [m|e|u]; intros X; inversion X; auto.
Qed.

Lemma alookup_vmap_none h (vs : list addr) id :
  alookup Z.eqb id (map (fun a => (idz VC h a, a)) vs) = None <-> ~ In id (map (idz VC h) vs).
Proof.
  rewrite alookup_none; auto. rewrite map_map. simpl. tauto.
Qed.

Lemma step_reg_inv E s o s' ans : step VC E s o = (s', ans) -> reg_inv (fst s) (snd s) -> reg_inv (fst s') (snd s').
Proof.
  intros Es Hi. pose proof (step_heap_pres _ _ _ _ _ Es) as [Hp _].
  assert (Hsame : g_reg (snd s') = g_reg (snd s) -> reg_inv (fst s') (snd s')).
  { intros Er. eapply reg_inv_heap; eauto. }
  destruct s as [h g]. simpl in *. destruct o; simpl in Es;
    repeat match goal with
    | H : context [let '(_, _) := ?t in _] |- _ => destruct t eqn:?
    end; inversion Es; subst; clear Es; simpl in *; try (apply Hsame; reflexivity);
    try (apply Hsame; match goal with
    | H : finalize_structure _ _ _ = _ |- _ => eapply finalize_reg; eauto
    | H : compute_residual _ _ _ = _ |- _ => eapply compute_residual_reg; eauto
    | H : compute_dense _ _ _ _ = _ |- _ => eapply compute_dense_reg; eauto
    | H : compute_both _ _ _ _ = _ |- _ => eapply compute_both_reg; eauto
    | H : compute_sparse _ _ _ = _ |- _ => eapply compute_sparse_reg; eauto
    end; fail).
  - (* add_variable *)
    unfold add_variable in Heqp0. destruct p as [a|]; [|inversion Heqp0; subst; auto].
    unfold hget in Heqp0. destruct (nth_error h a) as [v|] eqn:Ha; [|inversion Heqp0; subst; auto].
    destruct (alookup Z.eqb (vid VC v) (rg_vmap (g_reg g))) eqn:L; [inversion Heqp0; subst; auto|].
    inversion Heqp0; subst; clear Heqp0. destruct Hi as [Lv M ND F FN].
    assert (Hid : idz VC h a = vid VC v) by (unfold idz; rewrite Ha; auto).
    constructor; simpl; auto.
    + apply Forall_app; split; auto. constructor; auto. apply nth_error_Some; congruence.
    + rewrite aset_fresh; auto. rewrite M, map_app. simpl. rewrite Hid. reflexivity.
    + rewrite map_app. simpl. rewrite M in L. rewrite alookup_vmap_none in L.
      apply (Permutation_NoDup (Permutation_cons_append _ _)). rewrite Hid. constructor; auto.
  - (* add_factor *)
    unfold add_factor in Heqp0. destruct p as [f|]; [|inversion Heqp0; subst; auto].
    destruct (alookup Z.eqb (f_id f) (rg_fmap (g_reg g))) eqn:L; [inversion Heqp0; subst; auto|].
    inversion Heqp0; subst; clear Heqp0. destruct Hi as [Lv M ND F FN].
    constructor; simpl; auto.
    + rewrite aset_fresh; auto. rewrite F, map_app. reflexivity.
    + rewrite map_app. simpl. rewrite F in L. apply alookup_none in L; auto. rewrite map_map in L. simpl in L.
      apply (Permutation_NoDup (Permutation_cons_append _ _)). constructor; auto.
Qed.

Lemma run_reg_inv l s : reg_inv (fst s) (snd s) -> reg_inv (fst (run VC s l)) (snd (run VC s l)).
Proof.
  revert s. induction l as [|[E o] t IH]; simpl; intros s Hi; auto.
  apply IH. destruct (step VC E s o) as [s' ans] eqn:Es. simpl. eapply step_reg_inv; eauto.
Qed.

(** ** Closed form of the placements *)
Fixpoint vp_list (h : heap) (vs : list addr) (col : nat) : list (Z * vplacement) :=
  match vs with
  | [] => []
  | a :: t => (idz VC h a, VPlacement a col (width VC h a)) :: vp_list h t (col + width VC h a)
  end.

Lemma vp_list_keys h vs col : map fst (vp_list h vs col) = map (idz VC h) vs.
Proof. revert col; induction vs; simpl; intros; auto. f_equal; auto. Qed.

Lemma place_vars_closed h vs col m :
  Forall (fun a => a < length h) vs -> NoDup (map fst m ++ map (idz VC h) vs) ->
  place_vars VC h vs col m = Ok (m ++ vp_list h vs col, col + list_sum (map (width VC h) vs)).
Proof.
  revert col m. induction vs as [|a t IH]; simpl; intros col m L ND.
  - rewrite app_nil_r, Nat.add_0_r. reflexivity.
  - inversion L; subst. unfold hget. destruct (nth_error h a) as [v|] eqn:Ha; [|apply nth_error_None in Ha; lia].
    simpl. assert (Hid : idz VC h a = vid VC v) by (unfold idz; rewrite Ha; auto).
    assert (Hw : width VC h a = if vconst VC v then 0 else vsize VC v) by (unfold width; rewrite Ha; auto).
    rewrite <- Hw, <- Hid. rewrite aset_fresh; auto.
    2:{ apply alookup_none; auto. intros Hin. apply NoDup_remove_2 in ND. apply ND. apply in_or_app; auto. }
    rewrite IH; auto.
    + rewrite <- app_assoc. simpl. do 2 f_equal. lia.
    + rewrite map_app. simpl. rewrite <- app_assoc. simpl. auto.
Qed.

Lemma vp_list_lookup h vs col k a :
  NoDup (map (idz VC h) vs) -> nth_error vs k = Some a ->
  alookup Z.eqb (idz VC h a) (vp_list h vs col) =
    Some (VPlacement a (col + col_start VC h vs k) (width VC h a)).
Proof.
  unfold col_start. revert col k. induction vs as [|b t IH]; simpl; intros col [|k] ND Hk; try discriminate.
  - inversion Hk; subst. rewrite Z.eqb_refl. simpl. rewrite Nat.add_0_r. reflexivity.
  - inversion ND; subst. destruct (Z.eqb_spec (idz VC h a) (idz VC h b)) as [E|E].
    + exfalso. apply H1. rewrite <- E. apply in_map. eapply nth_error_In; eauto.
    + simpl. rewrite (IH _ k); auto. do 2 f_equal. lia.
Qed.

Lemma vp_list_lookup_none h vs col id :
  ~ In id (map (idz VC h) vs) -> alookup Z.eqb id (vp_list h vs col) = None.
Proof. intros H. apply alookup_none; auto. rewrite vp_list_keys. auto. Qed.

(** columns of one variable occurrence of a factor; [None] if the variable is constant *)
Definition occ (h : heap) (vp : list (Z * vplacement)) (p : option addr) : list (nat * nat) :=
  match p with
  | Some a => match nth_error h a with
              | Some v => if vconst VC v then []
                          else match alookup Z.eqb (vid VC v) vp with
                               | Some q => [(vp_index q, vp_dim q)]
                               | None => []
                               end
              | None => []
              end
  | None => []
  end.
Definition occs (h : heap) vp (vars : list (option addr)) : list (nat * nat) := flat_map (occ h vp) vars.

(** what finalize_structure requires of a factor's variable list *)
Definition vars_fine (h : heap) (vp : list (Z * vplacement)) (vars : list (option addr)) : Prop :=
  Forall (fun p => exists a v, p = Some a /\ nth_error h a = Some v /\
            (vconst VC v = false -> alookup Z.eqb (vid VC v) vp <> None)) vars.

Lemma factor_cols_fine h vp vars :
  vars_fine h vp vars -> factor_cols VC h vp vars = Ok (map fst (occs h vp vars), map snd (occs h vp vars)).
Proof.
  induction 1 as [|p t (a & v & -> & Ha & Hv) _ IH]; simpl; auto.
  unfold hget. rewrite Ha. simpl. destruct (vconst VC v) eqn:C; simpl; auto.
  destruct (alookup Z.eqb (vid VC v) vp) as [q|]; [|exfalso; apply Hv; auto].
  rewrite IH. reflexivity.
Qed.

Lemma factor_cols_ok h vp vars r : factor_cols VC h vp vars = Ok r -> vars_fine h vp vars.
Proof.
  revert r. induction vars as [|[a|] t IH]; simpl; intros r H; try discriminate; [constructor|].
  unfold hget in H. destruct (nth_error h a) as [v|] eqn:Ha; [|discriminate]. simpl in H.
  destruct (vconst VC v) eqn:C.
  - constructor; [|eapply IH; eauto]. exists a, v. repeat split; auto. congruence.
  - destruct (alookup Z.eqb (vid VC v) vp) as [q|] eqn:L; [|discriminate].
    destruct (factor_cols VC h vp t) as [r'| |] eqn:F; try discriminate.
    constructor; [|eapply IH; eauto]. exists a, v. repeat split; auto. congruence.
Qed.

Fixpoint fp_list (h : heap) vp (fs : list factor) (i row : nat) : list (nat * fplacement) :=
  match fs with
  | [] => []
  | f :: t => (i, FPlacement (Some f) row (f_rsize f) (map fst (occs h vp (f_vars f))) (map snd (occs h vp (f_vars f))))
              :: fp_list h vp t (S i) (row + f_rsize f)
  end.

Lemma fp_list_keys h vp fs i row : map fst (fp_list h vp fs i row) = seq i (length fs).
Proof. revert i row; induction fs; simpl; intros; auto. f_equal; auto. Qed.

Lemma place_factors_closed h vp fs i row m :
  Forall (fun f => vars_fine h vp (f_vars f)) fs -> Forall (fun p => fst p < i) m ->
  place_factors VC h vp fs i row m = (m ++ fp_list h vp fs i row, Ok (row + list_sum (map f_rsize fs))).
Proof.
  revert i row m. induction fs as [|f t IH]; simpl; intros i row m Hf Hm.
  - rewrite app_nil_r, Nat.add_0_r. reflexivity.
  - inversion Hf; subst. rewrite factor_cols_fine; auto.
    rewrite aset_fresh; auto.
    2:{ apply alookup_none; auto. intros Hin. apply in_map_iff in Hin. destruct Hin as ([k x] & E & Hin).
        rewrite Forall_forall in Hm. specialize (Hm _ Hin). simpl in *. lia. }
    rewrite IH; auto.
    + rewrite <- app_assoc. simpl. f_equal. f_equal. lia.
    + apply Forall_app; split; [|repeat constructor; simpl; lia].
      eapply Forall_impl; [|exact Hm]. simpl; intros; lia.
Qed.

Lemma place_factors_ok h vp fs i row m fps nr :
  place_factors VC h vp fs i row m = (fps, Ok nr) -> Forall (fun f => vars_fine h vp (f_vars f)) fs.
Proof.
  revert i row m. induction fs as [|f t IH]; simpl; intros i row m H; [constructor|].
  destruct (factor_cols VC h vp (f_vars f)) as [[c d]| |] eqn:F; try discriminate.
  constructor; eauto. eapply factor_cols_ok; eauto.
Qed.

Lemma fp_list_lookup h vp fs i row k f :
  nth_error fs k = Some f ->
  alookup Nat.eqb (i + k) (fp_list h vp fs i row) =
    Some (FPlacement (Some f) (row + row_start fs k) (f_rsize f)
            (map fst (occs h vp (f_vars f))) (map snd (occs h vp (f_vars f)))).
Proof.
  unfold row_start. revert i row k. induction fs as [|f' t IH]; simpl; intros i row [|k] H; try discriminate.
  - inversion H; subst. rewrite !Nat.add_0_r, Nat.eqb_refl. simpl. rewrite ?Nat.add_0_r. reflexivity.
  - destruct (Nat.eqb_spec (i + S k) i); [lia|]. simpl.
    replace (i + S k) with (S i + k) by lia. rewrite (IH _ _ _ H). do 2 f_equal. lia.
Qed.

Lemma fp_list_lookup_none h vp fs i row k :
  length fs <= k -> alookup Nat.eqb (i + k) (fp_list h vp fs i row) = None.
Proof.
  intros H. apply alookup_none; auto. rewrite fp_list_keys, in_seq. lia.
Qed.

(** all (column,row) cells of a factor, of all factors *)
Definition fcells (h : heap) vp (f : factor) (row : nat) : list (nat * nat) :=
  flat_map (fun p => gcells (f_rsize f) (fst p) (snd p) (fun r _ => row + r)) (occs h vp (f_vars f)).
Fixpoint allcells (h : heap) vp (fs : list factor) (row : nat) : list (nat * nat) :=
  match fs with [] => [] | f :: t => fcells h vp f row ++ allcells h vp t (row + f_rsize f) end.

(** counters *)
Lemma bump_spec base dim n cnt :
  base + dim <= length cnt ->
  exists cnt', bump base dim n cnt = Ok cnt' /\ length cnt' = length cnt /\
    forall c x, nth_error cnt c = Some x ->
      nth_error cnt' c = Some (x + if (base <=? c) && (c <? base + dim) then n else 0).
Proof.
  revert base cnt. induction dim; simpl; intros base cnt H.
  - exists cnt. repeat split; auto. intros c x Hx. rewrite Hx. f_equal.
    destruct (Nat.leb_spec base c), (Nat.ltb_spec c (base + 0)); simpl; lia.
  - destruct (nth_error cnt base) as [x0|] eqn:E; [|apply nth_error_None in E; lia].
    destruct (IHdim (S base) (lupd base (x0 + n) cnt)) as (cnt' & B & L & S).
    { rewrite lupd_length. lia. }
    exists cnt'. rewrite lupd_length in L. repeat split; auto. intros c x Hx.
    destruct (Nat.eq_dec base c) as [->|Hc].
    + rewrite (S c (x0 + n)).
      * destruct (Nat.leb_spec (Datatypes.S c) c), (Nat.leb_spec c c), (Nat.ltb_spec c (c + Datatypes.S dim)); simpl; try lia.
        f_equal. replace x with x0 by congruence. lia.
      * apply lupd_nth_same. apply nth_error_Some; congruence.
    + rewrite (S c x).
      * do 2 f_equal. destruct (Nat.leb_spec (Datatypes.S base) c), (Nat.leb_spec base c), (Nat.ltb_spec c (Datatypes.S base + dim)),
          (Nat.ltb_spec c (base + Datatypes.S dim)); simpl; auto; lia.
      * rewrite lupd_nth_other; auto.
Qed.

Definition occs_fit (n : nat) (l : list (nat * nat)) : Prop := Forall (fun p => fst p + snd p <= n) l.

Lemma count_vars_spec h vp rd vars cnt :
  vars_fine h vp vars -> occs_fit (length cnt) (occs h vp vars) ->
  exists cnt', count_vars VC h vp rd vars cnt = Ok cnt' /\ length cnt' = length cnt /\
    forall c x, nth_error cnt c = Some x ->
      nth_error cnt' c = Some (x + length (sub c (flat_map (fun p => gcells rd (fst p) (snd p) (fun r _ => r)) (occs h vp vars)))).
Proof.
  intros Hf. revert cnt. induction Hf as [|p t (a & v & -> & Ha & Hv) _ IH]; simpl; intros cnt Hfit.
  - exists cnt. repeat split; auto. intros. rewrite H. f_equal. lia.
  - unfold hget. rewrite Ha in *. simpl. destruct (vconst VC v) eqn:C; simpl in *; [eauto|].
    destruct (alookup Z.eqb (vid VC v) vp) as [q|]; [|exfalso; apply Hv; auto].
    simpl in *. inversion Hfit; subst. simpl in *.
    destruct (bump_spec (vp_index q) (vp_dim q) rd cnt) as (c1 & B & L & S); auto.
    rewrite B. simpl. destruct (IH c1) as (c2 & B2 & L2 & S2); [rewrite L; auto|].
    exists c2. split; [auto|]. split; [congruence|]. intros c x Hx.
    rewrite (S2 _ _ (S _ _ Hx)). f_equal. rewrite sub_app, app_length, sub_gcells.
    destruct (_ && _); simpl; rewrite ?map_length, ?seq_length; lia.
Qed.

Lemma sub_length_row c rd b d row :
  length (sub c (gcells rd b d (fun r (_ : nat) => row + r))) = length (sub c (gcells rd b d (fun r (_ : nat) => r))).
Proof. rewrite !sub_gcells. destruct (_ && _); auto. rewrite !map_length. auto. Qed.

Lemma sub_fcells_length c h vp f row :
  length (sub c (fcells h vp f row)) =
  length (sub c (flat_map (fun p => gcells (f_rsize f) (fst p) (snd p) (fun r _ => r)) (occs h vp (f_vars f)))).
Proof.
  unfold fcells. induction (occs h vp (f_vars f)) as [|p l IH]; simpl; auto.
  rewrite !sub_app, !app_length, IH, sub_length_row. auto.
Qed.

Lemma count_factors_spec h vp fs i row cnt fps :
  Forall (fun f => vars_fine h vp (f_vars f)) fs ->
  Forall (fun f => occs_fit (length cnt) (occs h vp (f_vars f))) fs ->
  (forall k f, nth_error fs k = Some f -> exists fp, alookup Nat.eqb (i + k) fps = Some fp /\
      fp_factor fp = Some f /\ fp_rdim fp = f_rsize f) ->
  exists cnt', count_factors VC h vp fps (length fs) i cnt = Ok cnt' /\ length cnt' = length cnt /\
    forall c x, nth_error cnt c = Some x ->
      nth_error cnt' c = Some (x + length (sub c (allcells h vp fs row))).
Proof.
  revert i row cnt. induction fs as [|f t IH]; simpl; intros i row cnt Hf Hfit Hfp.
  - exists cnt. repeat split; auto. intros. rewrite H. f_equal. lia.
  - inversion Hf; subst. inversion Hfit; subst.
    destruct (Hfp 0 f eq_refl) as (fp & L & F & R). rewrite Nat.add_0_r in L. rewrite L, F.
    rewrite R.
    destruct (count_vars_spec h vp (f_rsize f) (f_vars f) cnt) as (c1 & B & L1 & S); auto.
    rewrite B. simpl. destruct (IH (Datatypes.S i) (row + f_rsize f) c1) as (c2 & B2 & L2 & S2); auto.
    { eapply Forall_impl; [|exact H4]. simpl. rewrite L1. auto. }
    { intros k f' Hk. replace (Datatypes.S i + k) with (i + Datatypes.S k) by lia. apply Hfp. auto. }
    exists c2. split; [auto|]. split; [congruence|]. intros c x Hx.
    rewrite (S2 _ _ (S _ _ Hx)). f_equal. rewrite sub_app, app_length, sub_fcells_length. lia.
Qed.

(** cursor writes *)
Definition cell_ok {A} (rows : list (list A)) (cur : list nat) {B} (cells : list (nat * B)) : Prop :=
  Forall (fun p => fst p < length rows /\ fst p < length cur) cells /\
  forall c l k, nth_error rows c = Some l -> nth_error cur c = Some k -> k + length (sub c cells) <= length l.

Lemma cell_ok_tail {A} (rows : list (list A)) cur c x l k (t : list (nat * A)) :
  cell_ok rows cur ((c, x) :: t) -> nth_error rows c = Some l -> nth_error cur c = Some k ->
  k < length l /\ cell_ok (put2 c k x rows) (lupd c (S k) cur) t.
Proof.
  intros [Hr Hc] Hl Hk. inversion Hr; subst. split.
  - specialize (Hc _ _ _ Hl Hk). rewrite sub_cons_same in Hc. simpl in Hc. lia.
  - unfold put2. rewrite Hl. split.
    + eapply Forall_impl; [|exact H2]. simpl; intros p. rewrite !lupd_length. auto.
    + intros c' l' k' Hl' Hk'. destruct (Nat.eq_dec c c') as [->|E].
      * rewrite lupd_nth_same in Hl' by (simpl in *; tauto). rewrite lupd_nth_same in Hk' by (simpl in *; tauto).
        inversion Hl'; inversion Hk'; subst. rewrite lupd_length.
        specialize (Hc _ _ _ Hl Hk). rewrite sub_cons_same in Hc. simpl in Hc. lia.
      * rewrite lupd_nth_other in Hl' by auto. rewrite lupd_nth_other in Hk' by auto. specialize (Hc _ _ _ Hl' Hk').
        rewrite sub_cons_other in Hc by auto. auto.
Qed.

(** the effect of cursor writes on column contents *)
Definition written {A} (rows rows' : list (list A)) (cur cur' : list nat) (cells : list (nat * A)) : Prop :=
  length rows' = length rows /\ length cur' = length cur /\
  forall c l k, nth_error rows c = Some l -> nth_error cur c = Some k ->
    nth_error rows' c = Some (firstn k l ++ sub c cells ++ skipn (k + length (sub c cells)) l) /\
    nth_error cur' c = Some (k + length (sub c cells)).

Lemma firstn_lupd {A} k (x : A) l : k < length l -> firstn (S k) (lupd k x l) = firstn k l ++ [x].
Proof.
  revert k; induction l; destruct k; simpl; intros; try lia; auto. f_equal. apply IHl. lia.
Qed.
Lemma skipn_lupd {A} k n (x : A) l : k < n -> skipn n (lupd k x l) = skipn n l.
Proof.
  revert k n; induction l as [|y l IH]; intros [|k] [|n] H; simpl; auto; try lia. apply IH. lia.
Qed.

Lemma written_cons {A} (rows rows' : list (list A)) cur cur' c x l k t :
  nth_error rows c = Some l -> nth_error cur c = Some k -> k < length l ->
  written (put2 c k x rows) rows' (lupd c (S k) cur) cur' t -> written rows rows' cur cur' ((c, x) :: t).
Proof.
  intros Hl Hk Hlt (L1 & L2 & W). unfold put2 in L1, W. rewrite Hl in L1, W. rewrite lupd_length in L1. rewrite lupd_length in L2.
  split; [congruence|]. split; [congruence|]. intros c' l' k' Hl' Hk'.
  destruct (Nat.eq_dec c c') as [->|E].
  - replace l' with l in * by congruence. replace k' with k in * by congruence.
    assert (c' < length rows) by (apply nth_error_Some; congruence).
    assert (c' < length cur) by (apply nth_error_Some; congruence).
    destruct (W c' (lupd k x l) (S k)) as [W1 W2]; [apply lupd_nth_same; auto..|].
    rewrite sub_cons_same. simpl. split.
    + rewrite W1. f_equal. rewrite firstn_lupd by auto. rewrite skipn_lupd by lia.
      rewrite <- app_assoc. simpl. rewrite Nat.add_succ_r. reflexivity.
    + rewrite W2. f_equal. lia.
  - rewrite sub_cons_other by auto. apply W; rewrite lupd_nth_other; auto.
Qed.

Lemma written_nil {A} (rows : list (list A)) cur : written rows rows cur cur [].
Proof.
  split; auto. split; auto. intros c l k Hl Hk. unfold sub; simpl. rewrite !Nat.add_0_r, firstn_skipn. auto.
Qed.

Lemma written_app {A} (r1 r2 r3 : list (list A)) c1 c2 c3 t1 t2 :
  (forall c l k, nth_error r1 c = Some l -> nth_error c1 c = Some k -> k + length (sub c t1) <= length l) ->
  written r1 r2 c1 c2 t1 -> written r2 r3 c2 c3 t2 -> written r1 r3 c1 c3 (t1 ++ t2).
Proof.
  intros Hfit (L1 & L1' & W1) (L2 & L2' & W2). split; [congruence|]. split; [congruence|].
  intros c l k Hl Hk. destruct (W1 _ _ _ Hl Hk) as [A1 B1]. destruct (W2 _ _ _ A1 B1) as [A2 B2].
  specialize (Hfit _ _ _ Hl Hk).
  rewrite A2, B2, sub_app, app_length. split; [|f_equal; lia]. f_equal.
  assert (Lk : length (firstn k l) = k) by (rewrite firstn_length; lia).
  set (s1 := sub c t1) in *. set (s2 := sub c t2) in *.
  rewrite (app_assoc (firstn k l) s1). rewrite firstn_app, skipn_app, app_length, Lk.
  rewrite (firstn_all2 (firstn k l ++ s1)) by (rewrite app_length; lia).
  rewrite (skipn_all2 (firstn k l ++ s1)) by (rewrite app_length; lia).
  replace (k + length s1 - (k + length s1)) with 0 by lia. simpl. rewrite app_nil_r.
  rewrite <- !app_assoc. do 3 f_equal.
  replace (k + length s1 + length s2 - (k + length s1)) with (length s2) by lia.
  rewrite skipn_skipn'. f_equal. lia.
Qed.

Lemma fill_rows_spec cells rows cur :
  cell_ok rows cur cells ->
  exists rows' cur', fill_rows cells rows cur = Ok (rows', cur') /\ written rows rows' cur cur' cells.
Proof.
  revert rows cur. induction cells as [|[c r] t IH]; simpl; intros rows cur H.
  - exists rows, cur. split; auto. apply written_nil.
  - pose proof H as [Hr _]. inversion Hr; subst. simpl in *.
    destruct (nth_error cur c) as [k|] eqn:Hk; [|apply nth_error_None in Hk; lia].
    destruct (nth_error rows c) as [l|] eqn:Hl; [|apply nth_error_None in Hl; lia].
    destruct (cell_ok_tail _ _ _ _ _ _ _ H Hl Hk) as [Hlt Hok'].
    rewrite (proj2 (Nat.ltb_lt _ _) Hlt).
    destruct (IH _ _ Hok') as (rows' & cur' & F & W). exists rows', cur'. split; auto.
    eapply written_cons; eauto.
Qed.

Lemma fill_data_spec cells (data : list (list N)) cur :
  cell_ok data cur cells ->
  exists data' cur', fill_data cells data cur = (data', cur', Ok tt) /\ written data data' cur cur' cells.
Proof.
  revert data cur. induction cells as [|[c r] t IH]; simpl; intros rows cur H.
  - exists rows, cur. split; auto. apply written_nil.
  - pose proof H as [Hr _]. inversion Hr; subst. simpl in *.
    destruct (nth_error cur c) as [k|] eqn:Hk; [|apply nth_error_None in Hk; lia].
    destruct (nth_error rows c) as [l|] eqn:Hl; [|apply nth_error_None in Hl; lia].
    destruct (cell_ok_tail _ _ _ _ _ _ _ H Hl Hk) as [Hlt Hok'].
    rewrite (proj2 (Nat.ltb_lt _ _) Hlt).
    destruct (IH _ _ Hok') as (rows' & cur' & F & W). exists rows', cur'. split; auto.
    eapply written_cons; eauto.
Qed.

(** lengths of the columns never change, also on failure *)
Lemma fill_data_lengths cells (data : list (list N)) cur data' cur' r :
  fill_data cells data cur = (data', cur', r) -> map (@length N) data' = map (@length N) data /\ length cur' = length cur.
Proof.
  revert data cur. induction cells as [|[c x] t IH]; simpl; intros data cur E.
  - inversion E; auto.
  - destruct (nth_error cur c) as [k|]; [|inversion E; auto].
    destruct (nth_error data c) as [l|] eqn:Hl; [|inversion E; auto].
    destruct (k <? length l); [|inversion E; auto].
    apply IH in E. destruct E as [E1 E2]. rewrite lupd_length in E2. split; auto. rewrite E1.
    unfold put2. rewrite Hl. apply list_ext_nth. intros i. rewrite !nth_error_map, lupd_nth.
    destruct (Nat.eqb_spec c i); subst; simpl; auto.
    destruct (_ <? _); simpl; auto. rewrite lupd_length, Hl. reflexivity.
Qed.

Lemma cell_ok_app_l {A} (rows : list (list A)) cur (t1 t2 : list (nat * A)) :
  cell_ok rows cur (t1 ++ t2) -> cell_ok rows cur t1.
Proof.
  intros [Hr Hc]. apply Forall_app in Hr. split; [tauto|]. intros c l k Hl Hk.
  specialize (Hc _ _ _ Hl Hk). rewrite sub_app, app_length in Hc. lia.
Qed.
Lemma cell_ok_app_r {A} (rows rows' : list (list A)) cur cur' (t1 t2 : list (nat * A)) :
  cell_ok rows cur (t1 ++ t2) -> written rows rows' cur cur' t1 -> cell_ok rows' cur' t2.
Proof.
  intros [Hr Hc] (L1 & L2 & W). apply Forall_app in Hr. split.
  - rewrite L1, L2. tauto.
  - intros c l' k' Hl' Hk'.
    assert (c < length rows) by (rewrite <- L1; apply nth_error_Some; congruence).
    assert (c < length cur) by (rewrite <- L2; apply nth_error_Some; congruence).
    destruct (nth_error rows c) as [l|] eqn:Hl; [|apply nth_error_None in Hl; lia].
    destruct (nth_error cur c) as [k|] eqn:Hk; [|apply nth_error_None in Hk; lia].
    destruct (W _ _ _ Hl Hk) as [W1 W2]. specialize (Hc _ _ _ Hl Hk). rewrite sub_app, app_length in Hc.
    rewrite W1 in Hl'. rewrite W2 in Hk'. inversion Hl'; inversion Hk'; subst.
    rewrite !app_length, firstn_length, skipn_length. lia.
Qed.

Lemma fill_factors_spec h vp fs i row rows cur fps :
  (forall k f, nth_error fs k = Some f -> alookup Nat.eqb (i + k) fps =
     Some (FPlacement (Some f) (row + row_start fs k) (f_rsize f)
            (map fst (occs h vp (f_vars f))) (map snd (occs h vp (f_vars f))))) ->
  cell_ok rows cur (allcells h vp fs row) ->
  exists rows' cur', fill_factors fps (length fs) i rows cur = Ok (rows', cur') /\
    written rows rows' cur cur' (allcells h vp fs row).
Proof.
  revert i row rows cur. induction fs as [|f t IH]; simpl; intros i row rows cur Hl Hc.
  - exists rows, cur. split; auto. apply written_nil.
  - pose proof (Hl 0 f eq_refl) as L0. rewrite Nat.add_0_r in L0. rewrite L0.
    assert (Ecells : placement_cells (FPlacement (Some f) (row + row_start (f :: t) 0) (f_rsize f)
       (map fst (occs h vp (f_vars f))) (map snd (occs h vp (f_vars f)))) = fcells h vp f row).
    { unfold placement_cells, fcells, row_start. simpl. rewrite Nat.add_0_r.
      generalize (occs h vp (f_vars f)) as l. clear. induction l as [|[b d] l IHl]; simpl; auto.
      rewrite IHl. reflexivity. }
    rewrite Ecells. pose proof (cell_ok_app_l _ _ _ _ Hc) as Hc1.
    destruct (fill_rows_spec _ _ _ Hc1) as (rows1 & cur1 & F1 & W1). rewrite F1. simpl.
    pose proof (cell_ok_app_r _ _ _ _ _ _ Hc W1) as Hc2.
    destruct (IH (Datatypes.S i) (row + f_rsize f) rows1 cur1) as (rows2 & cur2 & F2 & W2); auto.
    { intros k f' Hk. replace (Datatypes.S i + k) with (i + Datatypes.S k) by lia.
      rewrite (Hl (Datatypes.S k) f' Hk). do 2 f_equal. unfold row_start. simpl. lia. }
    exists rows2, cur2. split; auto. eapply written_app; eauto. destruct Hc1; auto.
Qed.

(** if all columns are exactly filled from zero cursors, the result is the list of payloads *)
Lemma written_full {A} (rows rows' : list (list A)) n cur' cells :
  length rows = n ->
  written rows rows' (repeat 0 n) cur' cells ->
  (forall c l, nth_error rows c = Some l -> length l = length (sub c cells)) ->
  forall c, c < n -> nth_error rows' c = Some (sub c cells).
Proof.
  intros Hn (L1 & L2 & W) Hl c Hc.
  destruct (nth_error rows c) as [l|] eqn:El; [|apply nth_error_None in El; lia].
  destruct (W c l 0 El) as [W1 _].
  { rewrite nth_error_repeat'. rewrite (proj2 (Nat.ltb_lt _ _) Hc). auto. }
  rewrite W1. simpl. rewrite skipn_all2 by (rewrite (Hl _ _ El); lia). rewrite app_nil_r. reflexivity.
Qed.

(** ** Closed form of finalize_structure *)
Definition vpl h (g : graph) := vp_list h (rg_vars (g_reg g)) 0.
Definition fpl h (g : graph) := fp_list h (vpl h g) (rg_factors (g_reg g)) 0 0.
Definition cells_of h (g : graph) := allcells h (vpl h g) (rg_factors (g_reg g)) 0.
Definition ncols h (g : graph) := total_cols VC h (rg_vars (g_reg g)).
Definition nrows (g : graph) := total_rows (rg_factors (g_reg g)).
Definition cols_counts h (g : graph) := map (fun c => length (sub c (cells_of h g))) (seq 0 (ncols h g)).

Definition final_graph (h : heap) (g : graph) : graph :=
  Graph (g_reg g) (Layout true (vpl h g) (fpl h g) (nrows g) (ncols h g)) (g_dc g)
    (SCache (sp_reserved (nrows g) (cols_counts h g)) (repeat [] (length (rg_factors (g_reg g)))) true (sc_valid (g_sc g))
       (map (fun c => sub c (cells_of h g)) (seq 0 (ncols h g)))
       (map (fun n => repeat nzero n) (cols_counts h g))).

Lemma col_start_le h vs k a : nth_error vs k = Some a -> col_start VC h vs k + width VC h a <= total_cols VC h vs.
Proof.
  intros H. apply (psum_le_total (map (width VC h) vs) k). rewrite nth_error_map, H. reflexivity.
Qed.

Lemma lookup_registered h g v q : reg_inv h g ->
  alookup Z.eqb (vid VC v) (vpl h g) = Some q ->
  exists k a, nth_error (rg_vars (g_reg g)) k = Some a /\ idz VC h a = vid VC v /\
    q = VPlacement a (col_start VC h (rg_vars (g_reg g)) k) (width VC h a).
Proof.
  intros Hi L.
  assert (Hin : In (vid VC v) (map (idz VC h) (rg_vars (g_reg g)))).
  { destruct (in_dec Z.eq_dec (vid VC v) (map (idz VC h) (rg_vars (g_reg g)))); auto.
    unfold vpl in L. rewrite vp_list_lookup_none in L by auto. discriminate. }
  apply in_map_iff in Hin. destruct Hin as (a & Ea & Ha). apply In_nth_error in Ha. destruct Ha as [k Hk].
  exists k, a. repeat split; auto. pose proof (vp_list_lookup h _ 0 k a (ri_nodup _ _ Hi) Hk) as L'.
  unfold vpl in L. rewrite <- Ea in L. rewrite L in L'. inversion L'. reflexivity.
Qed.

Lemma occs_fit_vpl h g vars : reg_inv h g -> occs_fit (ncols h g) (occs h (vpl h g) vars).
Proof.
  intros Hi. unfold occs_fit, occs. apply Forall_forall. intros [b d] Hin. apply in_flat_map in Hin.
  destruct Hin as (p & _ & Hin). unfold occ in Hin. destruct p as [a|]; [|inversion Hin].
  destruct (nth_error h a) as [v|]; [|inversion Hin]. destruct (vconst VC v); [inversion Hin|].
  destruct (alookup Z.eqb (vid VC v) (vpl h g)) as [q|] eqn:L; [|inversion Hin].
  destruct Hin as [E|[]]. inversion E; subst.
  destruct (lookup_registered _ _ _ _ Hi L) as (k & a' & Hk & _ & ->). simpl. eapply col_start_le; eauto.
Qed.

Lemma allcells_bound h vp fs row n :
  Forall (fun f => occs_fit n (occs h vp (f_vars f))) fs -> Forall (fun p => fst p < n) (allcells h vp fs row).
Proof.
  intros H. revert row. induction H as [|f t Hf _ IH]; simpl; intros row; [constructor|].
  apply Forall_app; split; auto. unfold fcells. apply Forall_forall. intros x Hx.
  apply in_flat_map in Hx. destruct Hx as ([b d] & Hin & Hx).
  unfold occs_fit in Hf. rewrite Forall_forall in Hf. specialize (Hf _ Hin). simpl in *.
  pose proof (gcells_fst_bound (f_rsize f) b d (fun r _ => row + r) n Hf) as Hb.
  rewrite Forall_forall in Hb. auto.
Qed.

Definition factors_fine h (g : graph) : Prop := Forall (fun f => vars_fine h (vpl h g) (f_vars f)) (rg_factors (g_reg g)).

Lemma finalize_closed h g : reg_inv h g -> factors_fine h g ->
  finalize_structure VC h g =
    if nrows g <? ncols h g
    then (with_lay g (Layout (ly_final (g_lay g)) (vpl h g) (fpl h g) (nrows g) (ncols h g)), Throw EUnderdetermined)
    else (final_graph h g, Ok tt).
Proof.
  intros Hi Hf. unfold finalize_structure.
  rewrite (place_vars_closed h (rg_vars (g_reg g)) 0 []); [|apply Hi|simpl; apply Hi].
  change ([] ++ vp_list h (rg_vars (g_reg g)) 0) with (vpl h g).
  change (0 + list_sum (map (width VC h) (rg_vars (g_reg g)))) with (ncols h g).
  rewrite (place_factors_closed h (vpl h g) (rg_factors (g_reg g)) 0 0 []); auto.
  change ([] ++ fp_list h (vpl h g) (rg_factors (g_reg g)) 0 0) with (fpl h g).
  change (0 + list_sum (map f_rsize (rg_factors (g_reg g)))) with (nrows g).
  destruct (nrows g <? ncols h g); auto.
  set (fs := rg_factors (g_reg g)) in *. set (n := ncols h g).
  assert (Hfit : Forall (fun f => occs_fit n (occs h (vpl h g) (f_vars f))) fs).
  { apply Forall_forall. intros. apply occs_fit_vpl; auto. }
  destruct (count_factors_spec h (vpl h g) fs 0 0 (repeat 0 n) (fpl h g)) as (cnt & Ec & Lc & Sc); auto.
  { rewrite repeat_length; auto. }
  { intros k f Hk. eexists. split; [apply fp_list_lookup; eauto|]. auto. }
  assert (Ecnt : cnt = cols_counts h g).
  { apply list_ext_nth. intros c. unfold cols_counts. rewrite nth_error_map, nth_error_seq.
    fold n. destruct (Nat.ltb_spec c n) as [Hc|Hc].
    - simpl. rewrite (Sc c 0). + reflexivity.
      + rewrite nth_error_repeat', (proj2 (Nat.ltb_lt _ _) Hc). auto.
    - simpl. apply nth_error_None. rewrite Lc, repeat_length. auto. }
  rewrite Ec. simpl.
  assert (Lcc : length (cols_counts h g) = n) by (unfold cols_counts; rewrite map_length, seq_length; auto).
  assert (Hcell : cell_ok (map (fun n0 => repeat 0 n0) cnt) (repeat 0 n) (allcells h (vpl h g) fs 0)).
  { split.
    - rewrite map_length, repeat_length, Ecnt, Lcc. eapply Forall_impl; [|apply allcells_bound; eauto].
      simpl; intros; auto.
    - intros c l k Hl Hk. rewrite nth_error_repeat' in Hk. destruct (c <? n) eqn:Hc; [|discriminate].
      inversion Hk; subst k. rewrite Ecnt in Hl. rewrite nth_error_map in Hl.
      unfold cols_counts in Hl. rewrite nth_error_map, nth_error_seq in Hl. fold n in Hl. rewrite Hc in Hl.
      simpl in Hl. inversion Hl; subst. rewrite repeat_length. auto. }
  destruct (fill_factors_spec h (vpl h g) fs 0 0 (map (fun n0 => repeat 0 n0) cnt) (repeat 0 n) (fpl h g))
    as (rows & cur & Ef & W); auto.
  { intros k f Hk. exact (fp_list_lookup h (vpl h g) fs 0 0 k f Hk). }
  rewrite Ef. simpl. unfold final_graph. fold n fs.
  assert (Erows : rows = map (fun c => sub c (cells_of h g)) (seq 0 n)).
  { apply list_ext_nth. intros c. rewrite nth_error_map, nth_error_seq.
    destruct (Nat.ltb_spec c n) as [Hc|Hc].
    - simpl. apply (written_full (map (fun n0 => repeat 0 n0) cnt) rows n cur (allcells h (vpl h g) fs 0)); auto.
      + rewrite map_length, Ecnt; auto.
      + intros c' l Hl. rewrite Ecnt, nth_error_map in Hl. unfold cols_counts in Hl.
        rewrite nth_error_map, nth_error_seq in Hl. destruct (c' <? ncols h g); [|discriminate].
        simpl in Hl. inversion Hl. rewrite repeat_length. reflexivity.
    - simpl. apply nth_error_None. destruct W as (L & _). rewrite L, map_length, Ecnt, Lcc. auto. }
  rewrite Erows, Ecnt. reflexivity.
Qed.

Lemma finalize_ok_fine h g g' : reg_inv h g -> finalize_structure VC h g = (g', Ok tt) ->
  factors_fine h g /\ ncols h g <= nrows g /\ g' = final_graph h g.
Proof.
  intros Hi H. assert (Hf : factors_fine h g).
  { unfold finalize_structure in H.
    rewrite (place_vars_closed h (rg_vars (g_reg g)) 0 []) in H; [|apply Hi|simpl; apply Hi].
    change ([] ++ vp_list h (rg_vars (g_reg g)) 0) with (vpl h g) in H.
    destruct (place_factors VC h (vpl h g) (rg_factors (g_reg g)) 0 0 []) as [fps [nr| |]] eqn:P; try discriminate.
    eapply place_factors_ok; eauto. }
  split; auto. rewrite finalize_closed in H by auto. destruct (Nat.ltb_spec (nrows g) (ncols h g)).
  - discriminate.
  - inversion H. auto.
Qed.
End Layout.
