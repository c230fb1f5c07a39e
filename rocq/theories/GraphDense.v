(** Proofs about the dense Jacobian. *)
From Coq Require Import List Arith ZArith Bool Lia Permutation.
From Verif Require Import Base Sparse Graph SpecGraph ListLemmas GraphLayout GraphFin GraphBasic GraphVec.
Import ListNotations.

Section Dense.
Context {N : num} {V : Type} (VC : vclass N V).
Notation factor := (factor (N:=N) (V:=V)).
Notation graph := (graph (N:=N) (V:=V)).
Notation env := (env (N:=N) (V:=V)).
Notation op := (op (N:=N) (V:=V)).
Hypothesis Hok : vclass_ok VC.

Lemma cols_disjoint h vs m m' (a a' : addr) c c' :
  nth_error vs m = Some a -> nth_error vs m' = Some a' -> c < width VC h a -> c' < width VC h a' ->
  col_start VC h vs m + c = col_start VC h vs m' + c' -> m = m' /\ a = a' /\ c = c'.
Proof.
  intros Hm Hm' Hc Hc' E.
  assert (m = m').
  { apply (psum_disjoint (map (width VC h) vs) m m' (width VC h a) (width VC h a') (col_start VC h vs m + c)).
    - rewrite nth_error_map, Hm; auto.
    - rewrite nth_error_map, Hm'; auto.
    - unfold psum. fold (col_start VC h vs m). lia.
    - unfold psum. fold (col_start VC h vs m'). lia. }
  subst m'. split; auto. split; [congruence|lia].
Qed.
Lemma rows_disjoint (fs : list factor) k k' f f' r r' :
  nth_error fs k = Some f -> nth_error fs k' = Some f' -> r < f_rsize f -> r' < f_rsize f' ->
  row_start fs k + r = row_start fs k' + r' -> k = k' /\ f = f' /\ r = r'.
Proof.
  intros Hm Hm' Hc Hc' E.
  assert (k = k').
  { apply (psum_disjoint (map f_rsize fs) k k' (f_rsize f) (f_rsize f') (row_start fs k + r)).
    - rewrite nth_error_map, Hm; auto.
    - rewrite nth_error_map, Hm'; auto.
    - unfold psum. fold (row_start fs k). lia.
    - unfold psum. fold (row_start fs k'). lia. }
  subst k'. split; auto. split; [congruence|lia].
Qed.
Lemma row_start_le (fs : list factor) k f : nth_error fs k = Some f -> row_start fs k + f_rsize f <= total_rows fs.
Proof. intros H. apply (psum_le_total (map f_rsize fs) k). rewrite nth_error_map, H. auto. Qed.

Lemma blocks_ok_tail h rs p vars J js : blocks_ok VC h rs (p :: vars) (J :: js) -> blocks_ok VC h rs vars js.
Proof.
  intros [L H]. simpl in L. split; [lia|]. intros q a v B Hq Ha HB. apply (H (S q) a v B); auto.
Qed.

(** what a factor may list *)
Definition listed_ok (h : @heap V) (vs : list addr) (vars : list (option addr)) : Prop :=
  forall p, In p vars -> exists a v, p = Some a /\ nth_error h a = Some v /\
     (vconst VC v = false -> In a vs /\ 0 < vsize VC v).
Definition nodup_listed (h : @heap V) (vars : list (option addr)) : Prop :=
  NoDup (filter (fun p => match p with Some a => negb (width VC h a =? 0) | None => false end) vars).

Lemma wf_listed h vs f : factor_wf VC h vs f -> listed_ok h vs (f_vars f) /\ nodup_listed h (f_vars f) /\ 0 < f_rsize f.
Proof.
  intros (A & B & C). split; [|split; auto]. intros p Hp. destruct (B p Hp) as (a & v & H1 & H2 & H3 & _). eauto.
Qed.

Lemma nodup_listed_cons h a t : nodup_listed h (Some a :: t) ->
  nodup_listed h t /\ (0 < width VC h a -> ~ In (Some a) t).
Proof.
  unfold nodup_listed. simpl. destruct (Nat.eqb_spec (width VC h a) 0); simpl; intros H.
  - split; auto. lia.
  - inversion H; subst. split; auto. intros _ Hin. apply H2. apply filter_In. split; auto.
    destruct (Nat.eqb_spec (width VC h a) 0); auto.
Qed.

Lemma dense_vars_ok h (g : graph) row rs vars js J :
  fin VC h g -> listed_ok h (get_all_variables g) vars -> blocks_ok VC h rs vars js -> 0 < rs ->
  nodup_listed h vars -> mrows J = nrows g -> mcols J = ncols VC h g -> row + rs <= nrows g ->
  exists J', dense_vars_loop VC h g row rs vars js J = (J', Ok tt) /\ mrows J' = nrows g /\ mcols J' = ncols VC h g /\
   (forall i j, i < row \/ row + rs <= i -> mat_at J' i j = mat_at J i j) /\
   (forall i m b c, nth_error (get_all_variables g) m = Some b -> c < width VC h b -> ~ In (Some b) vars ->
      mat_at J' i (col_start VC h (get_all_variables g) m + c) = mat_at J i (col_start VC h (get_all_variables g) m + c)) /\
   (forall q a v B r c m, nth_error vars q = Some (Some a) -> nth_error h a = Some v -> vconst VC v = false ->
      nth_error js q = Some B -> nth_error (get_all_variables g) m = Some a -> r < rs -> c < vsize VC v ->
      mat_at J' (row + r) (col_start VC h (get_all_variables g) m + c) = mat_at B r c).
Proof.
  intros Hf Hl Hb Hrs ND. revert js J Hb. set (vs := get_all_variables g) in *.
  induction vars as [|p t IH]; simpl; intros js J Hb Hr Hc Hle.
  - exists J. repeat split; auto. intros [|q]; discriminate.
  - destruct js as [|B jt]; [destruct Hb as [L _]; simpl in L; lia|].
    destruct (Hl p (or_introl eq_refl)) as (a & v & -> & Ha & Hv).
    pose proof (blocks_ok_tail _ _ _ _ _ _ Hb) as Hbt.
    destruct Hb as [_ Hb]. specialize (Hb 0 a v B eq_refl Ha eq_refl).
    apply nodup_listed_cons in ND. destruct ND as [NDt NDa].
    assert (Hlt : listed_ok h vs t) by (intros p Hp; apply Hl; simpl; auto).
    unfold hget. rewrite Ha. unfold mat_is_empty. destruct (vconst VC v) eqn:C.
    + assert (Ee : (mrows B =? 0) || (mcols B =? 0) = true).
      { destruct Hb as [E|E]; rewrite E; simpl; auto. apply orb_true_r. }
      rewrite Ee. destruct (IH Hlt NDt jt J Hbt Hr Hc Hle) as (J' & E & R & K & S1 & S2 & S3).
      exists J'. split; auto. split; auto. split; auto. split; auto. split.
      * intros i m b c Hm Hcb Hnin. apply (S2 i m b c); auto.
      * intros [|q] a' v' B' r c m Hq Ha' C' HB' Hm Hr' Hc'; simpl in *; [inversion Hq; subst; congruence|eauto].
    + destruct Hb as [Br Bc]. destruct (Hv eq_refl) as [Hin Hpos].
      destruct (fin_placed VC h g Hf a v Hin Ha) as (m0 & Hm0 & Hpl). rewrite Hpl.
      pose proof (width_nonconst VC h a v Ha C) as W.
      rewrite (proj2 (Nat.eqb_neq (mrows B) 0)) by lia. rewrite (proj2 (Nat.eqb_neq (mcols B) 0)) by lia. simpl.
      pose proof (col_start_le VC h _ _ _ Hm0) as Hcl. rewrite W in Hcl. fold vs in Hcl.
      change (total_cols VC h vs) with (ncols VC h g) in Hcl.
      fold vs. rewrite Br, Bc, Hr, Hc, W.
      rewrite (proj2 (Nat.leb_le _ _) Hle), (proj2 (Nat.leb_le _ _) Hcl), !Nat.eqb_refl. simpl.
      set (J1 := write_block row (col_start VC h vs m0) B J).
      destruct (IH Hlt NDt jt J1 Hbt Hr Hc Hle) as (J' & E & R & K & S1 & S2 & S3).
      assert (W1 : forall i j, i < row \/ row + rs <= i -> mat_at J1 i j = mat_at J i j).
      { intros i j Hi. unfold J1. simpl. rewrite Br. destruct (Nat.leb_spec row i), (Nat.ltb_spec i (row + rs)); simpl; auto; lia. }
      exists J'. split; auto. split; auto. split; auto. split; [|split].
      * intros i j Hi. rewrite S1, W1; auto.
      * intros i m b c Hm Hcb Hnin. simpl in Hnin. rewrite (S2 i m b c); auto. unfold J1. simpl. rewrite Bc.
        destruct (Nat.leb_spec (col_start VC h vs m0) (col_start VC h vs m + c)),
          (Nat.ltb_spec (col_start VC h vs m + c) (col_start VC h vs m0 + vsize VC v)); simpl; rewrite ?andb_false_r; auto.
        exfalso. destruct (cols_disjoint h vs m m0 b a c (col_start VC h vs m + c - col_start VC h vs m0)) as (_ & -> & _); auto; lia.
      * intros [|q] a' v' B' r c m Hq Ha' C' HB' Hm Hr' Hc'; simpl in *.
        -- inversion Hq; subst a'. inversion HB'; subst B'. replace v' with v in * by congruence.
           rewrite (S2 _ m a c); auto; [|lia|apply NDa; lia].
           assert (m = m0) by (apply (NoDup_nth_inj vs m m0 a); auto; eapply vars_nodup; eauto). subst m.
           unfold J1. simpl. rewrite Br, Bc.
           rewrite (proj2 (Nat.leb_le _ _)) by lia. rewrite (proj2 (Nat.ltb_lt _ _)) by lia.
           rewrite (proj2 (Nat.leb_le _ _)) by lia. rewrite (proj2 (Nat.ltb_lt _ _)) by lia. simpl. f_equal; lia.
        -- eapply S3; eauto.
Qed.

(** ** the matrix is zero outside the pattern, whatever happens *)
Definition zero_off (h : @heap V) (g : graph) (J : mat N) : Prop :=
  mrows J = nrows g /\ mcols J = ncols VC h g /\
  forall k f m a r c, nth_error (get_all_factors g) k = Some f -> nth_error (get_all_variables g) m = Some a ->
    r < f_rsize f -> c < width VC h a ->
    (forall b, In (Some b) (f_vars f) -> idz VC h b <> idz VC h a) ->
    mat_at J (row_start (get_all_factors g) k + r) (col_start VC h (get_all_variables g) m + c) = nzero.

Lemma zero_off_mzero h (g : graph) : zero_off h g (mzero (nrows g) (ncols VC h g)).
Proof. repeat split; auto. Qed.

Lemma dense_vars_zero h (g : graph) k f vars js J J' r :
  fin VC h g -> nth_error (get_all_factors g) k = Some f -> incl vars (f_vars f) ->
  dense_vars_loop VC h g (row_start (get_all_factors g) k) (f_rsize f) vars js J = (J', r) ->
  zero_off h g J -> zero_off h g J'.
Proof.
  intros Hf Hk. revert js J. induction vars as [|p t IH]; simpl; intros js J Hinc E Hz; [inversion E; subst; auto|].
  assert (Hinc' : incl t (f_vars f)) by (intros x Hx; apply Hinc; simpl; auto).
  destruct js as [|B jt]; [inversion E; subst; auto|]. destruct p as [a|]; [|inversion E; subst; auto].
  unfold hget in E. destruct (nth_error h a) as [v|] eqn:Ha; [|inversion E; subst; auto].
  destruct (mat_is_empty B).
  { destruct (vconst VC v); [eauto|inversion E; subst; auto]. }
  destruct (variable_placement g (vid VC v)) as [p|] eqn:P; [|eauto].
  destruct (_ || _); [inversion E; subst; auto|].
  destruct (Nat.eqb_spec (mrows B) (f_rsize f)) as [Br|]; [|inversion E; subst; auto]. simpl in E.
  destruct (Nat.eqb_spec (mcols B) (vp_dim p)) as [Bc|]; [|inversion E; subst; auto]. simpl in E.
  eapply IH; [auto|exact E|].
  unfold variable_placement in P. rewrite (fin_lay _ _ _ Hf) in P. simpl in P.
  destruct (lookup_registered VC h g v p (fin_reg _ _ _ Hf) P) as (m0 & a0 & Hm0 & Hid0 & ->). simpl in *.
  destruct Hz as (Z1 & Z2 & Z3). split; [auto|]. split; [auto|].
  intros k' f' m b r0 c Hk' Hm Hr Hc Hnl. simpl.
  match goal with |- (if ?b then _ else _) = _ => destruct b eqn:Bd end; [|eapply Z3; eauto].
  exfalso. apply andb_prop in Bd. destruct Bd as [Bd B4]. apply andb_prop in Bd. destruct Bd as [Bd B3].
  apply andb_prop in Bd. destruct Bd as [B1 B2].
  apply Nat.leb_le in B1. apply Nat.ltb_lt in B2. apply Nat.leb_le in B3. apply Nat.ltb_lt in B4.
  rewrite Br in B2. rewrite Bc in B4.
  destruct (rows_disjoint (get_all_factors g) k' k f' f r0 (row_start (get_all_factors g) k' + r0 - row_start (get_all_factors g) k)) as (-> & -> & _); auto; try lia.
  destruct (cols_disjoint h (get_all_variables g) m m0 b a0 c (col_start VC h (get_all_variables g) m + c - col_start VC h (get_all_variables g) m0)) as (-> & -> & _); auto.
  { unfold get_all_variables in *; lia. } { unfold get_all_variables in *; lia. }
  apply (Hnl a); [apply Hinc; simpl; auto|]. unfold idz at 1. rewrite Ha. auto.
Qed.

Lemma dense_loop_zero h (g : graph) L J J' r :
  fin VC h g ->
  (forall k fp, In (k, fp) L -> exists f, nth_error (get_all_factors g) k = Some f /\ fp_factor fp = Some f /\
       fp_rindex fp = row_start (get_all_factors g) k /\ fp_rdim fp = f_rsize f) ->
  dense_loop VC h g L J = (J', r) -> zero_off h g J -> zero_off h g J'.
Proof.
  intros Hf. revert J. induction L as [|[k fp] t IH]; simpl; intros J HL E Hz; [inversion E; subst; auto|].
  destruct (HL k fp (or_introl eq_refl)) as (f & Hk & Hff & Hri & Hrd). rewrite Hff in E.
  destruct (f_jac f h []) as [js [[]|e|u]]; try (inversion E; subst; auto; fail).
  rewrite Hri, Hrd in E.
  destruct (dense_vars_loop VC h g _ _ (f_vars f) js J) as [J1 o] eqn:D.
  apply (dense_vars_zero h g k f) in D; auto; [|apply incl_refl].
  destruct o as [[]|e|u]; try (inversion E; subst; auto; fail).
  eapply IH; eauto.
Qed.

Lemma dense_loop_ok h (g : graph) L J (jss : list (list (mat N))) :
  fin VC h g -> Forall (factor_wf VC h (get_all_variables g)) (get_all_factors g) ->
  Forall2 (fun f js => f_jac f h [] = (js, Ok tt) /\ blocks_ok VC h (f_rsize f) (f_vars f) js) (get_all_factors g) jss ->
  NoDup (map fst L) ->
  (forall k fp, In (k, fp) L -> exists f, nth_error (get_all_factors g) k = Some f /\ fp_factor fp = Some f /\
       fp_rindex fp = row_start (get_all_factors g) k /\ fp_rdim fp = f_rsize f) ->
  mrows J = nrows g -> mcols J = ncols VC h g ->
  exists J', dense_loop VC h g L J = (J', Ok tt) /\ mrows J' = nrows g /\ mcols J' = ncols VC h g /\
   (forall k f r j, nth_error (get_all_factors g) k = Some f -> r < f_rsize f -> ~ In k (map fst L) ->
      mat_at J' (row_start (get_all_factors g) k + r) j = mat_at J (row_start (get_all_factors g) k + r) j) /\
   (forall k f js m a r c, nth_error (get_all_factors g) k = Some f -> nth_error jss k = Some js ->
      nth_error (get_all_variables g) m = Some a -> r < f_rsize f -> c < width VC h a -> In k (map fst L) ->
      mat_at J' (row_start (get_all_factors g) k + r) (col_start VC h (get_all_variables g) m + c) =
        match listed_at a (f_vars f) with
        | Some q => match nth_error js q with Some B => mat_at B r c | None => nzero end
        | None => mat_at J (row_start (get_all_factors g) k + r) (col_start VC h (get_all_variables g) m + c)
        end).
Proof.
  intros Hf Hwf Hj. pose proof (proj1 (Forall2_nth _ _ _) Hj) as [Hjl Hjn]. rewrite Forall_forall in Hwf.
  revert J. induction L as [|[k fp] t IH]; simpl; intros J ND HL Hr Hc.
  - exists J. repeat split; auto. intros; contradiction.
  - destruct (HL k fp (or_introl eq_refl)) as (f & Hk & Hff & Hri & Hrd). rewrite Hff.
    assert (Hkj : k < length jss) by (rewrite <- Hjl; apply nth_error_Some; congruence).
    destruct (nth_error jss k) as [js|] eqn:Ejs; [|apply nth_error_None in Ejs; lia].
    destruct (Hjn _ _ _ Hk Ejs) as [Hjac Hbl]. rewrite Hjac, Hri, Hrd.
    destruct (wf_listed _ _ _ (Hwf f (nth_error_In _ _ Hk))) as (W1 & W2 & W3).
    destruct (dense_vars_ok h g (row_start (get_all_factors g) k) (f_rsize f) (f_vars f) js J) as
      (J1 & E1 & R1 & C1 & S1 & S2 & S3); auto.
    { apply row_start_le. auto. }
    rewrite E1. inversion ND as [|? ? Hnin ND']; subst.
    destruct (IH J1 ND') as (J' & E' & R' & C' & T1 & T2); auto.
    exists J'. split; auto. split; auto. split; auto.
    assert (Hout : forall k' f' r, nth_error (get_all_factors g) k' = Some f' -> r < f_rsize f' -> k' <> k ->
       row_start (get_all_factors g) k' + r < row_start (get_all_factors g) k \/
       row_start (get_all_factors g) k + f_rsize f <= row_start (get_all_factors g) k' + r).
    { intros k' f' r Hk' Hr' Hne.
      destruct (lt_dec (row_start (get_all_factors g) k' + r) (row_start (get_all_factors g) k)); auto.
      destruct (le_dec (row_start (get_all_factors g) k + f_rsize f) (row_start (get_all_factors g) k' + r)); auto.
      exfalso. apply Hne. apply (rows_disjoint (get_all_factors g) k' k f' f r
        (row_start (get_all_factors g) k' + r - row_start (get_all_factors g) k)); auto; lia. }
    split.
    + intros k' f' r j Hk' Hr' Hn'. rewrite (T1 k' f' r j); auto. rewrite S1; auto. eapply Hout; eauto.
    + intros k' f' js' m a r c Hk' Hjs' Hm Hr' Hc' Hin.
      destruct (Nat.eq_dec k' k) as [->|Hne].
      * replace f' with f in * by congruence. replace js' with js in * by congruence.
        rewrite (T1 k f r); auto.
        assert (Ha : exists v, nth_error h a = Some v /\ vconst VC v = false).
        { unfold width in Hc'. destruct (nth_error h a) as [v|]; [|lia]. destruct (vconst VC v) eqn:Cv; [lia|eauto]. }
        destruct Ha as (v & Ha & Cv).
        destruct (listed_at a (f_vars f)) as [q|] eqn:Lq.
        -- assert (Hq : nth_error (f_vars f) q = Some (Some a)).
           { clear - Lq. revert q Lq. induction (f_vars f) as [|[b|] l IHl]; simpl; intros q Lq; try discriminate.
             - destruct (Nat.eqb_spec a b); [inversion Lq; subst; auto|].
               destruct (listed_at a l); [|discriminate]. inversion Lq; subst. simpl. auto.
             - destruct (listed_at a l); [|discriminate]. inversion Lq; subst. simpl. auto. }
           assert (Hql : q < length js).
           { destruct Hbl as [Hbl _]. assert (q < length (f_vars f)) by (apply nth_error_Some; congruence). lia. }
           destruct (nth_error js q) as [B|] eqn:EB; [|apply nth_error_None in EB; lia].
           eapply S3; eauto. rewrite (width_nonconst VC h a v Ha Cv) in Hc'. auto.
        -- apply (S2 _ m a c); auto. clear - Lq. intros Hin. revert Lq. induction (f_vars f) as [|[b|] l IHl]; simpl in *; try contradiction.
           ++ destruct (Nat.eqb_spec a b); [discriminate|]. destruct Hin as [E|Hin]; [congruence|].
              destruct (listed_at a l); [discriminate|]. intros _. auto.
           ++ destruct Hin as [E|Hin]; [discriminate|]. destruct (listed_at a l); [discriminate|]. intros _; auto.
      * destruct Hin as [E|Hin]; [congruence|]. rewrite (T2 k' f' js' m a r c); auto.
        destruct (listed_at a (f_vars f')); auto. apply S1. eapply Hout; eauto.
Qed.

Definition dense_inv (h : @heap V) (g : graph) : Prop := dc_jac_valid (g_dc g) = true -> zero_off h g (dc_jac (g_dc g)).

Lemma dense_start h (g : graph) : fin VC h g -> dense_inv h g ->
  zero_off h g (if dc_jac_valid (g_dc g) then dc_jac (g_dc g) else mzero (nrows g) (ncols VC h g)).
Proof. intros Hf Hi. destruct (dc_jac_valid (g_dc g)) eqn:E; auto. apply zero_off_mzero. Qed.

Lemma listed_none_ids h (g : graph) f a m : reg_inv VC h g ->
  factor_wf VC h (get_all_variables g) f -> nth_error (get_all_variables g) m = Some a ->
  listed_at a (f_vars f) = None -> forall b, In (Some b) (f_vars f) -> idz VC h b <> idz VC h a.
Proof.
  intros Hi (_ & W & _) Hm Hn b Hb E.
  destruct (W _ Hb) as (b' & v & Eb & _ & _ & Hun). inversion Eb; subst b'.
  assert (a = b) by (apply Hun; [eapply nth_error_In; eauto|auto]). subst b.
  clear - Hn Hb. induction (f_vars f) as [|[c|] l IHl]; simpl in *; try contradiction.
  - destruct (Nat.eqb_spec a c); [discriminate|]. destruct Hb as [E|Hb]; [congruence|].
    destruct (listed_at a l); [discriminate|]. auto.
  - destruct Hb as [E|Hb]; [discriminate|]. destruct (listed_at a l); [discriminate|]. auto.
Qed.

Lemma compute_dense_ok (E : env) h (g : graph) jss :
  env_ok E -> fin VC h g -> dense_inv h g ->
  Forall (factor_wf VC h (get_all_variables g)) (get_all_factors g) ->
  Forall2 (fun f js => f_jac f h [] = (js, Ok tt) /\ blocks_ok VC h (f_rsize f) (f_vars f) js) (get_all_factors g) jss ->
  exists g' J, compute_dense VC E h g = (g', Ok J) /\ jacobian g' = Ok J /\
    assembled VC h (get_all_variables g) (get_all_factors g) jss J.
Proof.
  intros He Hf Hi Hwf Hj. destruct (order_entries VC E h g He Hf) as (ND & Hall & HL).
  pose proof (dense_start h g Hf Hi) as (Z1 & Z2 & Z3). unfold compute_dense.
  destruct (dense_loop_ok h g (e_order E (ly_fplace (g_lay g)))
     (if dc_jac_valid (g_dc g) then dc_jac (g_dc g) else mzero (nrows g) (ncols VC h g)) jss)
    as (J & EJ & R & C & _ & S); auto.
  assert (Hlay : ly_nres (g_lay g) = nrows g /\ ly_nval (g_lay g) = ncols VC h g /\ ly_final (g_lay g) = true)
    by (rewrite (fin_lay _ _ _ Hf); auto).
  destruct Hlay as (-> & -> & ->). simpl.
  rewrite EJ. eexists. exists J. split; [reflexivity|]. split; [reflexivity|].
  split; [exact R|]. split; [exact C|].
  intros k f js m a r c Hk Hjs Hm Hr Hc. rewrite (S k f js m a r c); auto.
  2:{ apply Hall. apply nth_error_Some. congruence. }
  destruct (listed_at a (f_vars f)) eqn:L; auto.
  apply (Z3 k f m a); auto. rewrite Forall_forall in Hwf. eapply (listed_none_ids h g f a m); eauto.
  - apply (fin_reg _ _ _ Hf).
  - apply Hwf. eapply nth_error_In; eauto.
Qed.

(** ** the invariant is preserved *)
Lemma zero_off_pres h h' (g g' : graph) J : hpres VC true h h' -> reg_inv VC h g ->
  Forall (pointers_live h) (get_all_factors g) -> g_reg g' = g_reg g ->
  zero_off h g J -> zero_off h' g' J.
Proof.
  intros Hp Hi Hl Hr (Z1 & Z2 & Z3).
  pose proof (ri_live _ _ _ Hi) as Hlv.
  split; [rewrite (nrows_pres g g' Hr); auto|]. split; [rewrite (ncols_pres VC h h' Hp g g' Hr Hi); auto|].
  unfold get_all_factors, get_all_variables in *. rewrite Hr.
  intros k f m a r c Hk Hm Hr' Hc Hn.
  assert (Hal : a < length h) by (rewrite Forall_forall in Hlv; apply Hlv; eapply nth_error_In; eauto).
  rewrite (col_start_pres VC h h' Hp _ m Hlv). rewrite (width_pres VC h h' a Hp Hal) in Hc.
  apply (Z3 k f m a); auto. intros b Hb. pose proof (Hn b Hb) as Hne.
  rewrite Forall_forall in Hl. destruct (Hl f (nth_error_In _ _ Hk) b Hb) as [w Hw].
  rewrite (idz_pres VC true h h' a Hp Hal) in Hne.
  rewrite (idz_pres VC true h h' b Hp) in Hne by (apply nth_error_Some; congruence). auto.
Qed.

Lemma fine_live h (g : graph) : factors_fine VC h g -> Forall (pointers_live h) (get_all_factors g).
Proof.
  intros Hf. eapply Forall_impl; [|exact Hf]. intros f Hv a Ha. unfold vars_fine in Hv. rewrite Forall_forall in Hv.
  destruct (Hv _ Ha) as (b & v & E & Hb & _). inversion E; subst; eauto.
Qed.

Lemma compute_dense_inv (E : env) h (g g' : graph) r : env_ok E -> fin VC h g -> dense_inv h g ->
  compute_dense VC E h g = (g', r) -> dense_inv h g'.
Proof.
  intros He Hf Hi H. pose proof (compute_dense_reg VC E h g g' r H) as (Hr & Hl & _).
  destruct (order_entries VC E h g He Hf) as (_ & _ & HL).
  pose proof (dense_start h g Hf Hi) as Z0. unfold compute_dense in H.
  assert (Hlay : ly_nres (g_lay g) = nrows g /\ ly_nval (g_lay g) = ncols VC h g /\ ly_final (g_lay g) = true)
    by (rewrite (fin_lay _ _ _ Hf); auto).
  destruct Hlay as (L1 & L2 & L3). rewrite L1, L2, L3 in H. simpl in H.
  destruct (dense_loop VC h g _ _) as [J o] eqn:D. apply dense_loop_zero in D; auto.
  assert (HZ : zero_off h g' J).
  { eapply zero_off_pres; eauto. - apply hpres_refl. - apply (fin_reg _ _ _ Hf). - apply fine_live. apply Hf. }
  destruct o as [[]|e|u]; inversion H; subst; intros _; simpl; auto.
Qed.

Lemma compute_residual_dc (E : env) h (g g' : graph) r : compute_residual E h g = (g', r) ->
  dc_jac (g_dc g') = dc_jac (g_dc g) /\ dc_jac_valid (g_dc g') = dc_jac_valid (g_dc g).
Proof.
  unfold compute_residual. destruct (negb _); [intros X; inversion X; auto|].
  destruct (compute_residual_into _ _ _ _) as [buf [|e|u]]; intros X; inversion X; auto.
Qed.

Lemma dense_inv_step (E : env) s o s' ans : step VC E s o = (s', ans) -> env_ok E -> value_op o ->
  fin VC (fst s) (snd s) -> dense_inv (fst s) (snd s) -> dense_inv (fst s') (snd s').
Proof.
  intros Es He Hv Hf Hi. pose proof (step_heap_pres _ Hok _ _ _ _ _ Es) as [_ Hp]. specialize (Hp Hv).
  destruct (step_value_keeps VC _ _ _ _ _ Es Hv) as [Hr Hl].
  destruct s as [h g], s' as [h' g']. simpl in *.
  assert (Hsame : dc_jac (g_dc g') = dc_jac (g_dc g) /\ dc_jac_valid (g_dc g') = dc_jac_valid (g_dc g) -> dense_inv h' g').
  { intros (E1 & E2) Hvv. rewrite E1. rewrite E2 in Hvv. eapply zero_off_pres; eauto.
    - apply (fin_reg _ _ _ Hf). - apply fine_live. apply Hf. }
  destruct o; simpl in *; try contradiction;
    repeat match goal with
    | H : context [let '(_, _) := ?t in _] |- _ => destruct t eqn:?
    end; inversion Es; subst; clear Es; simpl; auto.
  - apply Hsame. eapply compute_residual_dc; eauto.
  - eapply compute_dense_inv; eauto.
  - unfold compute_both in Heqp. destruct (negb _); [inversion Heqp; subst; auto|].
    destruct (compute_dense VC E h' g) as [g2 [m|e|u]] eqn:D; pose proof (compute_dense_inv _ _ _ _ _ He Hf Hi D) as Hi2.
    + destruct (compute_residual E h' g2) as [g3 q] eqn:R. pose proof (compute_residual_dc _ _ _ _ _ R) as (E1 & E2).
      pose proof (compute_residual_reg _ _ _ _ _ R) as (R1 & R2 & _).
      pose proof (compute_dense_reg _ _ _ _ _ _ D) as (D1 & D2 & _).
      assert (g3 = g') by (destruct q; inversion Heqp; auto). subst g3.
      intros Hvv. rewrite E1. rewrite E2 in Hvv. specialize (Hi2 Hvv). eapply zero_off_pres; [| | | |exact Hi2].
      * apply hpres_refl.
      * eapply reg_inv_heap; [apply hpres_refl|exact D1|apply (fin_reg _ _ _ Hf)].
      * unfold get_all_factors. rewrite D1. apply fine_live. apply Hf.
      * auto.
    + inversion Heqp; subst; auto.
    + inversion Heqp; subst; auto.
  - apply Hsame. pose proof (compute_sparse_reg _ _ _ _ _ Heqp) as (_ & _ & ->). auto.
Qed.

Lemma dense_inv_run l s : Forall (fun eo : env * op => env_ok (fst eo) /\ value_op (snd eo)) l ->
  fin VC (fst s) (snd s) -> dense_inv (fst s) (snd s) -> dense_inv (fst (run VC s l)) (snd (run VC s l)).
Proof.
  revert s. induction l as [|[E o] t IH]; simpl; intros s Hl Hf Hi; auto.
  inversion Hl as [|x y [He Hv] Ht]; subst. simpl in *. destruct (step VC E s o) as [s' ans] eqn:Es. simpl.
  apply IH; auto.
  - eapply (step_fin VC Hok); eauto.
  - eapply dense_inv_step; eauto.
Qed.

Lemma first_finalized l1 l2 h1 h (g1 g : graph) : finalized_history VC l1 l2 h1 h g1 g ->
  unfinalized VC ([], empty_graph) l1 -> dense_inv h g.
Proof.
  intros (g0 & R1 & F & Hl & R2) Hu.
  pose proof (unfinalized_fresh VC l1 ([], empty_graph)) as Hfr. rewrite R1 in Hfr. simpl in Hfr.
  specialize (Hfr ltac:(repeat split) Hu). destruct Hfr as (_ & Hj & _).
  pose proof (reachable_reg VC Hok _ _ _ R1) as Hi.
  destruct (finalize_ok_fine VC _ _ _ Hi F) as (Hf & Hle & ->).
  pose proof (final_graph_fin VC _ _ Hi Hf Hle) as Hfin.
  pose proof (dense_inv_run l2 (h1, final_graph VC h1 g0) Hl Hfin) as D. rewrite R2 in D. apply D.
  intros X. simpl in X. congruence.
Qed.

Lemma wf_pres h h' vs f : hpres VC true h h' -> Forall (fun a => a < length h) vs -> factor_wf VC h vs f -> factor_wf VC h' vs f.
Proof.
  intros Hp Hl (A & B & C). split; auto. split.
  - intros p Hpin. destruct (B p Hpin) as (a & v & -> & Ha & Hv & Hu).
    destruct (Hp _ _ Ha) as (v' & Ha' & I & S & Cc). exists a, v'. split; auto. split; auto. split.
    + rewrite S, Cc by auto. auto.
    + intros b Hb. rewrite Forall_forall in Hl. rewrite (idz_pres VC true h h' b Hp) by auto.
      rewrite (idz_pres VC true h h' a Hp) by (apply nth_error_Some; congruence). auto.
  - erewrite filter_ext_in; [exact C|]. intros [a|] Hin; simpl; auto.
    destruct (B _ Hin) as (b & v & E & Ha & _). inversion E; subst b.
    rewrite (width_pres VC h h' a Hp) by (apply nth_error_Some; congruence). auto.
Qed.

Lemma dense_jacobian l1 l2 h1 h (g1 g : graph) (E : env) jss :
  finalized_history VC l1 l2 h1 h g1 g -> unfinalized VC ([], empty_graph) l1 -> env_ok E ->
  Forall (factor_wf VC h (get_all_variables g)) (get_all_factors g) ->
  Forall2 (fun f js => f_jac f h [] = (js, Ok tt) /\ blocks_ok VC h (f_rsize f) (f_vars f) js) (get_all_factors g) jss ->
  exists g' J, compute_dense VC E h g = (g', Ok J) /\ jacobian g' = Ok J /\
    assembled VC h (get_all_variables g) (get_all_factors g) jss J.
Proof.
  intros HF Hu He Hwf Hj. destruct (finalized_facts VC Hok _ _ _ _ _ _ HF) as (_ & Hf & _).
  apply compute_dense_ok; auto. eapply first_finalized; eauto.
Qed.
End Dense.
