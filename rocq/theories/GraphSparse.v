(** Proofs about the sparse Jacobian. *)
From Coq Require Import List Arith ZArith Bool Lia Permutation.
From Verif Require Import Base Sparse Graph SpecGraph ListLemmas GraphLayout GraphFin GraphBasic GraphVec GraphDense.
Import ListNotations.

(** ** strictly increasing lists *)
Fixpoint asc (l : list nat) : Prop :=
  match l with [] => True | x :: t => Forall (fun y => x < y) t /\ asc t end.
Lemma asc_app l1 l2 : asc l1 -> asc l2 -> (forall x y, In x l1 -> In y l2 -> x < y) -> asc (l1 ++ l2).
Proof.
  induction l1 as [|x t IH]; simpl; auto. intros [H1 H2] H3 H. split.
  - apply Forall_app. split; auto. apply Forall_forall. auto.
  - apply IH; auto.
Qed.
Lemma asc_seq s n : asc (seq s n).
Proof. revert s. induction n; simpl; auto. intros s. split; auto. apply Forall_forall. intros y Hy. apply in_seq in Hy. lia. Qed.
Lemma map_plus_seq row n : map (fun r => row + r) (seq 0 n) = seq row n.
Proof.
  apply list_ext_nth. intros i. rewrite nth_error_map, !nth_error_seq. destruct (i <? n); auto.
Qed.

Section Sparse.
Context {N : num} {V : Type} (VC : vclass N V).
Notation factor := (factor (N:=N) (V:=V)).
Notation graph := (graph (N:=N) (V:=V)).
Notation env := (env (N:=N) (V:=V)).
Notation op := (op (N:=N) (V:=V)).
Hypothesis Hok : vclass_ok VC.

(** ** cells with row and value *)
Fixpoint tvars (h : @heap V) vp (row rs : nat) (vars : list (option addr)) (js : list (mat N)) : list (nat * (nat * N)) :=
  match vars, js with
  | p :: vt, B :: jt =>
      flat_map (fun q => gcells rs (fst q) (snd q) (fun r c => (row + r, mat_at B r c))) (occ VC h vp p)
      ++ tvars h vp row rs vt jt
  | _, _ => []
  end.
Fixpoint tall (h : @heap V) vp (fs : list factor) (jss : list (list (mat N))) (row : nat) : list (nat * (nat * N)) :=
  match fs, jss with
  | f :: ft, js :: jt => tvars h vp row (f_rsize f) (f_vars f) js ++ tall h vp ft jt (row + f_rsize f)
  | _, _ => []
  end.
Definition rows_of (l : list (nat * (nat * N))) : list (nat * nat) := map (fun p => (fst p, fst (snd p))) l.
Definition vals_of (l : list (nat * (nat * N))) : list (nat * N) := map (fun p => (fst p, snd (snd p))) l.

Lemma sub_rows_of c l : sub c (rows_of l) = map fst (sub c l).
Proof. apply (sub_map fst). Qed.
Lemma sub_vals_of c l : sub c (vals_of l) = map snd (sub c l).
Proof. apply (sub_map snd). Qed.

Lemma tvars_rows h vp row rs vars js : length vars <= length js ->
  rows_of (tvars h vp row rs vars js) = flat_map (fun p => gcells rs (fst p) (snd p) (fun r _ => row + r)) (occs VC h vp vars).
Proof.
  revert js. induction vars as [|p t IH]; simpl; intros [|B jt] L; simpl in *; auto; try lia.
  unfold rows_of in *. rewrite map_app, IH by lia. rewrite flat_map_app. f_equal.
  rewrite !flat_map_concat_map, concat_map, map_map. f_equal. apply map_ext. intros [b d]. simpl.
  apply (gcells_map rs b d (fun r c => (row + r, mat_at B r c)) fst).
Qed.
Lemma tall_rows h vp fs jss row : Forall2 (fun (f : factor) js => length (f_vars f) <= length js) fs jss ->
  rows_of (tall h vp fs jss row) = allcells VC h vp fs row.
Proof.
  intros H. revert row. induction H; simpl; intros row; auto.
  unfold rows_of in *. rewrite map_app, IHForall2. f_equal. apply tvars_rows; auto.
Qed.

(** ** values written for one factor *)
Lemma sparse_vars_ok h (g : graph) row rs vars js (data : list (list N)) cur :
  fin VC h g -> listed_ok VC h (get_all_variables g) vars -> blocks_ok VC h rs vars js ->
  cell_ok data cur (vals_of (tvars h (vpl VC h g) row rs vars js)) ->
  exists data' cur', sparse_vars_loop VC h g vars js data cur = (data', cur', Ok tt) /\
    written data data' cur cur' (vals_of (tvars h (vpl VC h g) row rs vars js)).
Proof.
  intros Hf. revert js data cur. induction vars as [|p t IH]; simpl; intros js data cur Hl Hb Hc.
  - exists data, cur. split; auto. apply written_nil.
  - destruct js as [|B jt]; [destruct Hb as [L _]; simpl in L; lia|].
    destruct (Hl p (or_introl eq_refl)) as (a & v & -> & Ha & Hv).
    pose proof (blocks_ok_tail _ _ _ _ _ _ _ Hb) as Hbt.
    destruct Hb as [_ Hb]. specialize (Hb 0 a v B eq_refl Ha eq_refl).
    assert (Hlt : listed_ok VC h (get_all_variables g) t) by (intros p Hp; apply Hl; simpl; auto).
    unfold hget. rewrite Ha. destruct (vconst VC v) eqn:C.
    + assert (Eo : occ VC h (vpl VC h g) (Some a) = []) by (simpl; rewrite Ha, C; auto).
      rewrite Eo in *. simpl in *.
      destruct (IH jt data cur Hlt Hbt Hc) as (d' & c' & E & W).
      destruct (variable_placement g (vid VC v)) as [q|].
      * assert (Eb : block_values B (vp_index q) = []).
        { unfold block_values. destruct Hb as [E0|E0]; rewrite E0; simpl; auto. induction (seq 0 (mrows B)); simpl; auto. }
        rewrite Eb. simpl. exists d', c'. auto.
      * exists d', c'. auto.
    + destruct Hb as [Br Bc]. destruct (Hv eq_refl) as [Hin Hpos].
      destruct (fin_placed VC h g Hf a v Hin Ha) as (m0 & Hm0 & Hpl). rewrite Hpl. cbn [vp_index].
      unfold variable_placement in Hpl. rewrite (fin_lay _ _ _ Hf) in Hpl. simpl in Hpl.
      assert (Eo : occ VC h (vpl VC h g) (Some a) = [(col_start VC h (get_all_variables g) m0, width VC h a)]).
      { simpl. rewrite Ha, C, Hpl. auto. }
      rewrite Eo in *. simpl in *. rewrite app_nil_r in *.
      rewrite (width_nonconst VC h a v Ha C) in *.
      assert (Eb : vals_of (gcells rs (col_start VC h (get_all_variables g) m0) (vsize VC v) (fun r c => (row + r, mat_at B r c)))
                   = block_values B (col_start VC h (get_all_variables g) m0)).
      { unfold block_values. rewrite Br, Bc. unfold vals_of.
        apply (gcells_map _ _ _ (fun r c => (row + r, mat_at B r c)) snd). }
      unfold vals_of in *. rewrite map_app in *. rewrite Eb in *.
      destruct (fill_data_spec _ _ _ (cell_ok_app_l _ _ _ _ Hc)) as (d1 & c1 & F1 & W1). rewrite F1.
      destruct (IH jt d1 c1 Hlt Hbt (cell_ok_app_r _ _ _ _ _ _ Hc W1)) as (d2 & c2 & F2 & W2).
      exists d2, c2. split; [exact F2|]. apply cell_ok_app_l in Hc. destruct Hc as [_ Hc]. exact (written_app _ _ _ _ _ _ _ _ Hc W1 W2).
Qed.

(** blocks equal as matrices give the same cells *)
Lemma gcells_ext {A} rd base cd (f f' : nat -> nat -> A) :
  (forall r c, r < rd -> c < cd -> f r c = f' r c) -> gcells rd base cd f = gcells rd base cd f'.
Proof.
  intros H. unfold gcells. rewrite !flat_map_concat_map. f_equal. apply map_ext_in. intros r Hr. apply in_seq in Hr.
  apply map_ext_in. intros c Hc. apply in_seq in Hc. f_equal. apply H; lia.
Qed.
Lemma tvars_eq h (g : graph) row rs vars js js' : fin VC h g -> listed_ok VC h (get_all_variables g) vars ->
  blocks_ok VC h rs vars js -> Forall2 mat_eq js js' ->
  tvars h (vpl VC h g) row rs vars js = tvars h (vpl VC h g) row rs vars js'.
Proof.
  intros Hf Hl Hb Hm. revert js js' Hb Hm. induction vars as [|p t IH]; simpl; intros js js' Hb Hm; auto.
  inversion Hm as [|B B' jt jt' HB Ht]; subst; auto.
  destruct (Hl p (or_introl eq_refl)) as (a & v & -> & Ha & Hv).
  pose proof (blocks_ok_tail _ _ _ _ _ _ _ Hb) as Hbt.
  destruct Hb as [_ Hb]. specialize (Hb 0 a v B eq_refl Ha eq_refl).
  f_equal; [|apply IH; auto; intros p Hp; apply Hl; simpl; auto].
  simpl. rewrite Ha. destruct (vconst VC v) eqn:C; auto. destruct (Hv eq_refl) as [Hin Hpos].
  destruct (fin_placed VC h g Hf a v Hin Ha) as (m0 & Hm0 & Hpl).
  unfold variable_placement in Hpl. rewrite (fin_lay _ _ _ Hf) in Hpl. simpl in Hpl. rewrite Hpl. simpl. f_equal.
  rewrite (width_nonconst VC h a v Ha C).
  destruct Hb as [Br Bc], HB as (E1 & E2 & E3). apply gcells_ext. intros r c Hr Hc. f_equal. apply E3; lia.
Qed.
Lemma blocks_ok_eq h rs vars js js' : blocks_ok VC h rs vars js' -> Forall2 mat_eq js js' -> blocks_ok VC h rs vars js.
Proof.
  intros [L H] Hm. apply Forall2_nth in Hm. destruct Hm as [Lm Hm]. split; [lia|].
  intros q a v B Hq Ha HB. assert (Hq' : q < length js') by (rewrite <- Lm; apply nth_error_Some; congruence).
  destruct (nth_error js' q) as [B'|] eqn:EB; [|apply nth_error_None in EB; lia].
  destruct (Hm _ _ _ HB EB) as (E1 & E2 & _). specialize (H q a v B' Hq Ha EB). rewrite E1, E2. auto.
Qed.

(** ** all factors *)
Lemma sparse_factors_ok h (g : graph) fs i row (jss : list (list (mat N))) comps (data : list (list N)) cur :
  fin VC h g ->
  (forall k f, nth_error fs k = Some f -> exists fp, alookup Nat.eqb (i + k) (ly_fplace (g_lay g)) = Some fp /\ fp_factor fp = Some f) ->
  (forall k f, nth_error fs k = Some f -> exists b, nth_error comps (i + k) = Some b /\ buf_reach f b) ->
  Forall (fun f => listed_ok VC h (get_all_variables g) (f_vars f)) fs -> Forall buf_indep fs ->
  Forall2 (fun f js => f_jac f h [] = (js, Ok tt) /\ blocks_ok VC h (f_rsize f) (f_vars f) js) fs jss ->
  cell_ok data cur (vals_of (tall h (vpl VC h g) fs jss row)) ->
  exists comps' data' cur', sparse_factors_loop VC h g (length fs) i comps data cur = (comps', data', Ok tt) /\
    written data data' cur cur' (vals_of (tall h (vpl VC h g) fs jss row)).
Proof.
  intros Hf Hfp Hcomp Hl Hbi Hj. revert i row comps data cur Hfp Hcomp. induction Hj as [|f js fs jss [Hj1 Hj2] _ IH];
    simpl; intros i row comps data cur Hfp Hcomp Hc.
  - exists comps, data, cur. split; auto. apply written_nil.
  - destruct (Hfp 0 f eq_refl) as (fp & L & F). destruct (Hcomp 0 f eq_refl) as (b & Lb & Rb).
    rewrite Nat.add_0_r in L, Lb. rewrite L, Lb, F.
    inversion Hl as [|? ? Hl1 Hl2]; inversion Hbi as [|? ? Hb1 Hb2]; subst.
    destruct (Hb1 h b Rb) as [Ho Heq]. rewrite Hj1 in Ho, Heq. simpl in Ho, Heq. specialize (Heq eq_refl).
    destruct (f_jac f h b) as [js' o] eqn:J. simpl in *. subst o.
    pose proof (blocks_ok_eq _ _ _ _ _ Hj2 Heq) as Hj2'.
    pose proof (tvars_eq h g row (f_rsize f) (f_vars f) js' js Hf Hl1 Hj2' Heq) as Et.
    unfold vals_of in Hc |- *. rewrite map_app in Hc |- *. rewrite <- Et in *.
    destruct (sparse_vars_ok h g row (f_rsize f) (f_vars f) js' data cur Hf Hl1 Hj2' (cell_ok_app_l _ _ _ _ Hc)) as (d1 & c1 & F1 & W1).
    rewrite F1.
    destruct (IH Hl2 Hb2 (S i) (row + f_rsize f) (lupd i js' comps) d1 c1) as (cs & d2 & c2 & F2 & W2).
    + intros k f' Hk. replace (S i + k) with (i + S k) by lia. apply (Hfp (S k)). auto.
    + intros k f' Hk. destruct (Hcomp (S k) f' Hk) as (b' & Lb' & Rb'). exists b'. split; auto.
      rewrite lupd_nth_other by lia. replace (S i + k) with (i + S k) by lia. auto.
    + eapply cell_ok_app_r; eauto.
    + exists cs, d2, c2. split; auto. eapply written_app; eauto. apply cell_ok_app_l in Hc. destruct Hc; auto.
Qed.

(** ** contents of one column *)
Lemma listed_at_nth a vars q : listed_at a vars = Some q -> nth_error vars q = Some (Some a).
Proof.
  revert q. induction vars as [|[b|] l IHl]; simpl; intros q Lq; try discriminate.
  - destruct (Nat.eqb_spec a b); [inversion Lq; subst; auto|].
    destruct (listed_at a l); [|discriminate]. inversion Lq; subst. simpl. auto.
  - destruct (listed_at a l); [|discriminate]. inversion Lq; subst. simpl. auto.
Qed.
Lemma listed_at_none a vars : listed_at a vars = None <-> ~ In (Some a) vars.
Proof.
  induction vars as [|[b|] l IHl]; simpl; [tauto| |].
  - destruct (Nat.eqb_spec a b).
    + subst. split; [discriminate|]. intros H. exfalso. auto.
    + destruct (listed_at a l) as [q|]; simpl.
      * split; [discriminate|]. intros H. exfalso. assert (X : Some q = None) by (apply IHl; auto). discriminate.
      * split; auto. intros _ [E|E]; [congruence|]. apply IHl in E; auto.
  - destruct (listed_at a l) as [q|]; simpl.
    + split; [discriminate|]. intros H. exfalso. assert (X : Some q = None) by (apply IHl; auto). discriminate.
    + split; auto. intros _ [E|E]; [congruence|]. apply IHl in E; auto.
Qed.

Lemma tvars_col h (g : graph) row rs vars js m a c :
  fin VC h g -> listed_ok VC h (get_all_variables g) vars -> nodup_listed VC h vars -> length vars <= length js ->
  nth_error (get_all_variables g) m = Some a -> c < width VC h a ->
  sub (col_start VC h (get_all_variables g) m + c) (tvars h (vpl VC h g) row rs vars js) =
    match listed_at a vars with
    | Some q => match nth_error js q with Some B => map (fun r => (row + r, mat_at B r c)) (seq 0 rs) | None => [] end
    | None => []
    end.
Proof.
  intros Hf Hl ND HL Hm Hc. revert js HL. induction vars as [|p t IH]; simpl; intros js HL; auto.
  destruct js as [|B jt]; simpl in HL; [lia|]. rewrite sub_app.
  destruct (Hl p (or_introl eq_refl)) as (b & v & -> & Hb & Hv).
  apply nodup_listed_cons in ND. destruct ND as [NDt NDb].
  assert (Hlt : listed_ok VC h (get_all_variables g) t) by (intros p Hp; apply Hl; simpl; auto).
  rewrite (IH Hlt NDt jt) by lia. simpl. rewrite Hb. destruct (vconst VC v) eqn:C.
  - simpl. destruct (Nat.eqb_spec a b) as [->|Hne].
    + exfalso. rewrite (width_const VC h b v Hb C) in Hc. lia.
    + destruct (listed_at a t); auto.
  - destruct (Hv eq_refl) as [Hin Hpos].
    destruct (fin_placed VC h g Hf b v Hin Hb) as (m0 & Hm0 & Hpl).
    unfold variable_placement in Hpl. rewrite (fin_lay _ _ _ Hf) in Hpl. simpl in Hpl. rewrite Hpl. simpl. rewrite app_nil_r.
    rewrite sub_gcells. destruct (Nat.eqb_spec a b) as [->|Hne].
    + assert (m = m0) by (apply (NoDup_nth_inj (get_all_variables g) m m0 b); auto; eapply vars_nodup; eauto). subst m0.
      destruct (Nat.leb_spec (col_start VC h (get_all_variables g) m) (col_start VC h (get_all_variables g) m + c)); [|lia].
      destruct (Nat.ltb_spec (col_start VC h (get_all_variables g) m + c) (col_start VC h (get_all_variables g) m + width VC h b)); [|lia].
      simpl. assert (Ln : listed_at b t = None) by (apply listed_at_none; apply NDb; lia). rewrite Ln, app_nil_r.
      apply map_ext. intros r. do 2 f_equal. lia.
    + destruct (Nat.leb_spec (col_start VC h (get_all_variables g) m0) (col_start VC h (get_all_variables g) m + c));
      destruct (Nat.ltb_spec (col_start VC h (get_all_variables g) m + c) (col_start VC h (get_all_variables g) m0 + width VC h b));
      simpl; try (destruct (listed_at a t); auto; fail).
      exfalso. apply Hne.
      apply (cols_disjoint VC h (get_all_variables g) m m0 a b c (col_start VC h (get_all_variables g) m + c - col_start VC h (get_all_variables g) m0)); auto; lia.
Qed.

Definition fseg (a : addr) (c row : nat) (f : factor) (js : list (mat N)) : list (nat * N) :=
  match listed_at a (f_vars f) with
  | Some q => match nth_error js q with Some B => map (fun r => (row + r, mat_at B r c)) (seq 0 (f_rsize f)) | None => [] end
  | None => []
  end.
Lemma fseg_rows a c row f js : map fst (fseg a c row f js) = [] \/ map fst (fseg a c row f js) = seq row (f_rsize f).
Proof.
  unfold fseg. destruct (listed_at a (f_vars f)); auto. destruct (nth_error js n); auto.
  right. rewrite map_map. simpl. apply map_plus_seq.
Qed.
Fixpoint fsegs (a : addr) (c row : nat) (fs : list factor) (jss : list (list (mat N))) : list (nat * N) :=
  match fs, jss with
  | f :: ft, js :: jt => fseg a c row f js ++ fsegs a c (row + f_rsize f) ft jt
  | _, _ => []
  end.

Lemma tall_col h (g : graph) fs jss row m a c :
  fin VC h g -> Forall (fun f => listed_ok VC h (get_all_variables g) (f_vars f) /\ nodup_listed VC h (f_vars f)) fs ->
  Forall2 (fun (f : factor) js => length (f_vars f) <= length js) fs jss ->
  nth_error (get_all_variables g) m = Some a -> c < width VC h a ->
  sub (col_start VC h (get_all_variables g) m + c) (tall h (vpl VC h g) fs jss row) = fsegs a c row fs jss.
Proof.
  intros Hf Hl HL Hm Hc. revert row. induction HL as [|f js fs jss H1 _ IH]; simpl; intros row; auto.
  inversion Hl as [|? ? [L1 L2] Ht]; subst. rewrite sub_app, IH by auto. f_equal. apply tvars_col; auto.
Qed.

Lemma fsegs_rows a c row fs jss :
  asc (map fst (fsegs a c row fs jss)) /\ Forall (fun r => row <= r < row + total_rows fs) (map fst (fsegs a c row fs jss)).
Proof.
  revert row jss. induction fs as [|f fs IH]; simpl; intros row [|js jss]; simpl; auto.
  destruct (IH (row + f_rsize f) jss) as [A B]. rewrite map_app. unfold total_rows in *. simpl.
  assert (Hs : asc (map fst (fseg a c row f js)) /\ Forall (fun r => row <= r < row + f_rsize f) (map fst (fseg a c row f js))).
  { destruct (fseg_rows a c row f js) as [->| ->]; simpl; auto. split; [apply asc_seq|]. apply Forall_forall. intros x Hx.
    apply in_seq in Hx. lia. }
  destruct Hs as [S1 S2]. rewrite Forall_forall in S2, B. split.
  - apply asc_app; auto. intros x y Hx Hy. specialize (S2 _ Hx). specialize (B _ Hy). lia.
  - apply Forall_app. split; apply Forall_forall; intros x Hx; [specialize (S2 _ Hx)|specialize (B _ Hx)]; lia.
Qed.

Lemma alookup_seg row n (f : nat -> N) r : r < n ->
  alookup Nat.eqb (row + r) (map (fun r => (row + r, f r)) (seq 0 n)) = Some (f r).
Proof.
  intros Hr. apply alookup_nodup; auto.
  - rewrite map_map. simpl. rewrite map_plus_seq. apply seq_NoDup.
  - apply in_map_iff. exists r. split; auto. apply in_seq. lia.
Qed.

Lemma fsegs_lookup a c row fs jss k f js r : nth_error fs k = Some f -> nth_error jss k = Some js -> r < f_rsize f ->
  alookup Nat.eqb (row + row_start fs k + r) (fsegs a c row fs jss) =
    match listed_at a (f_vars f) with
    | Some q => match nth_error js q with Some B => Some (mat_at B r c) | None => None end
    | None => None
    end.
Proof.
  revert row k jss. induction fs as [|f0 fs IH]; simpl; intros row [|k] [|js0 jss] Hk Hj Hr; simpl in *; try discriminate.
  - inversion Hk; inversion Hj; subst. rewrite alookup_app. unfold row_start. simpl. rewrite Nat.add_0_r.
    assert (Ht : alookup Nat.eqb (row + r) (fsegs a c (row + f_rsize f) fs jss) = None).
    { apply alookup_none; auto. intros Hin. destruct (fsegs_rows a c (row + f_rsize f) fs jss) as [_ B].
      rewrite Forall_forall in B. specialize (B _ Hin). lia. }
    rewrite Ht. unfold fseg. destruct (listed_at a (f_vars f)) as [q|]; auto. destruct (nth_error js q) as [B|]; auto.
    rewrite (alookup_seg row (f_rsize f) (fun r => mat_at B r c) r Hr). auto.
  - rewrite alookup_app.
    assert (Hn : alookup Nat.eqb (row + row_start (f0 :: fs) (S k) + r) (fseg a c row f0 js0) = None).
    { apply alookup_none; auto. unfold row_start. simpl. destruct (fseg_rows a c row f0 js0) as [->| ->]; auto.
      rewrite in_seq. lia. }
    rewrite Hn. rewrite <- (IH (row + f_rsize f0) k jss Hk Hj Hr). f_equal. unfold row_start. simpl. lia.
Qed.

(** ** writing a column of the Eigen matrix *)
Lemma ent_append r v l : Forall (fun p : nat * N => fst p < r) l -> ent_has r l = false /\ ent_insert r v l = l ++ [(r, v)].
Proof.
  induction 1 as [|[r' v'] t H _ [A B]]; simpl in *; auto. unfold ent_has in *. simpl.
  destruct (Nat.eqb_spec r r'); [lia|]. rewrite A. split; auto. destruct (Nat.ltb_spec r r'); [lia|]. rewrite B. auto.
Qed.

Lemma populate_col_ok col pre (e : list (nat * N)) (m : spmat N) room :
  nth_error (sp_cols m) col = Some (SpCol room pre) -> room = length pre + length e ->
  asc (map fst (pre ++ e)) -> Forall (fun r => r < sp_rows m) (map fst e) ->
  populate_col col (map fst e) (map snd e) m = Ok (SpMat (sp_rows m) (lupd col (SpCol room (pre ++ e)) (sp_cols m))).
Proof.
  revert pre m. induction e as [|[r v] t IH]; simpl; intros pre m Hn Hr Ha Hb.
  - rewrite app_nil_r. rewrite lupd_id by auto. destruct m; auto.
  - inversion Hb; subst. unfold sp_put at 1. rewrite (proj2 (Nat.ltb_lt _ _)) by auto. rewrite Hn. simpl.
    assert (Hpre : Forall (fun p : nat * N => fst p < r) pre).
    { clear - Ha. induction pre as [|[a b] pre IH]; simpl in *; constructor.
      - destruct Ha as [F _]. rewrite map_app in F. apply Forall_app in F. destruct F as [_ F]. inversion F; auto.
      - apply IH. tauto. }
    destruct (ent_append r v pre Hpre) as [E1 E2]. unfold col_put. simpl. rewrite E1, E2.
    rewrite (proj2 (Nat.ltb_lt _ _)) by lia.
    assert (Hlt : col < length (sp_cols m)) by (apply nth_error_Some; congruence).
    rewrite (IH (pre ++ [(r, v)])).
    + simpl. f_equal. f_equal. rewrite <- app_assoc. simpl. generalize (sp_cols m). clear.
      intros l. revert col. induction l; destruct col; simpl; auto. f_equal. auto.
    + simpl. apply lupd_nth_same. auto.
    + rewrite app_length. simpl. lia.
    + rewrite <- app_assoc. simpl. auto.
    + simpl. auto.
Qed.

Lemma populate_ok n col (rows : list (list nat)) (data : list (list N)) (m : spmat N) (ent : nat -> list (nat * N)) :
  col + n = length (sp_cols m) ->
  (forall c, col <= c < col + n -> nth_error rows c = Some (map fst (ent c)) /\ nth_error data c = Some (map snd (ent c)) /\
      nth_error (sp_cols m) c = Some (SpCol (length (ent c)) []) /\ asc (map fst (ent c)) /\
      Forall (fun r => r < sp_rows m) (map fst (ent c))) ->
  exists m', populate n col rows data m = Ok m' /\ sp_rows m' = sp_rows m /\ length (sp_cols m') = length (sp_cols m) /\
    (forall c, c < col -> nth_error (sp_cols m') c = nth_error (sp_cols m) c) /\
    (forall c, col <= c < col + n -> nth_error (sp_cols m') c = Some (SpCol (length (ent c)) (ent c))).
Proof.
  revert col m. induction n; simpl; intros col m Hlen H.
  - exists m. repeat split; auto. intros; lia.
  - destruct (H col) as (A & B & C & D & E); [lia|]. rewrite A, B.
    rewrite (populate_col_ok col [] (ent col) m (length (ent col))); auto. cbn [obind app].
    destruct (IHn (S col) (SpMat (sp_rows m) (lupd col (SpCol (length (ent col)) (ent col)) (sp_cols m)))) as (m' & P & R & L & Q1 & Q2).
    + simpl. rewrite lupd_length. lia.
    + intros c Hc. simpl. rewrite lupd_nth_other by lia. apply H. lia.
    + exists m'. rewrite P. simpl in *. rewrite lupd_length in L. split; [destruct (map fst (ent col)); reflexivity|]. split; auto. split; auto. split.
      * intros c Hc. rewrite Q1 by lia. rewrite lupd_nth_other by lia. auto.
      * intros c Hc. destruct (Nat.eq_dec c col) as [->|Hne].
        -- rewrite Q1 by lia. apply lupd_nth_same. lia.
        -- apply Q2. lia.
Qed.

Lemma copy_loop_ok n col run total (rows : list (list nat)) (data : list (list N)) mem :
  length rows = col + n -> map (@length nat) rows = map (@length N) data ->
  run + length (concat (skipn col data)) <= total -> total <= length mem ->
  copy_loop n col run total rows data mem =
    (firstn run mem ++ map Some (concat (skipn col data)) ++ skipn (run + length (concat (skipn col data))) mem, Ok tt).
Proof.
  revert col run mem. induction n; simpl; intros col run mem HL Hm Hle Ht.
  - assert (length data = length rows) by (rewrite <- (map_length (@length N) data), <- Hm, map_length; auto).
    rewrite skipn_all2 by lia. simpl. rewrite Nat.add_0_r, firstn_skipn. auto.
  - assert (Hld : length data = length rows) by (rewrite <- (map_length (@length N) data), <- Hm, map_length; auto).
    destruct (nth_error rows col) as [r|] eqn:Hr; [|apply nth_error_None in Hr; lia].
    destruct (nth_error data col) as [d|] eqn:Hd; [|apply nth_error_None in Hd; lia].
    assert (Hrd : length r = length d).
    { assert (X : nth_error (map (@length nat) rows) col = nth_error (map (@length N) data) col) by (rewrite Hm; auto).
      rewrite !nth_error_map, Hr, Hd in X. simpl in X. congruence. }
    rewrite Hrd, Nat.eqb_refl. simpl. rewrite (skipn_nth_cons _ _ _ Hd) in *. cbn [concat] in *. rewrite app_length in *.
    destruct (Nat.eqb_spec (length d) 0) as [E0|E0].
    + destruct d; [|discriminate]. simpl. apply IHn; auto; lia.
    + destruct (Nat.leb_spec total run); [lia|]. destruct (Nat.ltb_spec total (run + length d)); [lia|].
      rewrite IHn; auto; try lia.
      * f_equal.
        assert (EW : mem_write run d mem = (firstn run mem ++ map Some d) ++ skipn (run + length d) mem)
          by (unfold mem_write; rewrite app_assoc; auto). rewrite EW.
        assert (L1 : length (firstn run mem ++ map Some d) = run + length d).
        { rewrite app_length, firstn_length, map_length. lia. }
        rewrite firstn_app, skipn_app, L1.
        rewrite (firstn_all2 (firstn run mem ++ map Some d)) by lia.
        rewrite (skipn_all2 (firstn run mem ++ map Some d)) by lia.
        replace (run + length d - (run + length d)) with 0 by lia. simpl. rewrite app_nil_r, map_app, <- !app_assoc.
        do 3 f_equal. rewrite skipn_skipn'. f_equal. lia.
      * unfold mem_write. rewrite !app_length, firstn_length, skipn_length, map_length. lia.
Qed.

Lemma cols_of_memory_ok (cols : list (spcol N)) (data : list (list N)) :
  Forall2 (fun c d => sc_room c = length d /\ length (sc_ent c) = length d) cols data ->
  cols_of_memory cols (map Some (concat data)) = map (fun p => SpCol (length (snd p)) (combine (map fst (sc_ent (fst p))) (snd p))) (combine cols data).
Proof.
  induction 1 as [|c d cols data [H1 H2] _ IH]; simpl; auto. rewrite map_app. f_equal.
  - f_equal; auto. rewrite H2, firstn_app, map_length, Nat.sub_diag. simpl. rewrite app_nil_r.
    rewrite firstn_all2 by (rewrite map_length; auto).
    clear - H2. revert d H2. induction (sc_ent c) as [|[r v] t IH]; destruct d; simpl; intros; auto; try discriminate.
    f_equal. apply IH. lia.
  - rewrite H1, skipn_app, map_length, Nat.sub_diag. simpl. rewrite skipn_all2 by (rewrite map_length; auto). simpl. apply IH.
Qed.

(** ** the invariant of the sparse matrix *)
Record sinv (h : @heap V) (g : graph) : Prop := SInv {
  si_rows : sp_rows (sc_mat (g_sc g)) = nrows g;
  si_len : length (sp_cols (sc_mat (g_sc g))) = ncols VC h g;
  si_cols : forall c col, nth_error (sp_cols (sc_mat (g_sc g))) c = Some col ->
     sc_room col = length (sub c (cells_of VC h g)) /\
     map fst (sc_ent col) = if sc_valid (g_sc g) then sub c (cells_of VC h g) else []
}.

Definition wf_all (h : @heap V) (g : graph) : Prop :=
  Forall (factor_wf VC h (get_all_variables g)) (get_all_factors g).
(** row indices of a column: strictly increasing and in range *)
Lemma column_of h (g : graph) j : j < ncols VC h g -> exists m a c, nth_error (get_all_variables g) m = Some a /\
  c < width VC h a /\ j = col_start VC h (get_all_variables g) m + c.
Proof.
  intros H. unfold ncols, total_cols in H. destruct (psum_cover _ _ H) as (m & d & Hm & Hj).
  apply nth_error_map_some in Hm. destruct Hm as (a & Hm & ->). exists m, a, (j - col_start VC h (get_all_variables g) m).
  unfold psum in Hj. fold (col_start VC h (rg_vars (g_reg g)) m) in Hj. unfold get_all_variables.
  split; auto. split; lia.
Qed.

Lemma wf_facts h (g : graph) : wf_all h g ->
  Forall (fun f => listed_ok VC h (get_all_variables g) (f_vars f) /\ nodup_listed VC h (f_vars f)) (get_all_factors g).
Proof. intros H. eapply Forall_impl; [|exact H]. intros f Hf. destruct (wf_listed _ _ _ _ Hf) as (A & B & _). auto. Qed.

Definition dummy_blocks (fs : list factor) : list (list (mat N)) := map (fun f => map (fun _ => mempty) (f_vars f)) fs.
Lemma cells_dummy h (g : graph) : cells_of VC h g = rows_of (tall h (vpl VC h g) (get_all_factors g) (dummy_blocks (get_all_factors g)) 0).
Proof.
  unfold cells_of. symmetry. apply tall_rows. unfold dummy_blocks, get_all_factors. clear.
  induction (rg_factors (g_reg g)); simpl; constructor; auto. rewrite map_length. auto.
Qed.
Lemma dummy_len (fs : list factor) : Forall2 (fun (f : factor) js => length (f_vars f) <= length js) fs (dummy_blocks fs).
Proof. unfold dummy_blocks. induction fs; simpl; constructor; auto. rewrite map_length. auto. Qed.

Lemma cells_asc h (g : graph) j : fin VC h g -> wf_all h g -> j < ncols VC h g ->
  asc (sub j (cells_of VC h g)) /\ Forall (fun r => r < nrows g) (sub j (cells_of VC h g)).
Proof.
  intros Hf Hw Hj. destruct (column_of h g j Hj) as (m & a & c & Hm & Hc & ->).
  rewrite cells_dummy, sub_rows_of. rewrite (tall_col h g _ _ 0 m a c Hf (wf_facts h g Hw) (dummy_len _) Hm Hc).
  destruct (fsegs_rows a c 0 (get_all_factors g) (dummy_blocks (get_all_factors g))) as [A B]. split; auto. eapply Forall_impl; [|exact B]. simpl. intros r Hr. unfold nrows, get_all_factors in *. lia.
Qed.

Lemma combine_map_pair {A B} (l : list A) (l' : list B) : length l = length l' ->
  map fst (combine l l') = l /\ map snd (combine l l') = l' /\ length (combine l l') = length l.
Proof.
  revert l'. induction l; destruct l'; simpl; intros H; try discriminate; auto.
  destruct (IHl l') as (A1 & A2 & A3); [lia|]. repeat split; congruence.
Qed.

(** the last part of compute_sparse: putting the value arrays into the matrix succeeds and produces exactly their contents *)
Definition entries (h : @heap V) (g : graph) (data : list (list N)) (j : nat) : list (nat * N) :=
  combine (sub j (cells_of VC h g)) (nth j data []).

Lemma entries_facts h (g : graph) (data : list (list N)) j : map (@length N) data = cols_counts VC h g -> j < ncols VC h g ->
  map fst (entries h g data j) = sub j (cells_of VC h g) /\ nth_error data j = Some (map snd (entries h g data j)) /\
  length (entries h g data j) = length (sub j (cells_of VC h g)).
Proof.
  intros Hd Hj. unfold entries.
  assert (Hn : nth_error (map (@length N) data) j = Some (length (sub j (cells_of VC h g)))).
  { rewrite Hd. unfold cols_counts. rewrite nth_error_map, nth_error_seq, (proj2 (Nat.ltb_lt _ _) Hj). auto. }
  apply nth_error_map_some in Hn. destruct Hn as (d & Hdj & Hlen). rewrite (nth_error_nth _ _ _ Hdj).
  destruct (combine_map_pair (sub j (cells_of VC h g)) d Hlen) as (A & B & C). rewrite A, B. auto.
Qed.

Lemma populate_fin h (g : graph) data : fin VC h g -> wf_all h g -> sinv h g -> sc_valid (g_sc g) = false ->
  map (@length N) data = cols_counts VC h g ->
  exists m, populate (ly_nval (g_lay g)) 0 (sc_rowidx (g_sc g)) data (sc_mat (g_sc g)) = Ok m /\
    sp_rows m = nrows g /\ length (sp_cols m) = ncols VC h g /\
    (forall j, j < ncols VC h g -> nth_error (sp_cols m) j = Some (SpCol (length (entries h g data j)) (entries h g data j))).
Proof.
  intros Hf Hw [Sr Sl Sc] Hv Hd. rewrite (fin_lay _ _ _ Hf). simpl.
  destruct (populate_ok (ncols VC h g) 0 (sc_rowidx (g_sc g)) data (sc_mat (g_sc g)) (entries h g data)) as (m & P & R & L & _ & Q).
  - simpl. auto.
  - intros c [_ Hc]. simpl in Hc. destruct (entries_facts h g data c Hd Hc) as (A & B & C).
    destruct (cells_asc h g c Hf Hw Hc) as [D1 D2]. rewrite A. split.
    + rewrite (fin_rowidx _ _ _ Hf), nth_error_map, nth_error_seq, (proj2 (Nat.ltb_lt _ _) Hc). auto.
    + split; auto. split; [|split; auto].
      * destruct (nth_error (sp_cols (sc_mat (g_sc g))) c) as [[room ent]|] eqn:E; [|apply nth_error_None in E; lia].
        destruct (Sc _ _ E) as [S1 S2]. simpl in *. rewrite Hv in S2. apply map_eq_nil in S2. subst. rewrite C. auto.
      * rewrite Sr. auto.
  - exists m. split; auto. split; [congruence|]. split; [congruence|]. intros j Hj. apply Q. lia.
Qed.

Lemma list_sum_map_ext {A} (f f' : A -> nat) l : (forall x, In x l -> f x = f' x) -> list_sum (map f l) = list_sum (map f' l).
Proof. intros H. f_equal. apply map_ext_in. auto. Qed.

Lemma sinv_forall2 h (g : graph) data : sinv h g -> sc_valid (g_sc g) = true -> map (@length N) data = cols_counts VC h g ->
  Forall2 (fun c d => sc_room c = length d /\ length (sc_ent c) = length d) (sp_cols (sc_mat (g_sc g))) data.
Proof.
  intros [Sr Sl Sc] Hv Hd. apply Forall2_nth.
  assert (Hl : length data = ncols VC h g).
  { rewrite <- (map_length (@length N)), Hd. unfold cols_counts. rewrite map_length, seq_length. auto. }
  split; [congruence|]. intros i c d Hc Hdi. destruct (Sc _ _ Hc) as [S1 S2]. rewrite Hv in S2.
  assert (Hi : i < ncols VC h g) by (rewrite <- Sl; apply nth_error_Some; congruence).
  destruct (entries_facts h g data i Hd Hi) as (A & B & C).
  assert (Ld : length d = length (sub i (cells_of VC h g))).
  { rewrite B in Hdi. inversion Hdi. rewrite map_length. auto. }
  rewrite Ld. split; auto. rewrite <- S2, map_length. auto.
Qed.

Lemma copy_fin h (g : graph) data : fin VC h g -> wf_all h g -> sinv h g -> sc_valid (g_sc g) = true ->
  map (@length N) data = cols_counts VC h g -> 0 < list_sum (cols_counts VC h g) ->
  exists m, copy_sparse (ly_nval (g_lay g)) (sc_rowidx (g_sc g)) data (sc_mat (g_sc g)) = (m, Ok tt) /\
    sp_rows m = nrows g /\ length (sp_cols m) = ncols VC h g /\
    (forall j, j < ncols VC h g -> nth_error (sp_cols m) j = Some (SpCol (length (entries h g data j)) (entries h g data j))).
Proof.
  intros Hf Hw Hs Hv Hd Hpos. pose proof (sinv_forall2 h g data Hs Hv Hd) as HF. destruct Hs as [Sr Sl Sc].
  set (cols := sp_cols (sc_mat (g_sc g))) in *.
  assert (Hsum : list_sum (map (@length N) data) = length (concat data)) by (rewrite concat_length_sum; auto).
  assert (H1 : sp_alloc (sc_mat (g_sc g)) = length (concat data) /\ sp_nonzeros (sc_mat (g_sc g)) = length (concat data)
               /\ length (sp_memory (sc_mat (g_sc g))) = length (concat data)).
  { unfold sp_alloc, sp_nonzeros, sp_memory. fold cols. clear - HF. induction HF as [|c d l l' [X1 X2] _ IH]; simpl; auto.
    destruct IH as (I1 & I2 & I3). rewrite !app_length, map_length, repeat_length. simpl in *. lia. }
  destruct H1 as (A1 & A2 & A3). unfold copy_sparse. rewrite A1, A2. rewrite <- Hsum, Hd.
  rewrite (proj2 (Nat.eqb_neq _ _)) by lia.
  rewrite (fin_lay _ _ _ Hf). simpl.
  rewrite copy_loop_ok.
  - simpl. rewrite (skipn_all2 (sp_memory (sc_mat (g_sc g)))) by lia. rewrite app_nil_r.
    eexists. split; [reflexivity|]. unfold sp_set_memory. fold cols.
    rewrite cols_of_memory_ok by auto. simpl. split; auto.
    assert (Hl : length data = ncols VC h g).
    { rewrite <- (map_length (@length N)), Hd. unfold cols_counts. rewrite map_length, seq_length. auto. }
    split; [rewrite map_length, combine_length; lia|].
    intros j Hj. rewrite nth_error_map.
    destruct (nth_error cols j) as [c|] eqn:Ec; [|apply nth_error_None in Ec; lia].
    destruct (nth_error data j) as [d|] eqn:Ed; [|apply nth_error_None in Ed; lia].
    rewrite (nth_error_combine _ _ _ _ _ Ec Ed). simpl. destruct (Sc _ _ Ec) as [_ S2]. rewrite Hv in S2.
    destruct (entries_facts h g data j Hd Hj) as (B1 & B2 & B3).
    assert (Ee : entries h g data j = combine (map fst (sc_ent c)) d).
    { unfold entries. rewrite (nth_error_nth _ _ _ Ed), S2. auto. }
    rewrite <- Ee. do 2 f_equal. rewrite B3. rewrite B2 in Ed. inversion Ed. rewrite map_length. auto.
  - rewrite (fin_rowidx _ _ _ Hf), map_length, seq_length. auto.
  - rewrite (fin_rowidx _ _ _ Hf), Hd, map_map. auto.
  - rewrite <- Hd. simpl. lia.
  - rewrite <- Hd. lia.
Qed.

Lemma some_active_pos h (g : graph) : fin VC h g -> wf_all h g -> some_active VC h (get_all_factors g) -> 0 < list_sum (cols_counts VC h g).
Proof.
  intros Hf Hw (f & a & v & Hin & Ha & Hv & C). unfold wf_all in Hw. rewrite Forall_forall in Hw.
  destruct (Hw f Hin) as (Hrs & Hl & _). destruct (Hl _ Ha) as (a' & v' & E & Hv' & Hnc & _). inversion E; subst a'.
  replace v' with v in * by congruence. destruct (Hnc C) as [Hvs Hsz].
  apply In_nth_error in Hvs. destruct Hvs as [m Hm]. apply In_nth_error in Hin. destruct Hin as [k Hk].
  set (j := col_start VC h (get_all_variables g) m + 0).
  assert (Wd : 0 < width VC h a) by (rewrite (width_nonconst VC h a v Hv C); auto).
  assert (Hj : j < ncols VC h g).
  { pose proof (col_start_le VC h _ _ _ Hm). unfold j, ncols, get_all_variables in *. lia. }
  assert (Hpos : 0 < length (sub j (cells_of VC h g))).
  { rewrite cells_dummy, sub_rows_of, map_length. unfold j.
    rewrite (tall_col h g _ _ 0 m a 0 Hf) by (auto using dummy_len; apply wf_facts; unfold wf_all; apply Forall_forall; auto).
    pose proof (fsegs_lookup a 0 0 (get_all_factors g) (dummy_blocks (get_all_factors g)) k f (map (fun _ => mempty) (f_vars f)) 0 Hk) as L.
    unfold dummy_blocks in L at 1. rewrite nth_error_map, Hk in L. specialize (L eq_refl Hrs).
    destruct (listed_at a (f_vars f)) as [q|] eqn:Lq.
    - rewrite nth_error_map, (listed_at_nth _ _ _ Lq) in L. simpl in L.
      destruct (fsegs a 0 0 (get_all_factors g) (dummy_blocks (get_all_factors g))); simpl in *; [discriminate|lia].
    - apply listed_at_none in Lq. contradiction. }
  unfold cols_counts. assert (Hin : In (length (sub j (cells_of VC h g))) (map (fun c => length (sub c (cells_of VC h g))) (seq 0 (ncols VC h g)))).
  { apply in_map_iff. exists j. split; auto. apply in_seq. lia. }
  clear - Hpos Hin. induction (map _ _) as [|x l IH]; simpl in *; [contradiction|]. destruct Hin as [->|Hin]; [lia|]. specialize (IH Hin). lia.
Qed.

(** ** preservation *)
Lemma sinv_pres h h' (g g' : graph) : hpres VC true h h' -> reg_inv VC h g -> factors_fine VC h g -> g_reg g' = g_reg g ->
  g_sc g' = g_sc g -> sinv h g -> sinv h' g'.
Proof.
  intros Hp Hi Hf Hr Hs [A B C]. constructor; rewrite Hs.
  - rewrite (nrows_pres g g' Hr). auto.
  - rewrite (ncols_pres VC h h' Hp g g' Hr Hi). auto.
  - intros c col Hc. rewrite (cells_of_pres VC h h' Hp g g' Hr Hi Hf). auto.
Qed.

Lemma compute_sparse_inv h (g g' : graph) r : fin VC h g -> wf_all h g -> sinv h g -> compute_sparse VC h g = (g', r) -> sinv h g'.
Proof.
  intros Hf Hw Hs H. pose proof (compute_sparse_fin VC _ _ _ _ H Hf) as Hf'.
  pose proof (compute_sparse_reg _ _ _ _ _ H) as (R & L & _).
  unfold compute_sparse in H.
  destruct (negb (ly_final (g_lay g))); [inversion H; subst; auto|].
  destruct (negb (sc_init (g_sc g))); [inversion H; subst; auto|].
  destruct (sparse_factors_loop VC h g _ 0 _ _ _) as [[comps data] o] eqn:S.
  destruct (sparse_loop_lengths VC _ _ _ _ _ _ _ _ _ _ _ (fin_comps _ _ _ Hf) (fun k fp f => fpl_lookup_factor VC h g k fp f Hf) S) as [S1 _].
  rewrite (fin_data _ _ _ Hf) in S1.
  assert (Hc : cells_of VC h g' = cells_of VC h g) by (apply (cells_of_pres VC h h); auto using hpres_refl, fin_reg, fin_fine).
  assert (Hn : ncols VC h g' = ncols VC h g) by (apply (ncols_pres VC h h); auto using hpres_refl, fin_reg).
  assert (Hr : nrows g' = nrows g) by (apply nrows_pres; auto).
  assert (Hsame : sc_mat (g_sc g') = sc_mat (g_sc g) -> sc_valid (g_sc g') = sc_valid (g_sc g) -> sinv h g').
  { intros E1 E2. destruct Hs as [A B C]. constructor; rewrite ?E1, ?E2, ?Hr, ?Hn, ?Hc; auto. }
  assert (Hnew : forall m, sc_mat (g_sc g') = m -> sc_valid (g_sc g') = true -> sp_rows m = nrows g -> length (sp_cols m) = ncols VC h g ->
     (forall j, j < ncols VC h g -> nth_error (sp_cols m) j = Some (SpCol (length (entries h g data j)) (entries h g data j))) -> sinv h g').
  { intros m E1 E2 E3 E4 E5. constructor; rewrite ?E1, ?E2, ?Hr, ?Hn, ?Hc; auto. intros c col Hcol.
    assert (Hlt : c < ncols VC h g) by (rewrite <- E4; apply nth_error_Some; congruence).
    rewrite (E5 c Hlt) in Hcol. inversion Hcol; subst col. simpl. destruct (entries_facts h g data c S1 Hlt) as (A & B & C). auto. }
  destruct o as [[]|e|u]; [|inversion H; subst; apply Hsame; auto..].
  destruct (sc_valid (g_sc g)) eqn:Hv.
  - destruct (Nat.eq_dec (list_sum (cols_counts VC h g)) 0) as [E0|E0].
    + destruct (copy_sparse _ _ _ _) as [m o] eqn:K.
      assert (Hal : sp_alloc (sc_mat (g_sc g)) = 0).
      { pose proof (sinv_forall2 h g data Hs Hv S1) as HF. rewrite <- E0, <- S1. unfold sp_alloc.
        clear - HF. induction HF as [|c d l l' [X1 X2] _ IH]; simpl in *; auto. }
      unfold copy_sparse in K. rewrite Hal in K. simpl in K. inversion K; subst. inversion H; subst. apply Hsame; auto.
    + destruct (copy_fin h g data Hf Hw Hs Hv S1) as (m & K & M1 & M2 & M3); [lia|]. rewrite K in H. inversion H; subst.
      eapply Hnew; simpl; eauto.
  - destruct (populate_fin h g data Hf Hw Hs Hv S1) as (m & K & M1 & M2 & M3). rewrite K in H. inversion H; subst.
    eapply Hnew; simpl; eauto.
Qed.

Lemma sinv_step (E : env) s o s' ans : step VC E s o = (s', ans) -> value_op o ->
  fin VC (fst s) (snd s) -> wf_all (fst s) (snd s) -> sinv (fst s) (snd s) -> sinv (fst s') (snd s').
Proof.
  intros Es Hv Hf Hw Hi. pose proof (step_heap_pres _ Hok _ _ _ _ _ Es) as [_ Hp]. specialize (Hp Hv).
  destruct (step_value_keeps VC _ _ _ _ _ Es Hv) as [Hr Hl].
  destruct s as [h g], s' as [h' g']. simpl in *.
  assert (Hsame : g_sc g' = g_sc g -> sinv h' g').
  { intros E1. eapply sinv_pres; eauto; apply Hf. }
  destruct o; simpl in *; try contradiction;
    repeat match goal with
    | H : context [let '(_, _) := ?t in _] |- _ => destruct t eqn:?
    end; inversion Es; subst; clear Es; simpl; auto.
  - apply compute_residual_reg in Heqp. apply Hsame. tauto.
  - apply compute_dense_reg in Heqp. apply Hsame. tauto.
  - apply compute_both_reg in Heqp. apply Hsame. tauto.
  - eapply compute_sparse_inv; eauto.
Qed.

Lemma wf_all_pres h h' (g g' : graph) : hpres VC true h h' -> reg_inv VC h g -> g_reg g' = g_reg g -> wf_all h g -> wf_all h' g'.
Proof.
  intros Hp Hi Hr Hw. unfold wf_all, get_all_factors, get_all_variables in *. rewrite Hr.
  eapply Forall_impl; [|exact Hw]. intros f Hf. eapply wf_pres; eauto. apply (ri_live _ _ _ Hi).
Qed.

Lemma sinv_run l s : Forall (fun eo : env * op => env_ok (fst eo) /\ value_op (snd eo)) l ->
  fin VC (fst s) (snd s) -> wf_all (fst s) (snd s) -> sinv (fst s) (snd s) -> sinv (fst (run VC s l)) (snd (run VC s l)).
Proof.
  revert s. induction l as [|[E o] t IH]; simpl; intros s Hl Hf Hw Hi; auto.
  inversion Hl as [|x y [He Hv] Ht]; subst. simpl in *. destruct (step VC E s o) as [s' ans] eqn:Es. simpl.
  pose proof (step_heap_pres _ Hok _ _ _ _ _ Es) as [_ Hp]. specialize (Hp Hv).
  destruct (step_value_keeps VC _ _ _ _ _ Es Hv) as [Hr Hl'].
  apply IH; auto.
  - eapply (step_fin VC Hok); eauto.
  - eapply wf_all_pres; eauto. apply Hf.
  - eapply sinv_step; eauto.
Qed.

(** well-formedness is a property of the structure: it can be read at any later heap *)
Lemma hpres_back h h' (g g' : graph) : hpres VC true h h' -> reg_inv VC h g -> factors_fine VC h g -> g_reg g' = g_reg g ->
  wf_all h' g' -> wf_all h g.
Proof.
  intros Hp Hi Hf Hr Hw. unfold wf_all, get_all_factors, get_all_variables in *. rewrite Hr in Hw.
  pose proof (fine_live VC h g Hf) as Hlive. unfold get_all_factors in Hlive.
  rewrite Forall_forall in Hw, Hlive |- *. intros f Hin. destruct (Hw f Hin) as (A & B & C). specialize (Hlive f Hin).
  pose proof (ri_live _ _ _ Hi) as Hl. rewrite Forall_forall in Hl. split; auto. split.
  - intros p Hpin. destruct (B p Hpin) as (a & v' & -> & Ha' & Hv' & Hu). destruct (Hlive a Hpin) as [v Ha].
    destruct (Hp _ _ Ha) as (v2 & Ha2 & I & S & Cc). replace v2 with v' in * by congruence.
    exists a, v. split; auto. split; auto. rewrite S, Cc in Hv' by auto. split; auto.
    intros b Hb E. apply Hu; auto. rewrite (idz_pres VC true h h' b Hp) by auto.
    rewrite (idz_pres VC true h h' a Hp) by (apply nth_error_Some; congruence). auto.
  - erewrite filter_ext_in; [exact C|]. intros [a|] Hpin; simpl; auto. destruct (Hlive a Hpin) as [v Ha].
    rewrite (width_pres VC h h' a Hp) by (apply nth_error_Some; congruence). auto.
Qed.

Lemma sinv_final h (g : graph) : sc_valid (g_sc g) = false -> sinv h (final_graph VC h g).
Proof.
  intros Hv. constructor.
  - reflexivity.
  - change (length (map (fun n => SpCol (N:=N) n []) (cols_counts VC h g)) = ncols VC h g).
    unfold cols_counts. rewrite !map_length, seq_length. auto.
  - intros c col Hc. simpl in Hc. change (cells_of VC h (final_graph VC h g)) with (cells_of VC h g). simpl. rewrite Hv.
    unfold cols_counts in Hc. rewrite map_map in Hc. apply nth_error_map_some in Hc. destruct Hc as (x & Hx & ->).
    rewrite nth_error_seq in Hx. destruct (c <? _); inversion Hx; subst. auto.
Qed.

Lemma first_sparse l1 l2 h1 h (g1 g : graph) : finalized_history VC l1 l2 h1 h g1 g ->
  unfinalized VC ([], empty_graph) l1 -> wf_all h g -> sinv h g.
Proof.
  intros HF Hu Hw. destruct (finalized_facts VC Hok _ _ _ _ _ _ HF) as (Hf1 & Hf & Hp & Hr & Hly).
  pose proof (hpres_back _ _ _ _ Hp (fin_reg _ _ _ Hf1) (fin_fine _ _ _ Hf1) Hr Hw) as Hw1.
  destruct HF as (g0 & R1 & F & Hl & R2).
  pose proof (unfinalized_fresh VC l1 ([], empty_graph)) as Hfr. rewrite R1 in Hfr. simpl in Hfr.
  specialize (Hfr ltac:(repeat split) Hu). destruct Hfr as (_ & _ & _ & Hj).
  pose proof (reachable_reg VC Hok _ _ _ R1) as Hi.
  destruct (finalize_ok_fine VC _ _ _ Hi F) as (_ & _ & ->).
  pose proof (sinv_run l2 (h1, final_graph VC h1 g0) Hl Hf1 Hw1 (sinv_final h1 g0 Hj)) as D. rewrite R2 in D. auto.
Qed.

Lemma rowidx_vals h (g : graph) jss : fin VC h g -> 
  Forall2 (fun (f : factor) js => length (f_vars f) <= length js) (get_all_factors g) jss ->
  cell_ok (sc_data (g_sc g)) (repeat 0 (ncols VC h g)) (vals_of (tall h (vpl VC h g) (get_all_factors g) jss 0)) /\
  (forall c l, nth_error (sc_data (g_sc g)) c = Some l -> length l = length (sub c (vals_of (tall h (vpl VC h g) (get_all_factors g) jss 0)))) /\
  length (sc_data (g_sc g)) = ncols VC h g.
Proof.
  intros Hf HL. pose proof (tall_rows h (vpl VC h g) (get_all_factors g) jss 0 HL) as ER.
  change (allcells VC h (vpl VC h g) (get_all_factors g) 0) with (cells_of VC h g) in ER.
  set (T := tall h (vpl VC h g) (get_all_factors g) jss 0) in *.
  pose proof (fin_data _ _ _ Hf) as Hd.
  assert (Hl : length (sc_data (g_sc g)) = ncols VC h g).
  { rewrite <- (map_length (@length N)), Hd. unfold cols_counts. rewrite map_length, seq_length. auto. }
  assert (Hlen : forall c, length (sub c (vals_of T)) = length (sub c (cells_of VC h g))).
  { intros c. rewrite <- ER, sub_vals_of, sub_rows_of, !map_length. auto. }
  assert (H2 : forall c l, nth_error (sc_data (g_sc g)) c = Some l -> length l = length (sub c (vals_of T))).
  { intros c l Hc. assert (Hlt : c < ncols VC h g) by (rewrite <- Hl; apply nth_error_Some; congruence).
    destruct (entries_facts h g _ c Hd Hlt) as (_ & B & C). rewrite B in Hc. inversion Hc. rewrite map_length, Hlen. auto. }
  split; [|split; auto]. split.
  - rewrite Hl, repeat_length.
    assert (Hb : Forall (fun p => fst p < ncols VC h g) (cells_of VC h g)).
    { apply allcells_bound. apply Forall_forall. intros f _. apply occs_fit_vpl. apply Hf. }
    rewrite <- ER in Hb. unfold vals_of, rows_of in *. rewrite Forall_map in Hb |- *.
    eapply Forall_impl; [|exact Hb]. simpl. intros; auto.
  - intros c l k Hc Hk. rewrite nth_error_repeat' in Hk. destruct (c <? _); inversion Hk; subst.
    rewrite (H2 _ _ Hc). auto.
Qed.

Lemma compute_sparse_ok h (g : graph) jss :
  fin VC h g -> wf_all h g -> sinv h g -> some_active VC h (get_all_factors g) -> Forall buf_indep (get_all_factors g) ->
  Forall2 (fun f js => f_jac f h [] = (js, Ok tt) /\ blocks_ok VC h (f_rsize f) (f_vars f) js) (get_all_factors g) jss ->
  exists g' M, compute_sparse VC h g = (g', Ok M) /\ sparse_jacobian g' = Ok M /\
    assembled VC h (get_all_variables g) (get_all_factors g) jss (sp_dense M).
Proof.
  intros Hf Hw Hs Ha Hbi Hj.
  assert (HL : Forall2 (fun (f : factor) js => length (f_vars f) <= length js) (get_all_factors g) jss).
  { clear - Hj. induction Hj as [|f js fs jss [_ [X _]] _ IH]; constructor; auto. }
  destruct (rowidx_vals h g jss Hf HL) as (C1 & C2 & C3).
  unfold compute_sparse. rewrite (fin_init _ _ _ Hf).
  assert (Hlay : ly_nval (g_lay g) = ncols VC h g /\ ly_final (g_lay g) = true) by (rewrite (fin_lay _ _ _ Hf); auto).
  destruct Hlay as (L1 & L2). rewrite L2. cbn [negb]. pose proof L1 as L1'.
  destruct (sparse_factors_ok h g (get_all_factors g) 0 0 jss (sc_comps (g_sc g)) (sc_data (g_sc g)) (repeat 0 (ncols VC h g)))
    as (comps & data & cur & F & W); auto.
  { intros k f Hk. rewrite (fin_lay _ _ _ Hf). simpl. eexists. split; [apply (fp_list_lookup VC h (vpl VC h g) (rg_factors (g_reg g)) 0 0 k f Hk)|]. auto. }
  { intros k f Hk. pose proof (fin_comps _ _ _ Hf) as Hc. unfold comps_ok in Hc. apply Forall2_nth in Hc. destruct Hc as [Hc1 Hc2].
    destruct (nth_error (sc_comps (g_sc g)) k) as [b|] eqn:Eb.
    - exists b. simpl. split; auto. eapply Hc2; eauto.
    - exfalso. apply nth_error_None in Eb. assert (k < length (get_all_factors g)) by (apply nth_error_Some; congruence).
      unfold get_all_factors in *. lia. }
  { eapply Forall_impl; [|exact (wf_facts h g Hw)]. intros f [X _]; auto. }
  unfold get_all_factors in F. rewrite L1, F.
  assert (Hd : map (@length N) data = cols_counts VC h g).
  { rewrite <- (fin_data _ _ _ Hf).
    apply (sparse_loop_lengths VC _ _ _ _ _ _ _ _ _ _ _ (fin_comps _ _ _ Hf) (fun k fp f => fpl_lookup_factor VC h g k fp f Hf) F). }
  assert (Hwr := written_full _ _ _ _ _ C3 W C2).
  assert (Hentries : forall j, j < ncols VC h g -> entries h g data j = sub j (tall h (vpl VC h g) (get_all_factors g) jss 0)).
  { intros j Hjj. unfold entries. rewrite (nth_error_nth _ _ _ (Hwr j Hjj)), sub_vals_of.
    unfold cells_of. fold (get_all_factors g). rewrite <- (tall_rows h (vpl VC h g) (get_all_factors g) jss 0 HL), sub_rows_of.
    clear. induction (sub j _) as [|[r x] l IH]; simpl; auto. f_equal. auto. }
  assert (Hass : forall m, sp_rows m = nrows g -> length (sp_cols m) = ncols VC h g ->
     (forall j, j < ncols VC h g -> nth_error (sp_cols m) j = Some (SpCol (length (entries h g data j)) (entries h g data j))) ->
     assembled VC h (get_all_variables g) (get_all_factors g) jss (sp_dense m)).
  { intros m M1 M2 M3. split; [exact M1|]. split; [exact M2|].
    intros k f js mm a r c Hk Hjs Hm Hr Hc. simpl. unfold sp_at.
    assert (Hlt : col_start VC h (get_all_variables g) mm + c < ncols VC h g).
    { pose proof (col_start_le VC h _ _ _ Hm). unfold ncols, get_all_variables in *. lia. }
    rewrite (M3 _ Hlt). simpl. rewrite (Hentries _ Hlt).
    rewrite (tall_col h g _ _ 0 mm a c Hf (wf_facts h g Hw) HL Hm Hc). unfold col_coeff.
    pose proof (fsegs_lookup a c 0 _ _ k f js r Hk Hjs Hr) as Lk. simpl in Lk. rewrite Lk.
    destruct (listed_at a (f_vars f)) as [q|]; auto. destruct (nth_error js q); auto. }
  destruct (sc_valid (g_sc g)) eqn:Hv.
  - destruct (copy_fin h g data Hf Hw Hs Hv Hd (some_active_pos h g Hf Hw Ha)) as (m & K & M1 & M2 & M3).
    rewrite L1 in K. rewrite K. eexists. exists m. split; [reflexivity|]. split; [reflexivity|]. auto.
  - destruct (populate_fin h g data Hf Hw Hs Hv Hd) as (m & K & M1 & M2 & M3).
    rewrite L1 in K. rewrite K. eexists. exists m. split; [reflexivity|]. split; [reflexivity|]. auto.
Qed.

Lemma sparse_jacobian_ok l1 l2 h1 h (g1 g : graph) jss :
  finalized_history VC l1 l2 h1 h g1 g -> unfinalized VC ([], empty_graph) l1 ->
  Forall (factor_wf VC h (get_all_variables g)) (get_all_factors g) ->
  some_active VC h (get_all_factors g) -> Forall buf_indep (get_all_factors g) ->
  Forall2 (fun f js => f_jac f h [] = (js, Ok tt) /\ blocks_ok VC h (f_rsize f) (f_vars f) js) (get_all_factors g) jss ->
  exists g' M, compute_sparse VC h g = (g', Ok M) /\ sparse_jacobian g' = Ok M /\
    assembled VC h (get_all_variables g) (get_all_factors g) jss (sp_dense M).
Proof.
  intros HF Hu Hw Ha Hbi Hj. destruct (finalized_facts VC Hok _ _ _ _ _ _ HF) as (_ & Hf & _).
  apply compute_sparse_ok; auto. eapply first_sparse; eauto.
Qed.

(** an assembled matrix is determined by the blocks *)
Lemma assembled_unique h (vs : list addr) (fs : list factor) jss (J J' : mat N) : length jss = length fs ->
  assembled VC h vs fs jss J -> assembled VC h vs fs jss J' -> mat_eq J J'.
Proof.
  intros HL (A1 & A2 & A3) (B1 & B2 & B3). split; [congruence|]. split; [congruence|].
  intros i j Hi Hj. rewrite A1 in Hi. rewrite A2 in Hj.
  destruct (psum_cover _ _ Hi) as (k & d & Hk & Hik). destruct (psum_cover _ _ Hj) as (m & w & Hm & Hjm).
  apply nth_error_map_some in Hk. destruct Hk as (f & Hk & ->). apply nth_error_map_some in Hm. destruct Hm as (a & Hm & ->).
  unfold psum in Hik, Hjm. fold (row_start fs k) in Hik. fold (col_start VC h vs m) in Hjm.
  destruct (nth_error jss k) as [js|] eqn:Ejs.
  2:{ apply nth_error_None in Ejs. assert (k < length fs) by (apply nth_error_Some; congruence). lia. }
  replace i with (row_start fs k + (i - row_start fs k)) by lia.
  replace j with (col_start VC h vs m + (j - col_start VC h vs m)) by lia.
  rewrite (A3 k f js m a), (B3 k f js m a); auto; lia.
Qed.

Lemma sparse_eq_dense l1 l2 h1 h (g1 g : graph) (E : env) jss :
  finalized_history VC l1 l2 h1 h g1 g -> unfinalized VC ([], empty_graph) l1 -> env_ok E ->
  Forall (factor_wf VC h (get_all_variables g)) (get_all_factors g) ->
  some_active VC h (get_all_factors g) -> Forall buf_indep (get_all_factors g) ->
  Forall2 (fun f js => f_jac f h [] = (js, Ok tt) /\ blocks_ok VC h (f_rsize f) (f_vars f) js) (get_all_factors g) jss ->
  exists g' M g'' J, compute_sparse VC h g = (g', Ok M) /\ compute_dense VC E h g = (g'', Ok J) /\
    mat_eq (sp_dense M) J /\ assembled VC h (get_all_variables g) (get_all_factors g) jss (sp_dense M).
Proof.
  intros HF Hu He Hw Ha Hbi Hj.
  destruct (sparse_jacobian_ok _ _ _ _ _ _ _ HF Hu Hw Ha Hbi Hj) as (g' & M & S1 & _ & S3).
  destruct (dense_jacobian VC Hok _ _ _ _ _ _ _ _ HF Hu He Hw Hj) as (g'' & J & D1 & _ & D3).
  exists g', M, g'', J. split; auto. split; auto. split; auto.
  eapply assembled_unique; eauto. symmetry. apply (proj1 (proj1 (Forall2_nth _ _ _) Hj)).
Qed.
End Sparse.
