(** Proofs about value vectors and increments. *)
From Coq Require Import List Arith ZArith Bool Lia Permutation.
From Verif Require Import Base Sparse Graph SpecGraph ListLemmas GraphLayout GraphFin GraphBasic.
Import ListNotations.

Section Vec.
Context {N : num} {V : Type} (VC : vclass N V).
Notation factor := (factor (N:=N) (V:=V)).
Notation graph := (graph (N:=N) (V:=V)).
Notation env := (env (N:=N) (V:=V)).
Notation op := (op (N:=N) (V:=V)).
Hypothesis Hok : vclass_ok VC.

Lemma width_nonconst h a v : nth_error h a = Some v -> vconst VC v = false -> width VC h a = vsize VC v.
Proof. intros H C. unfold width. rewrite H, C. auto. Qed.
Lemma width_const h a v : nth_error h a = Some v -> vconst VC v = true -> width VC h a = 0.
Proof. intros H C. unfold width. rewrite H, C. auto. Qed.

Lemma get_loop_spec h (g : graph) vs off (x : list (option N)) :
  Forall (fun a => a < length h) vs ->
  each_nonconst VC h vs (sized VC) ->
  (forall a v, In a vs -> nth_error h a = Some v -> vconst VC v = false ->
     exists p, variable_placement g (vid VC v) = Some p /\ vp_dim p = vsize VC v) ->
  off + total_cols VC h vs <= length x ->
  get_vector_loop VC h g vs off x =
    Ok (firstn off x ++ map Some (concat (map (vval VC) (nonconst VC h vs))) ++ skipn (off + total_cols VC h vs) x).
Proof.
  intros Hl. revert off x. unfold total_cols. induction Hl as [|a t Ha _ IH]; simpl; intros off x Hs Hp Hle.
  - rewrite Nat.add_0_r, firstn_skipn. auto.
  - unfold hget. destruct (nth_error h a) as [v|] eqn:Ev; [|apply nth_error_None in Ev; lia]. simpl.
    assert (Hs' : each_nonconst VC h t (sized VC)) by (intros b w Hb; apply Hs; simpl; auto).
    assert (Hp' : forall b w, In b t -> nth_error h b = Some w -> vconst VC w = false ->
       exists p, variable_placement g (vid VC w) = Some p /\ vp_dim p = vsize VC w) by (intros; eapply Hp; eauto).
    destruct (vconst VC v) eqn:C.
    + rewrite (width_const _ _ _ Ev C) in *. simpl in *. rewrite IH by auto. reflexivity.
    + rewrite (width_nonconst _ _ _ Ev C) in *. destruct (Hp a v (or_introl eq_refl) Ev C) as (p & -> & ->).
      rewrite Nat.eqb_refl. simpl. pose proof (Hs a v (or_introl eq_refl) Ev C) as Hlen. unfold sized in Hlen.
      rewrite (proj2 (Nat.leb_le _ _)) by lia. simpl. rewrite Hlen, Nat.eqb_refl. simpl.
      set (x1 := firstn off x ++ map Some (vval VC v) ++ skipn (off + vsize VC v) x).
      assert (Lf : length (firstn off x) = off) by (rewrite firstn_length; lia).
      assert (Lx : length x1 = length x).
      { unfold x1. rewrite !app_length, Lf, map_length, skipn_length, Hlen. lia. }
      rewrite IH; auto; [|lia]. f_equal.
      assert (E1 : firstn (off + vsize VC v) x1 = firstn off x ++ map Some (vval VC v)).
      { unfold x1. rewrite app_assoc. rewrite firstn_app, app_length, Lf, map_length, Hlen.
        rewrite firstn_all2 by (rewrite app_length, Lf, map_length, Hlen; lia).
        replace (off + vsize VC v - (off + vsize VC v)) with 0 by lia. simpl. rewrite app_nil_r. auto. }
      assert (E2 : skipn (off + vsize VC v + list_sum (map (width VC h) t)) x1 =
                   skipn (off + (vsize VC v + list_sum (map (width VC h) t))) x).
      { unfold x1. rewrite app_assoc. rewrite skipn_app, app_length, Lf, map_length, Hlen.
        rewrite skipn_all2 by (rewrite app_length, Lf, map_length, Hlen; lia).
        simpl. rewrite skipn_skipn'. f_equal. lia. }
      rewrite E1, E2, map_app, <- !app_assoc. reflexivity.
Qed.

Lemma all_some_map {A} (l : list A) : all_some (map Some l) = Ok l.
Proof. induction l; simpl; auto. rewrite IHl. auto. Qed.

Lemma fin_placed h (g : graph) : fin VC h g -> forall a v, In a (get_all_variables g) -> nth_error h a = Some v ->
  exists k, nth_error (get_all_variables g) k = Some a /\
   variable_placement g (vid VC v) = Some (VPlacement a (col_start VC h (get_all_variables g) k) (width VC h a)).
Proof.
  intros Hf a v Hin Ha. apply In_nth_error in Hin. destruct Hin as [k Hk]. exists k. split; auto.
  rewrite <- (fin_vplace VC h g k a Hf Hk). unfold idz. rewrite Ha. auto.
Qed.

Lemma get_vector_spec h (g : graph) : fin VC h g -> each_nonconst VC h (get_all_variables g) (sized VC) ->
  get_variable_vector VC h g = Ok (concat (map (vval VC) (nonconst VC h (get_all_variables g)))).
Proof.
  intros Hf Hs. unfold get_variable_vector.
  assert (Hn : num_values g = total_cols VC h (get_all_variables g)) by (unfold num_values; rewrite (fin_lay _ _ _ Hf); auto).
  rewrite get_loop_spec; auto.
  - simpl. rewrite Hn. rewrite skipn_all2 by (rewrite repeat_length; lia). rewrite app_nil_r. apply all_some_map.
  - apply (fin_reg _ _ _ Hf).
  - intros a v Hin Ha C. destruct (fin_placed h g Hf a v Hin Ha) as (k & Hk & P). eexists. split; eauto.
    simpl. apply width_nonconst; auto.
  - rewrite repeat_length, Hn. lia.
Qed.

Lemma nonconst_values_length h vs : Forall (fun a => a < length h) vs -> each_nonconst VC h vs (sized VC) ->
  length (concat (map (vval VC) (nonconst VC h vs))) = total_cols VC h vs.
Proof.
  unfold total_cols, nonconst. induction 1 as [|a t Ha _ IH]; simpl; intros Hs; auto.
  assert (Hs' : each_nonconst VC h t (sized VC)) by (intros b w Hb; apply Hs; simpl; auto).
  destruct (nth_error h a) as [v|] eqn:Ev; [|apply nth_error_None in Ev; lia].
  destruct (vconst VC v) eqn:C; simpl.
  - rewrite (width_const _ _ _ Ev C). auto.
  - rewrite (width_nonconst _ _ _ Ev C), app_length, IH; auto. rewrite (Hs a v); simpl; auto.
Qed.

Lemma vars_nodup h (g : graph) : fin VC h g -> NoDup (get_all_variables g).
Proof. intros Hf. eapply NoDup_map_inv. apply (fin_reg _ _ _ Hf). Qed.

(** ** the two update loops *)
Lemma hupd_ok (h : @heap V) a (f : V -> outcome V) v v' : nth_error h a = Some v -> f v = Ok v' -> hupd h a f = (lupd a v' h, Ok tt).
Proof. intros H F. unfold hupd, hget. rewrite H, F. auto. Qed.

Lemma segment_slice off n (x : list N) : off + n <= length x -> segment off n x = Ok (slice off n x).
Proof. intros H. unfold segment. rewrite (proj2 (Nat.leb_le _ _) H). auto. Qed.

(** generic composition step *)
Lemma updated_cons h a v v' t h' (upd : nat -> V -> outcome V) :
  ~ In a t -> nth_error h a = Some v -> vconst VC v = false -> upd 0 v = Ok v' ->
  updated VC (lupd a v' h) h' t (fun k => upd (S k)) -> updated VC h h' (a :: t) upd.
Proof.
  intros Hn Ha C U (L & H1 & H2). rewrite lupd_length in L.
  assert (Hal : a < length h) by (apply nth_error_Some; congruence).
  split; auto. split.
  - intros [|k] b w Hk Hb Cw; simpl in Hk.
    + inversion Hk; subst b. replace w with v in * by congruence. exists v'. split; auto. apply H2.
      * apply lupd_nth_same; auto.
      * auto.
    + apply (H1 k b w); auto. rewrite lupd_nth_other; auto. intros ->. apply Hn. eapply nth_error_In; eauto.
  - intros b w Hb Hor. apply H2.
    + rewrite lupd_nth_other; auto. intros ->. destruct Hor as [Hor|Hor]; [apply Hor; simpl; auto|congruence].
    + simpl in Hor. tauto.
Qed.
Lemma updated_const h a v t h' (upd : nat -> V -> outcome V) :
  nth_error h a = Some v -> vconst VC v = true ->
  updated VC h h' t (fun k => upd (S k)) -> updated VC h h' (a :: t) upd.
Proof.
  intros Ha C (L & H1 & H2). split; auto. split.
  - intros [|k] b w Hk Hb Cw; simpl in Hk; [inversion Hk; subst; congruence|eauto].
  - intros b w Hb Hor. apply H2; auto. destruct (Nat.eq_dec b a) as [->|Hne].
    + right. congruence.
    + simpl in Hor. tauto.
Qed.
Lemma updated_nil h upd : updated VC h h [] upd.
Proof. split; auto. split; auto. intros [|k]; discriminate. Qed.
Lemma updated_ext h h' vs u1 u2 : (forall k v, u1 k v = u2 k v) -> updated VC h h' vs u1 -> updated VC h h' vs u2.
Proof.
  intros He (L & H1 & H2). split; auto. split; auto. intros k a v Hk Ha C.
  destruct (H1 k a v Hk Ha C) as (v' & U & Hv). exists v'. rewrite <- He. auto.
Qed.

Lemma col_start_cons h a t k : col_start VC h (a :: t) (S k) = width VC h a + col_start VC h t k.
Proof. reflexivity. Qed.

Lemma width_lupd h a v v' b : nth_error h a = Some v -> vid VC v' = vid VC v /\ vsize VC v' = vsize VC v /\ vconst VC v' = vconst VC v ->
  width VC (lupd a v' h) b = width VC h b.
Proof.
  intros Ha (_ & S & C). unfold width. rewrite lupd_nth. destruct (Nat.eqb_spec a b); subst; simpl; auto.
  rewrite (proj2 (Nat.ltb_lt _ _)) by (apply nth_error_Some; congruence). rewrite Ha, S, C. auto.
Qed.
Lemma col_start_lupd h a v v' vs k : nth_error h a = Some v -> vid VC v' = vid VC v /\ vsize VC v' = vsize VC v /\ vconst VC v' = vconst VC v ->
  col_start VC (lupd a v' h) vs k = col_start VC h vs k.
Proof.
  intros Ha Hs. unfold col_start. do 2 f_equal. apply map_ext. intros b. eapply width_lupd; eauto.
Qed.
Lemma total_cols_lupd h a v v' vs : nth_error h a = Some v -> vid VC v' = vid VC v /\ vsize VC v' = vsize VC v /\ vconst VC v' = vconst VC v ->
  total_cols VC (lupd a v' h) vs = total_cols VC h vs.
Proof.
  intros Ha Hs. unfold total_cols. f_equal. apply map_ext. intros b. eapply width_lupd; eauto.
Qed.

Lemma set_loop_spec h vs off (x : list N) :
  Forall (fun a => a < length h) vs -> NoDup vs -> off + total_cols VC h vs <= length x ->
  (forall k a v, nth_error vs k = Some a -> nth_error h a = Some v -> vconst VC v = false ->
     exists v', vset VC v (slice (off + col_start VC h vs k) (vsize VC v) x) = Ok v') ->
  exists h', set_vector_loop VC h vs off x = (h', Ok tt) /\
    updated VC h h' vs (fun k v => vset VC v (slice (off + col_start VC h vs k) (vsize VC v) x)).
Proof.
  revert h off. induction vs as [|a t IH]; simpl; intros h off Hl ND Hle Hsucc.
  - exists h. split; auto. apply updated_nil.
  - inversion Hl as [|? ? Ha Hl']; subst. inversion ND as [|? ? Hnin ND']; subst. unfold hget.
    destruct (nth_error h a) as [v|] eqn:Ev; [|apply nth_error_None in Ev; lia].
    unfold total_cols in Hle. simpl in Hle. destruct (vconst VC v) eqn:C.
    + pose proof (width_const _ _ _ Ev C) as W. destruct (IH h off) as (h' & E & U); auto.
      * unfold total_cols. rewrite W in Hle. auto.
      * intros k b w Hk Hb Cw. destruct (Hsucc (S k) b w Hk Hb Cw) as [v' Hv'].
        rewrite col_start_cons, W in Hv'. eauto.
      * exists h'. split; auto. eapply updated_const; eauto. eapply updated_ext; [|exact U].
        intros k w. simpl. rewrite col_start_cons, W. auto.
    + pose proof (width_nonconst _ _ _ Ev C) as W. rewrite W in Hle.
      rewrite segment_slice by lia.
      destruct (Hsucc 0 a v eq_refl Ev C) as [v' Hv']. unfold col_start in Hv'. simpl in Hv'. rewrite Nat.add_0_r in Hv'.
      rewrite (hupd_ok h a _ v v' Ev Hv').
      pose proof (ok_set _ Hok _ _ _ Hv') as Hs.
      destruct (IH (lupd a v' h) (off + vsize VC v)) as (h' & E & U); auto.
      * eapply Forall_impl; [|exact Hl']. simpl. intros b. rewrite lupd_length. auto.
      * rewrite (total_cols_lupd _ _ _ _ _ Ev Hs). unfold total_cols. lia.
      * intros k b w Hk Hb Cw.
        assert (b <> a) by (intros ->; apply Hnin; eapply nth_error_In; eauto).
        rewrite lupd_nth_other in Hb by auto. rewrite (col_start_lupd _ _ _ _ _ _ Ev Hs).
        destruct (Hsucc (S k) b w Hk Hb Cw) as [w' Hw']. rewrite col_start_cons, W, Nat.add_assoc in Hw'. eauto.
      * exists h'. split; auto. eapply updated_cons; eauto.
        -- simpl. unfold col_start. simpl. rewrite Nat.add_0_r. exact Hv'.
        -- eapply updated_ext; [|exact U]. intros k w. simpl.
           rewrite (col_start_lupd _ _ _ _ _ _ Ev Hs), col_start_cons, W, Nat.add_assoc. auto.
Qed.

Lemma inc_loop_spec ck h0 h (g : graph) pre vs (dx : list N) :
  fin VC h0 g -> get_all_variables g = pre ++ vs -> length dx = num_values g ->
  hpres VC true h0 h ->
  (forall k a v, nth_error vs k = Some a -> nth_error h a = Some v -> vconst VC v = false ->
     exists v', vinc VC v (slice (col_start VC h0 (pre ++ vs) (length pre + k)) (vsize VC v) dx) = Ok v') ->
  exists h', inc_loop VC ck h g vs dx = (h', Ok tt) /\
    updated VC h h' vs (fun k v => vinc VC v (slice (col_start VC h0 (pre ++ vs) (length pre + k)) (vsize VC v) dx)).
Proof.
  intros Hf. revert h pre. induction vs as [|a t IH]; simpl; intros h pre Hvs Hdx Hp Hsucc.
  - exists h. split; auto. apply updated_nil.
  - assert (Hin : In a (get_all_variables g)) by (rewrite Hvs; apply in_or_app; simpl; auto).
    pose proof (ri_live _ _ _ (fin_reg _ _ _ Hf)) as Hlive. rewrite Forall_forall in Hlive.
    specialize (Hlive a Hin). destruct (nth_error h0 a) as [v0|] eqn:Ev0; [|apply nth_error_None in Ev0; lia].
    destruct (Hp _ _ Ev0) as (v & Ev & Hid & Hsz & Hcn). specialize (Hcn eq_refl).
    unfold hget. rewrite Ev.
    assert (Hnd : NoDup (pre ++ a :: t)) by (rewrite <- Hvs; eapply vars_nodup; eauto).
    assert (Hk : nth_error (get_all_variables g) (length pre) = Some a).
    { rewrite Hvs. rewrite nth_error_app2 by lia. rewrite Nat.sub_diag. auto. }
    assert (Hnin : ~ In a t).
    { apply NoDup_remove_2 in Hnd. intros X. apply Hnd. apply in_or_app; auto. }
    assert (Hvs' : get_all_variables g = (pre ++ [a]) ++ t) by (rewrite <- app_assoc; auto).
    assert (Hlen : forall k, length (pre ++ [a]) + k = length pre + S k) by (intros; rewrite app_length; simpl; lia).
    destruct (vconst VC v) eqn:C.
    + destruct (IH h (pre ++ [a])) as (h' & E & U); auto.
      * intros k b w Hkb Hb Cw. destruct (Hsucc (S k) b w Hkb Hb Cw) as [v' Hv'].
        rewrite <- app_assoc, Hlen. simpl. eauto.
      * exists h'. split; auto. eapply updated_const; eauto. eapply updated_ext; [|exact U].
        intros k w. simpl. rewrite <- app_assoc, Hlen. auto.
    + pose proof (fin_vplace VC h0 g (length pre) a Hf Hk) as Hpl. unfold idz in Hpl. rewrite Ev0, <- Hid in Hpl.
      rewrite Hpl. simpl. rewrite <- Hvs in *.
      assert (W : width VC h0 a = vsize VC v) by (rewrite (width_nonconst _ _ _ Ev0); congruence).
      assert (Hle : col_start VC h0 (get_all_variables g) (length pre) + width VC h0 a <= length dx).
      { rewrite Hdx. unfold num_values. rewrite (fin_lay _ _ _ Hf). apply col_start_le. auto. }
      rewrite (proj2 (Nat.leb_le _ _) Hle). simpl. rewrite andb_false_r.
      rewrite segment_slice by auto. rewrite W.
      destruct (Hsucc 0 a v eq_refl Ev C) as [v' Hv']. rewrite Nat.add_0_r in Hv'.
      rewrite (hupd_ok h a _ v v' Ev Hv').
      pose proof (ok_inc _ Hok _ _ _ Hv') as (I1 & I2 & I3).
      destruct (IH (lupd a v' h) (pre ++ [a])) as (h' & E & U); auto.
      * eapply hpres_trans; [exact Hp|]. intros b w Hb. rewrite lupd_nth.
        destruct (Nat.eqb_spec a b); subst; simpl.
        -- rewrite (proj2 (Nat.ltb_lt _ _)) by (apply nth_error_Some; congruence). exists v'. split; auto.
           replace w with v in * by congruence. unfold same_obj; auto.
        -- exists w. unfold same_obj; auto.
      * intros k b w Hkb Hb Cw.
        assert (b <> a) by (intros ->; apply Hnin; eapply nth_error_In; eauto).
        rewrite lupd_nth_other in Hb by auto.
        destruct (Hsucc (S k) b w Hkb Hb Cw) as [w' Hw']. rewrite <- Hvs', Hlen. eauto.
      * exists h'. split; auto. eapply updated_cons; eauto.
        -- simpl. rewrite Nat.add_0_r. exact Hv'.
        -- eapply updated_ext; [|exact U]. intros k w. simpl. rewrite <- Hvs', Hlen. auto.
Qed.

(** ** C11 *)
Lemma nonconst_at h vs k a v : Forall (fun a => a < length h) vs -> each_nonconst VC h vs (sized VC) ->
  nth_error vs k = Some a -> nth_error h a = Some v -> vconst VC v = false ->
  slice (col_start VC h vs k) (vsize VC v) (concat (map (vval VC) (nonconst VC h vs))) = vval VC v.
Proof.
  intros Hl. revert k. unfold nonconst. induction Hl as [|b t Hb Hl' IH]; intros [|k] Hs Hk Ha C; simpl in Hk; try discriminate.
  - inversion Hk; subst b. unfold slice, col_start. simpl. rewrite Ha, C. simpl.
    pose proof (Hs a v (or_introl eq_refl) Ha C) as Hsz. unfold sized in Hsz.
    rewrite <- Hsz. rewrite firstn_app, Nat.sub_diag, firstn_all. simpl. apply app_nil_r.
  - assert (Hs' : each_nonconst VC h t (sized VC)) by (intros c w Hc; apply Hs; simpl; auto).
    rewrite col_start_cons. simpl.
    destruct (nth_error h b) as [w|] eqn:Eb; [|apply nth_error_None in Eb; lia].
    destruct (vconst VC w) eqn:Cw.
    + rewrite (width_const _ _ _ Eb Cw). simpl. apply IH; auto.
    + rewrite (width_nonconst _ _ _ Eb Cw). simpl. etransitivity; [|exact (IH k Hs' Hk Ha C)].
      pose proof (Hs b w (or_introl eq_refl) Eb Cw) as Hsz. unfold sized in Hsz.
      unfold slice. rewrite <- Hsz. f_equal. rewrite skipn_app.
      rewrite skipn_all2 by lia. simpl. f_equal. lia.
Qed.

Lemma updated_same h h' vs : updated VC h h' vs (fun _ v => Ok v) -> Forall (fun a => a < length h) vs -> h' = h.
Proof.
  intros (L & H1 & H2) Hl. apply list_ext_nth. intros a.
  destruct (nth_error h a) as [v|] eqn:Ha.
  - destruct (vconst VC v) eqn:C; [apply H2; auto|].
    destruct (in_dec Nat.eq_dec a vs) as [Hin|Hn]; [|apply H2; auto].
    apply In_nth_error in Hin. destruct Hin as [k Hk]. destruct (H1 k a v Hk Ha C) as (v' & E & Hv'). inversion E; subst; auto.
  - apply nth_error_None. apply nth_error_None in Ha. lia.
Qed.

Lemma vector_round_trip l1 l2 h1 h (g1 g : graph) : finalized_history VC l1 l2 h1 h g1 g ->
  each_nonconst VC h (get_all_variables g) (sized VC) ->
  let x0 := concat (map (vval VC) (nonconst VC h (get_all_variables g))) in
  get_variable_vector VC h g = Ok x0 /\ length x0 = num_values g /\
  (each_nonconst VC h (get_all_variables g) (restores VC) ->
     set_variable_values_from_vector VC h g x0 = (h, Ok tt)) /\
  (each_nonconst VC h (get_all_variables g) (verbatim VC) -> forall x, length x = num_values g ->
     exists h', set_variable_values_from_vector VC h g x = (h', Ok tt) /\ get_variable_vector VC h' g = Ok x).
Proof.
  intros HF Hs x0. destruct (finalized_facts VC Hok _ _ _ _ _ _ HF) as (_ & Hf & _).
  pose proof (ri_live _ _ _ (fin_reg _ _ _ Hf)) as Hl.
  assert (Hn : num_values g = total_cols VC h (get_all_variables g)) by (unfold num_values; rewrite (fin_lay _ _ _ Hf); auto).
  assert (Hlen : length x0 = num_values g) by (rewrite Hn; apply nonconst_values_length; auto).
  split; [apply get_vector_spec; auto|]. split; [auto|]. split.
  - intros Hr. unfold set_variable_values_from_vector.
    assert (Hslice : forall k a v, nth_error (get_all_variables g) k = Some a -> nth_error h a = Some v -> vconst VC v = false ->
       vset VC v (slice (0 + col_start VC h (get_all_variables g) k) (vsize VC v) x0) = Ok v).
    { intros k a v Hk Ha C. simpl. unfold x0. rewrite (nonconst_at _ _ _ a); auto. apply (Hr a); auto. eapply nth_error_In; eauto. }
    destruct (set_loop_spec h (get_all_variables g) 0 x0) as (h' & E & U); auto.
    + eapply vars_nodup; eauto.
    + lia.
    + intros k a v Hk Ha C. exists v. eapply Hslice; eauto.
    + rewrite E. f_equal. apply (updated_same h h' (get_all_variables g)); auto.
      destruct U as (L & H1 & H2). split; auto. split; auto. intros k a v Hk Ha C.
      destruct (H1 k a v Hk Ha C) as (v' & E' & Hv'). rewrite (Hslice k a v Hk Ha C) in E'. eauto.
  - intros Hv x Hx. unfold set_variable_values_from_vector.
    pose proof Hn as Hn'. 
    assert (Hsl : forall k a v, nth_error (get_all_variables g) k = Some a -> nth_error h a = Some v -> vconst VC v = false ->
       length (slice (col_start VC h (get_all_variables g) k) (vsize VC v) x) = vsize VC v).
    { intros k a v Hk Ha C. unfold slice. rewrite firstn_length, skipn_length.
      pose proof (col_start_le VC h _ _ _ Hk). rewrite (width_nonconst _ _ _ Ha C) in H. lia. }
    destruct (set_loop_spec h (get_all_variables g) 0 x) as (h' & E & U); auto.
    + eapply vars_nodup; eauto.
    + simpl. lia.
    + intros k a v Hk Ha C. destruct (Hv a v (nth_error_In _ _ Hk) Ha C _ (Hsl k a v Hk Ha C)) as (v' & E' & _). eauto.
    + exists h'. split; auto.
      assert (HF' : fin VC h' g).
      { change h' with (fst (h', g)). change g with (snd (h', g)) at 2.
        eapply (step_fin VC Hok (Env (fun l => l) (fun n => [])) (h, g) (OSetVec x)); simpl; eauto.
        unfold set_variable_values_from_vector. rewrite E. reflexivity. }
      assert (Hpres : hpres VC true h h').
      { eapply (set_vector_pres VC Hok); exact E. }
      assert (Hval : forall k a v, nth_error (get_all_variables g) k = Some a -> nth_error h' a = Some v -> vconst VC v = false ->
         vval VC v = slice (col_start VC h (get_all_variables g) k) (vsize VC v) x /\ sized VC v).
      { intros k a v Hk Ha C. destruct (nth_error h a) as [w|] eqn:Hw.
        2:{ pose proof (nth_error_In _ _ Hk) as Hin. rewrite Forall_forall in Hl. apply Hl in Hin. apply nth_error_None in Hw. lia. }
        destruct (Hpres _ _ Hw) as (w' & Hw' & _ & S & Cw). replace w' with v in * by congruence. specialize (Cw eq_refl).
        destruct U as (_ & U1 & _). destruct (U1 k a w Hk Hw) as (v' & E' & Ev'); [congruence|].
        replace v' with v in * by congruence.
        assert (Cw' : vconst VC w = false) by congruence.
        destruct (Hv a w (nth_error_In _ _ Hk) Hw Cw' _ (Hsl k a w Hk Hw Cw')) as (v'' & E'' & Vv). simpl in E'.
        rewrite E'' in E'. inversion E'; subst v''. rewrite S. split; auto. unfold sized. rewrite Vv, S. apply (Hsl k a w); auto. }
      assert (Hs' : each_nonconst VC h' (get_all_variables g) (sized VC)).
      { intros a v Hin Ha C. apply In_nth_error in Hin. destruct Hin as [k Hk]. apply (Hval k a v); auto. }
      rewrite get_vector_spec; auto. f_equal.
      assert (Hcs : forall vs, Forall (fun a => a < length h) vs -> forall k, col_start VC h' vs k = col_start VC h vs k)
        by (intros; apply col_start_pres; auto).
      assert (Htc : total_cols VC h' (get_all_variables g) = total_cols VC h (get_all_variables g)) by (apply total_cols_pres; auto).
      pose proof (ri_live _ _ _ (fin_reg _ _ _ HF')) as Hl'.
      apply list_ext_nth. intros i.
      destruct (lt_dec i (num_values g)) as [Hi|Hi].
      2:{ rewrite (proj2 (nth_error_None _ _)); [symmetry; apply nth_error_None; lia|].
          rewrite nonconst_values_length by auto. rewrite Htc. lia. }
      rewrite Hn, <- Htc in Hi. destruct (psum_cover _ _ Hi) as (k & d & Hk & Hd).
      apply nth_error_map_some in Hk. destruct Hk as (a & Hk & ->).
      change (psum (map (width VC h') (get_all_variables g)) k) with (col_start VC h' (get_all_variables g) k) in Hd.
      assert (Hal : a < length h') by (rewrite Forall_forall in Hl'; apply Hl'; eapply nth_error_In; eauto).
      destruct (nth_error h' a) as [v|] eqn:Ha; [|apply nth_error_None in Ha; lia].
      destruct (vconst VC v) eqn:C; [rewrite (width_const _ _ _ Ha C) in Hd; lia|].
      rewrite (width_nonconst _ _ _ Ha C) in Hd.
      pose proof (nonconst_at h' _ k a v Hl' Hs' Hk Ha C) as S1. rewrite (proj1 (Hval k a v Hk Ha C)) in S1.
      rewrite Hcs in S1 by auto. unfold slice in S1. rewrite Hcs in Hd by auto.
      set (cs := col_start VC h (get_all_variables g) k) in *.
      assert (X : forall (y : list N), nth_error (firstn (vsize VC v) (skipn cs y)) (i - cs) = nth_error y i).
      { intros y. rewrite nth_error_firstn_lt by lia. rewrite nth_error_skipn_plus. f_equal. lia. }
      pose proof (f_equal (fun y => nth_error y (i - cs)) S1) as S2. cbv beta in S2.
      rewrite <- (X (concat _)), <- (X x). exact S2.
Qed.

(** ** C12 *)
Lemma apply_increment_spec l1 l2 h1 h (g1 g : graph) : finalized_history VC l1 l2 h1 h g1 g -> forall dx,
  (length dx <> num_values g -> exists e, apply_increment VC h g dx = (h, Throw e)) /\
  (length dx = num_values g ->
   (forall k a v, nth_error (get_all_variables g) k = Some a -> nth_error h a = Some v -> vconst VC v = false ->
      exists v', vinc VC v (slice (col_start VC h (get_all_variables g) k) (vsize VC v) dx) = Ok v') ->
   exists h', apply_increment VC h g dx = (h', Ok tt) /\
     updated VC h h' (get_all_variables g) (fun k v => vinc VC v (slice (col_start VC h (get_all_variables g) k) (vsize VC v) dx))).
Proof.
  intros HF dx. destruct (finalized_facts VC Hok _ _ _ _ _ _ HF) as (_ & Hf & _).
  assert (Hfin : negb (ly_final (g_lay g)) = false) by (rewrite (fin_lay _ _ _ Hf); auto).
  unfold apply_increment. rewrite Hfin. split.
  - intros Hd. destruct (Nat.eqb_spec (length dx) (num_values g)); [contradiction|]. simpl. eauto.
  - intros Hd Hs. rewrite (proj2 (Nat.eqb_eq _ _) Hd). simpl.
    destruct (inc_loop_spec true h h g [] (get_all_variables g) dx) as (h' & E & U); auto.
    + apply hpres_refl.
    + exists h'. split; auto.
Qed.

(** ** C13, graph operations *)
Lemma const_kept_refl h : const_kept VC h h. Proof. intros a v; auto. Qed.
Lemma const_kept_trans h1 h2 h3 : const_kept VC h1 h2 -> const_kept VC h2 h3 -> const_kept VC h1 h3.
Proof. intros A B a v Ha C. apply B; auto. Qed.
Lemma hupd_const (h : @heap V) a f v h' r : nth_error h a = Some v -> vconst VC v = false -> hupd h a f = (h', r) -> const_kept VC h h'.
Proof.
  unfold hupd, hget. intros Ha C. rewrite Ha. destruct (f v); intros E; inversion E; subst; try apply const_kept_refl.
  intros b w Hb Cw. rewrite lupd_nth_other; auto. intros ->. congruence.
Qed.
Lemma set_loop_const h vs off x h' r : set_vector_loop VC h vs off x = (h', r) -> const_kept VC h h'.
Proof.
  revert h off. induction vs as [|a t IH]; simpl; intros h off E; [inversion E; apply const_kept_refl|].
  unfold hget in E. destruct (nth_error h a) as [v|] eqn:Ha; [|inversion E; apply const_kept_refl].
  destruct (vconst VC v) eqn:C; [eauto|].
  destruct (segment off (vsize VC v) x) as [s| |]; try (inversion E; subst; apply const_kept_refl).
  destruct (hupd h a _) as [h2 [u|e|u]] eqn:U; pose proof (hupd_const _ _ _ _ _ _ Ha C U) as K.
  - eapply const_kept_trans; eauto.
  - inversion E; subst; auto.
  - inversion E; subst; auto.
Qed.
Lemma inc_loop_const ck h (g : graph) vs dx h' r : inc_loop VC ck h g vs dx = (h', r) -> const_kept VC h h'.
Proof.
  revert h. induction vs as [|a t IH]; simpl; intros h E; [inversion E; apply const_kept_refl|].
  unfold hget in E. destruct (nth_error h a) as [v|] eqn:Ha; [|inversion E; apply const_kept_refl].
  destruct (vconst VC v) eqn:C; [eauto|].
  destruct (variable_placement g (vid VC v)) as [p|]; [|eauto].
  destruct (ck && _); [inversion E; subst; apply const_kept_refl|].
  destruct (segment _ _ dx) as [s| |]; try (inversion E; subst; apply const_kept_refl).
  destruct (hupd h a _) as [h2 [u|e|u]] eqn:U; pose proof (hupd_const _ _ _ _ _ _ Ha C U) as K.
  - eapply const_kept_trans; eauto.
  - inversion E; subst; auto.
  - inversion E; subst; auto.
Qed.
Lemma graph_op_const E h (g : graph) o : graph_op o -> const_kept VC h (fst (fst (step VC E (h, g) o))).
Proof.
  intros Ho. destruct o; simpl in *; try contradiction;
  repeat match goal with
    | |- context [let '(_, _) := ?t in _] => destruct t eqn:?
    end; simpl; try apply const_kept_refl.
  - eapply set_loop_const; eauto.
  - unfold apply_increment in Heqp. destruct (negb _); [inversion Heqp; apply const_kept_refl|].
    destruct (negb _); [inversion Heqp; apply const_kept_refl|]. eapply inc_loop_const; eauto.
Qed.
Lemma graph_ops_const l s : Forall (fun eo : env * op => graph_op (snd eo)) l -> const_kept VC (fst s) (fst (run VC s l)).
Proof.
  revert s. induction l as [|[E o] t IH]; simpl; intros s Hl; [apply const_kept_refl|].
  inversion Hl; subst. eapply const_kept_trans; [|apply IH; auto]. destruct s as [h g]. apply (graph_op_const E h g o). auto.
Qed.
End Vec.
