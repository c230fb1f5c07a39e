(** Proofs for PropsNumJac: the numerical Jacobian. *)
From Coq Require Import List Arith ZArith QArith Bool Reals Lra Lia.
From Verif Require Import Base Sparse Graph SpecGraph SpecOpt ListLemmas Real RSum SpecSolver NumJac SpecTools.
Import ListNotations.
Set Bullet Behavior "Strict Subproofs".
Local Open Scope nat_scope.

Section Any.
Context {N : num} {V : Type} (VC : vclass N V).
Notation heap := (@heap V).
Notation factor := (factor (N:=N) (V:=V)).

Lemma hthen_ok {A B} (x : heap * outcome A) (k : heap -> A -> heap * outcome B) h b :
  hthen x k = (h, Ok b) -> exists h1 a, x = (h1, Ok a) /\ k h1 a = (h, Ok b).
Proof. unfold hthen. destruct x as [h1 [a|e|u]]; intros H; try discriminate. eauto. Qed.
Lemma hupd_ok (h : heap) a f h' : hupd h a f = (h', Ok tt) -> exists v v', nth_error h a = Some v /\ f v = Ok v' /\ h' = lupd a v' h.
Proof.
  unfold hupd, hget. destruct (nth_error h a) as [v|] eqn:E; [|discriminate]. destruct (f v) as [v'|e|u] eqn:F; intros H; inversion H; subst. eauto.
Qed.
Lemma lupd_lupd {A} i (x y : A) l : lupd i x (lupd i y l) = lupd i x l.
Proof. revert i. induction l; intros [|i]; simpl; auto. rewrite IHl. reflexivity. Qed.
Lemma lt_of_nth {A} (l : list A) i x : nth_error l i = Some x -> i < length l.
Proof. intros H. apply nth_error_Some. congruence. Qed.

Lemma probe_along n k (eps : N) : along n k eps (probe n k eps).
Proof.
  unfold along, probe. rewrite map_length, seq_length. split; auto. intros i Hi. rewrite nth_error_map, nth_error_seq.
  rewrite (proj2 (Nat.ltb_lt _ _)) by auto. reflexivity.
Qed.
Lemma nth_quot (rp rm : list N) (d : N) i : i < length rp -> length rp = length rm ->
  nth i (map (fun x => ndiv x d) (vsub rp rm)) nzero = ndiv (nsub (nth i rp nzero) (nth i rm nzero)) d.
Proof.
  revert rm i. induction rp as [|x rp IH]; intros [|y rm] i Hi L; simpl in *; try lia. destruct i; [reflexivity|]. apply IH; lia.
Qed.
Definition column_of (f : factor) (h : heap) a v n eps k (c : list N) : Prop :=
  exists dx vp vm rp rm, along n k eps dx /\ vinc VC v dx = Ok vp /\ vinc VC v (map nneg dx) = Ok vm /\
    f_res f (lupd a vp h) = Ok rp /\ f_res f (lupd a vm h) = Ok rm /\ length rp = f_rsize f /\ length rm = f_rsize f /\
    forall i, i < f_rsize f -> nth i c nzero = ndiv (nsub (nth i rp nzero) (nth i rm nzero)) (nmul (nlit 2%Q) eps).
Lemma num_col_ok f a n eps k (h h' : heap) v c : nth_error h a = Some v -> returns VC v -> num_col VC f a n eps k h = (h', Ok c) ->
  h' = h /\ column_of f h a v n eps k c.
Proof.
  intros Ha R H. unfold num_col in H. apply hthen_ok in H. destruct H as (h0 & v0 & E0 & H). unfold hget in E0. rewrite Ha in E0. inversion E0; subst h0 v0. clear E0.
  pose proof (lt_of_nth _ _ _ Ha) as La.
  apply hthen_ok in H. destruct H as (h1 & [] & E1 & H). apply hupd_ok in E1. destruct E1 as (v1 & vp & A1 & I1 & ->). assert (v1 = v) by congruence. subst v1.
  apply hthen_ok in H. destruct H as (h2 & rp & E2 & H). inversion E2 as [[E2a E2b]]. subst h2. clear E2.
  apply hthen_ok in H. destruct H as (h3 & [] & E3 & H). apply hupd_ok in E3. destruct E3 as (v3 & v3' & A3 & I3 & ->). rewrite lupd_nth_same in A3 by auto. inversion A3; subst v3. clear A3.
  rewrite (R _ _ I1) in I3. inversion I3; subst v3'. clear I3. rewrite lupd_lupd, (lupd_id _ _ _ Ha) in H.
  apply hthen_ok in H. destruct H as (h4 & [] & E4 & H). apply hupd_ok in E4. destruct E4 as (v4 & vm & A4 & I4 & ->). assert (v4 = v) by congruence. subst v4.
  apply hthen_ok in H. destruct H as (h5 & rm & E5 & H). inversion E5 as [[E5a E5b]]. subst h5. clear E5.
  apply hthen_ok in H. destruct H as (h6 & [] & E6 & H). apply hupd_ok in E6. destruct E6 as (v6 & v6' & A6 & I6 & ->). rewrite lupd_nth_same in A6 by auto. inversion A6; subst v6. clear A6.
  rewrite (R _ _ I4) in I6. inversion I6; subst v6'. clear I6. rewrite lupd_lupd, (lupd_id _ _ _ Ha) in H.
  destruct ((length rp =? length rm) && (length rp =? f_rsize f))%bool eqn:L; [|discriminate]. apply andb_prop in L. destruct L as (L1 & L2). apply Nat.eqb_eq in L1, L2.
  inversion H; subst. split; auto. exists (probe n k eps), vp, vm, rp, rm. split; [apply probe_along|]. repeat (split; [solve [auto | congruence]|]).
  intros i Hi. apply nth_quot; congruence.
Qed.
Lemma num_cols_ok f a n eps ks : forall (h h' : heap) v cs, nth_error h a = Some v -> returns VC v -> num_cols VC f a n eps ks h = (h', Ok cs) ->
  h' = h /\ Forall2 (column_of f h a v n eps) ks cs.
Proof.
  induction ks as [|k ks IH]; intros h h' v cs Ha R H; cbn [num_cols] in H; [inversion H; subst; split; auto|].
  apply hthen_ok in H. destruct H as (h1 & c & E1 & H). destruct (num_col_ok _ _ _ _ _ _ _ _ _ Ha R E1) as (-> & C).
  apply hthen_ok in H. destruct H as (h2 & cs' & E2 & H). destruct (IH _ _ _ _ Ha R E2) as (-> & Cs). inversion H; subst. split; auto.
Qed.
Lemma num_vars_ok f eps vars : forall (h h' : heap) Js, (forall a v, In (Some a) vars -> nth_error h a = Some v -> vconst VC v = false -> returns VC v) ->
  num_vars VC f eps vars h = (h', Ok Js) -> h' = h /\ length Js = length vars /\
  forall q p J, nth_error vars q = Some p -> nth_error Js q = Some J -> exists a v, p = Some a /\ nth_error h a = Some v /\
    if vconst VC v then mrows J = 0 /\ mcols J = 0
    else mrows J = f_rsize f /\ mcols J = vsize VC v /\ forall k, k < vsize VC v -> difference_column VC f h a v eps J k.
Proof.
  induction vars as [|[a|] vars IH]; intros h h' Js R H; cbn [num_vars] in H.
  - inversion H; subst. split; auto. split; auto. intros [|q]; discriminate.
  - apply hthen_ok in H. destruct H as (h0 & v & E0 & H). unfold hget in E0. destruct (nth_error h a) as [v0|] eqn:Ha; inversion E0; subst h0 v0. clear E0.
    apply hthen_ok in H. destruct H as (h1 & J & E1 & H).
    assert (K : h1 = h /\ if vconst VC v then mrows J = 0 /\ mcols J = 0
      else mrows J = f_rsize f /\ mcols J = vsize VC v /\ forall k, k < vsize VC v -> difference_column VC f h a v eps J k).
    { destruct (vconst VC v) eqn:Ec; [inversion E1; subst; simpl; auto|]. apply hthen_ok in E1. destruct E1 as (h2 & cols & E2 & E1).
      destruct (num_cols_ok _ _ _ _ _ _ _ _ _ Ha (R a v (or_introl eq_refl) Ha Ec) E2) as (-> & F). inversion E1; subst. split; auto. simpl. split; auto. split; auto.
      intros k Hk. apply Forall2_nth in F. destruct F as (FL & F). rewrite seq_length in FL.
      destruct (nth_error cols k) as [c|] eqn:Hc; [|apply nth_error_None in Hc; lia].
      assert (Hs : nth_error (seq 0 (vsize VC v)) k = Some k). { rewrite nth_error_seq. rewrite (proj2 (Nat.ltb_lt _ _)) by auto. reflexivity. }
      destruct (F _ _ _ Hs Hc) as (dx & vp & vm & rp & rm & A). exists dx, vp, vm, rp, rm. destruct A as (A1 & A2 & A3 & A4 & A5 & A6 & A7 & A8).
      repeat (split; [assumption|]). intros i Hi. simpl. rewrite (nth_error_nth _ _ _ Hc). auto. }
    destruct K as (-> & K). apply hthen_ok in H. destruct H as (h2 & Js' & E2 & H).
    destruct (IH h h2 Js') as (-> & L & Q); auto. { intros b w Hb. apply R. right. exact Hb. }
    inversion H; subst. split; auto. split; [simpl; auto|]. intros [|q] p J' Hp HJ; simpl in Hp, HJ; [|eauto].
    inversion Hp; inversion HJ; subst. exists a, v. auto.
  - discriminate.
Qed.
Lemma num_jac_ok f eps (h h' : heap) Js : each_variable VC f h (returns VC) -> num_jac VC f eps h = (h', Ok Js) ->
  h' = h /\ difference_quotients VC f h eps Js.
Proof.
  intros R H. unfold num_jac in H. apply hthen_ok in H. destruct H as (h1 & r & E & H). inversion E; subst. apply num_vars_ok in H; auto.
Qed.

(** converse: the columns that can be computed are computed *)
Lemma hupd_some (h : heap) a f v v' : nth_error h a = Some v -> f v = Ok v' -> hupd h a f = (lupd a v' h, Ok tt).
Proof. intros H E. unfold hupd, hget. rewrite H, E. reflexivity. Qed.
Lemma num_col_runs f a n eps k (h : heap) v vp vm rp rm : nth_error h a = Some v -> returns VC v ->
  vinc VC v (probe n k eps) = Ok vp -> vinc VC v (vneg (probe n k eps)) = Ok vm -> f_res f (lupd a vp h) = Ok rp -> f_res f (lupd a vm h) = Ok rm ->
  length rp = f_rsize f -> length rm = f_rsize f -> num_col VC f a n eps k h = (h, Ok (map (fun d => ndiv d (nmul (nlit 2%Q) eps)) (vsub rp rm))).
Proof.
  intros Ha R Ip Im Fp Fm Lp Lm. pose proof (lt_of_nth _ _ _ Ha) as La. unfold num_col, hget. rewrite Ha. cbn [hthen].
  rewrite (hupd_some h a _ v vp) by auto. cbn [hthen]. rewrite Fp. cbn [hthen].
  rewrite (hupd_some (lupd a vp h) a _ vp v) by (try apply lupd_nth_same; auto; eapply R; eauto). rewrite lupd_lupd, (lupd_id _ _ _ Ha). cbn [hthen].
  rewrite (hupd_some h a _ v vm) by auto. cbn [hthen]. rewrite Fm. cbn [hthen].
  rewrite (hupd_some (lupd a vm h) a _ vm v) by (try apply lupd_nth_same; auto; eapply R; eauto). rewrite lupd_lupd, (lupd_id _ _ _ Ha). cbn [hthen].
  rewrite Lp, Lm, !Nat.eqb_refl. reflexivity.
Qed.
Lemma num_cols_runs f a n eps ks (h : heap) : (forall k, In k ks -> exists c, num_col VC f a n eps k h = (h, Ok c)) ->
  exists cs, num_cols VC f a n eps ks h = (h, Ok cs).
Proof.
  induction ks as [|k ks IH]; intros H; cbn [num_cols num_vars]; [eauto|]. destruct (H k (or_introl eq_refl)) as (c & ->). cbn [hthen].
  destruct IH as (cs & ->); [intros; apply H; right; auto|]. cbn [hthen]. eauto.
Qed.
Lemma num_vars_runs f eps vars (h : heap) :
  (forall p, In p vars -> exists a v, p = Some a /\ nth_error h a = Some v /\ (vconst VC v = false -> forall k, k < vsize VC v -> exists c, num_col VC f a (vsize VC v) eps k h = (h, Ok c))) ->
  exists Js, num_vars VC f eps vars h = (h, Ok Js).
Proof.
  induction vars as [|p vars IH]; intros H; cbn [num_cols num_vars]; [eauto|]. destruct (H p (or_introl eq_refl)) as (a & v & -> & Ha & K).
  destruct IH as (Js & E); [intros; apply H; right; auto|]. unfold hget. rewrite Ha. cbn [hthen]. destruct (vconst VC v) eqn:Ec.
  - cbn [hthen]. rewrite E. cbn [hthen]. eauto.
  - destruct (num_cols_runs f a (vsize VC v) eps (seq 0 (vsize VC v)) h) as (cs & ->).
    { intros k Hk. apply in_seq in Hk. apply K; auto. lia. }
    cbn [hthen]. rewrite E. cbn [hthen]. eauto.
Qed.
End Any.
