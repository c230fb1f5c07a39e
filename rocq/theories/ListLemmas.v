(** General list lemmas. *)
From Coq Require Import List Arith ZArith Bool Lia Permutation.
From Verif Require Import Base.
Import ListNotations.

Lemma lupd_length {A} i (x : A) l : length (lupd i x l) = length l.
Proof. revert i; induction l; destruct i; simpl; auto. Qed.

Lemma lupd_nth_same {A} i (x : A) l : i < length l -> nth_error (lupd i x l) i = Some x.
Proof. revert i; induction l; destruct i; simpl; intros; try lia; auto. apply IHl; lia. Qed.

Lemma lupd_nth_other {A} i j (x : A) l : i <> j -> nth_error (lupd i x l) j = nth_error l j.
Proof. revert i j; induction l; destruct i, j; simpl; intros; try congruence; auto. Qed.

Lemma lupd_nth {A} i j (x : A) l :
  nth_error (lupd i x l) j = if (i =? j) && (i <? length l) then Some x else nth_error l j.
Proof.
  destruct (Nat.eqb_spec i j) as [->|Hn]; simpl.
  - destruct (Nat.ltb_spec j (length l)).
    + apply lupd_nth_same; auto.
    + rewrite (proj2 (nth_error_None _ _)) by (rewrite lupd_length; lia).
      symmetry. apply nth_error_None; lia.
  - apply lupd_nth_other; auto.
Qed.

Lemma lupd_id {A} i (x : A) l : nth_error l i = Some x -> lupd i x l = l.
Proof. revert i; induction l; destruct i; simpl; intros; try congruence. f_equal; auto. Qed.

Lemma lupd_overflow {A} i (x : A) l : length l <= i -> lupd i x l = l.
Proof. revert i; induction l; destruct i; simpl; intros; auto; try lia. f_equal. apply IHl; lia. Qed.

Lemma list_ext_nth {A} (l1 l2 : list A) :
  (forall i, nth_error l1 i = nth_error l2 i) -> l1 = l2.
Proof.
  revert l2; induction l1; destruct l2; intros H; auto.
  - specialize (H 0); discriminate.
  - specialize (H 0); discriminate.
  - f_equal. { specialize (H 0); simpl in H; congruence. }
    apply IHl1. intro i. apply (H (S i)).
Qed.

Lemma nth_error_map_some {A B} (f : A -> B) l i y :
  nth_error (map f l) i = Some y -> exists x, nth_error l i = Some x /\ y = f x.
Proof.
  revert i; induction l; destruct i; simpl; intros; try congruence.
  - inversion H; eauto.
  - eauto.
Qed.

Lemma alookup_app {K A} (eqb : K -> K -> bool) k (l1 l2 : list (K * A)) :
  alookup eqb k (l1 ++ l2) = match alookup eqb k l1 with Some x => Some x | None => alookup eqb k l2 end.
Proof. induction l1 as [|[k' a'] t IH]; simpl; auto. destruct (eqb k k'); auto. Qed.

Section Keys.
Context {K A : Type} (eqb : K -> K -> bool).
Hypothesis eqb_spec : forall a b, reflect (a = b) (eqb a b).

Lemma alookup_none k (l : list (K * A)) : alookup eqb k l = None <-> ~ In k (map fst l).
Proof.
  induction l as [|[k' a'] t IH]; simpl; [tauto|].
  destruct (eqb_spec k k'); subst.
  - split; [discriminate| intros H; exfalso; apply H; auto].
  - rewrite IH. split; intros H; [intros [E|E]; [congruence|tauto]|tauto].
Qed.

Lemma alookup_in k a (l : list (K * A)) : alookup eqb k l = Some a -> In (k, a) l.
Proof.
  induction l as [|[k' a'] t IH]; simpl; [discriminate|].
  destruct (eqb_spec k k'); subst; intros H; [left; congruence|right; auto].
Qed.

Lemma alookup_nodup k a (l : list (K * A)) :
  NoDup (map fst l) -> In (k, a) l -> alookup eqb k l = Some a.
Proof.
  induction l as [|[k' a'] t IH]; simpl; [tauto|]. intros ND [H|H].
  - inversion H; subst. destruct (eqb_spec k k); congruence.
  - inversion ND; subst. destruct (eqb_spec k k'); subst.
    + exfalso. apply H2. apply in_map_iff. exists (k', a); auto.
    + auto.
Qed.

Lemma aset_fresh k a (l : list (K * A)) :
  alookup eqb k l = None -> aset eqb k a l = l ++ [(k, a)].
Proof.
  unfold aset. intros H. f_equal. induction l as [|[k' a'] t IH]; simpl in *; auto.
  destruct (eqb k k'); [discriminate|]. simpl. f_equal. auto.
Qed.
End Keys.

Lemma list_sum_app' l1 l2 : list_sum (l1 ++ l2) = list_sum l1 + list_sum l2.
Proof. apply list_sum_app. Qed.

Lemma firstn_S_nth {A} k (l : list A) x : nth_error l k = Some x -> firstn (S k) l = firstn k l ++ [x].
Proof.
  revert k; induction l; destruct k; simpl; intros H; try discriminate.
  - inversion H; reflexivity.
  - f_equal. apply IHl; auto.
Qed.

Lemma nth_error_skipn_plus {A} (l : list A) a b : nth_error (skipn a l) b = nth_error l (a + b).
Proof.
  revert a; induction l; intros [|a0]; simpl; auto. destruct b; auto.
Qed.

Lemma nth_error_firstn_lt {A} (l : list A) a b : b < a -> nth_error (firstn a l) b = nth_error l b.
Proof.
  revert a b; induction l as [|x l IH]; intros [|a] [|b]; simpl; intros; try lia; auto. apply IH; lia.
Qed.

Lemma skipn_nth_cons {A} k (l : list A) x : nth_error l k = Some x -> skipn k l = x :: skipn (S k) l.
Proof.
  revert k; induction l; destruct k; simpl; intros H; try discriminate.
  - inversion H; reflexivity.
  - rewrite (IHl _ H). destruct l; reflexivity.
Qed.

Lemma nth_error_combine {A B} (l1 : list A) (l2 : list B) i a b :
  nth_error l1 i = Some a -> nth_error l2 i = Some b -> nth_error (combine l1 l2) i = Some (a, b).
Proof.
  revert l2 i; induction l1; destruct l2, i; simpl; intros; try congruence. auto.
Qed.

Lemma NoDup_nth_inj {A} (l : list A) i j x :
  NoDup l -> nth_error l i = Some x -> nth_error l j = Some x -> i = j.
Proof.
  intros ND Hi Hj. rewrite NoDup_nth_error in ND. apply ND.
  - apply nth_error_Some. congruence.
  - congruence.
Qed.

Lemma Forall2_nth {A B} (P : A -> B -> Prop) l1 l2 :
  Forall2 P l1 l2 <-> length l1 = length l2 /\ (forall i a b, nth_error l1 i = Some a -> nth_error l2 i = Some b -> P a b).
Proof.
  split.
  - induction 1; simpl.
    + split; auto. intros [|i]; discriminate.
    + destruct IHForall2 as [Hl Hi]. split; [lia|]. intros [|i] a b; simpl; intros; [congruence|eauto].
  - revert l2; induction l1; destruct l2; simpl; intros [Hl Hi]; try discriminate; constructor.
    + apply (Hi 0); reflexivity.
    + apply IHl1. split; [lia|]. intros i a' b' H1 H2. apply (Hi (S i)); auto.
Qed.

Lemma nth_error_seq a n i : nth_error (seq a n) i = if i <? n then Some (a + i) else None.
Proof.
  revert a i; induction n; intros a i; simpl.
  - destruct i; reflexivity.
  - destruct i; simpl; [f_equal; lia|]. rewrite IHn.
    change (S i <? S n) with (i <? n). destruct (i <? n); auto. f_equal; lia.
Qed.

Lemma nth_error_repeat' {A} (x : A) n i : nth_error (repeat x n) i = if i <? n then Some x else None.
Proof.
  revert i; induction n; destruct i; simpl; auto. rewrite IHn. reflexivity.
Qed.

(** tiling: offsets given by prefix sums cover an interval and are disjoint *)
Definition psum (l : list nat) (k : nat) : nat := list_sum (firstn k l).

Lemma psum_S l k d : nth_error l k = Some d -> psum l (S k) = psum l k + d.
Proof. intros H. unfold psum. rewrite (firstn_S_nth _ _ _ H), list_sum_app. simpl. lia. Qed.

Lemma psum_all l k : length l <= k -> psum l k = list_sum l.
Proof. intros H. unfold psum. rewrite firstn_all2; auto. Qed.

Lemma psum_mono l k k' : k <= k' -> psum l k <= psum l k'.
Proof.
  unfold psum. revert k k'. induction l; intros k k' H.
  - rewrite !firstn_nil. auto.
  - destruct k, k'; simpl; try lia. specialize (IHl k k'). lia.
Qed.

Lemma psum_le_total l k d : nth_error l k = Some d -> psum l k + d <= list_sum l.
Proof.
  intros H. rewrite <- (psum_S _ _ _ H), <- (psum_all l (length l)) by auto.
  apply psum_mono. assert (k < length l) by (apply nth_error_Some; congruence). lia.
Qed.

Lemma psum_disjoint l k k' d d' i :
  nth_error l k = Some d -> nth_error l k' = Some d' ->
  psum l k <= i < psum l k + d -> psum l k' <= i < psum l k' + d' -> k = k'.
Proof.
  intros H H' Hi Hi'.
  destruct (lt_eq_lt_dec k k') as [[Hlt|E]|Hlt]; auto; exfalso.
  - pose proof (psum_mono l (S k) k' Hlt). rewrite (psum_S _ _ _ H) in *. lia.
  - pose proof (psum_mono l (S k') k Hlt). rewrite (psum_S _ _ _ H') in *. lia.
Qed.

Lemma psum_cover l i : i < list_sum l -> exists k d, nth_error l k = Some d /\ psum l k <= i < psum l k + d.
Proof.
  revert i. induction l as [|d l IH]; simpl; intros i H; [lia|].
  destruct (lt_dec i d).
  - exists 0, d. unfold psum; simpl. split; auto. lia.
  - destruct (IH (i - d)) as (k & d' & Hk & Hi); [lia|].
    exists (S k), d'. split; auto. unfold psum in *; simpl. lia.
Qed.

Lemma concat_length_sum {A} (l : list (list A)) : length (concat l) = list_sum (map (@length A) l).
Proof. induction l; simpl; auto. rewrite app_length; lia. Qed.

Lemma concat_nth {A} (l : list (list A)) k s i :
  nth_error l k = Some s -> i < length s ->
  nth_error (concat l) (psum (map (@length A) l) k + i) = nth_error s i.
Proof.
  revert k. induction l; destruct k; simpl; intros Hs Hi; try discriminate.
  - inversion Hs; subst. unfold psum; simpl. rewrite nth_error_app1; auto.
  - rewrite nth_error_app2 by (unfold psum; simpl; lia).
    rewrite <- (IHl _ Hs Hi). f_equal. unfold psum; simpl. lia.
Qed.

Lemma skipn_skipn' {A} (l : list A) a b : skipn a (skipn b l) = skipn (b + a) l.
Proof. revert b; induction l; intros [|b]; simpl; auto. destruct a; reflexivity. Qed.
