(** The inverse range over IEEE doubles. *)
From Coq Require Import List Arith ZArith QArith Bool Lia Reals Lra.
From Flocq Require Import Core.
From Flocq.IEEE754 Require Import BinarySingleNaN.
From Verif Require Import Base Sparse Graph Geom Vars VarOps VarsLemmas Float.
Import ListNotations.

Definition blo : b64 := b_of_Q (1#1000000).
Definition bhi : b64 := b_of_Q 1000.
Definition not_nan (x : b64) : Prop := x <> B754_nan.
(** [r] is finite and between the two limits *)
Definition between_limits (r : b64) : Prop := is_finite r = true /\ Bltb r blo = false /\ Bltb bhi r = false.

Lemma lims : is_finite blo = true /\ is_finite bhi = true /\ Bltb bhi blo = false.
Proof. repeat split; vm_compute; reflexivity. Qed.
Lemma not_lt_self (x : b64) : Bltb x x = false.
Proof.
  destruct (Bltb x x) eqn:E; auto. apply Bltb_spec in E. destruct E as (a & b & A & B & H). assert (a = b) by congruence. subst. destruct H as [H|(_ & _ & H)]; [lia|lra].
Qed.
Lemma bclip L (x : b64) : not_nan x -> between_limits (clip (N:=BN L) blo bhi x).
Proof.
  intros Hx. unfold clip, nmin, nmax. change (@nltb (BN L)) with (@Bltb 53 1024). destruct lims as (F1 & F2 & F3). unfold between_limits.
  destruct (Bltb x blo) eqn:E1.
  - rewrite F3. split; [exact F1|]. split; [apply not_lt_self|exact F3].
  - destruct (Bltb bhi x) eqn:E2.
    + split; [exact F2|]. split; [|apply not_lt_self]. exact F3.
    + split; [|auto]. destruct x as [s|s| |s m e B]; try reflexivity; [|exfalso; apply Hx; reflexivity].
      exfalso. destruct s.
      * assert (C : Bltb (B754_infinity true) blo = true) by (vm_compute; reflexivity). rewrite C in E1. discriminate.
      * assert (C : Bltb bhi (B754_infinity false) = true) by (vm_compute; reflexivity). rewrite C in E2. discriminate.
Qed.
Lemma badd_not_nan (x y : b64) : is_finite x = true -> not_nan y -> not_nan (badd x y).
Proof.
  intros Fx Hy. destruct (is_finite y) eqn:Fy.
  - pose proof (@Bplus_correct 53 1024 P53 PE mode_NE x y Fx Fy) as C. fold badd in C.
    destruct (Rlt_bool _ _) in C.
    + destruct C as (_ & C & _). intros E. rewrite E in C. discriminate.
    + destruct C as [C _]. intros E. rewrite E in C. unfold binary_overflow in C. simpl in C. discriminate.
  - destruct y as [s|s| |s m e B]; try discriminate; [|exfalso; apply Hy; reflexivity].
    destruct x as [s'|s'| |s' m' e' B']; try discriminate; intros E; discriminate E.
Qed.

Lemma recip_not_nan (x : b64) : not_nan x -> not_nan (bdiv (b_of_Q 1) x).
Proof.
  intros Hx. assert (E1 : B2SF (b_of_Q 1) = SpecFloat.S754_finite false 4503599627370496 (-52)) by (vm_compute; reflexivity).
  remember (b_of_Q 1) as one. destruct one as [s|s| |s m e B]; try discriminate. clear Heqone.
  destruct x as [s'|s'| |s' m' e' B']; try (intros E; discriminate E); [exfalso; apply Hx; reflexivity|].
  pose proof (@Bdiv_correct 53 1024 P53 PE mode_NE (B754_finite s m e B) (B754_finite s' m' e' B')) as C. fold bdiv in C.
  assert (Z : B2R (B754_finite s' m' e' B' : b64) <> 0%R).
  { simpl. intros Z. apply eq_0_F2R in Z. destruct s'; discriminate. }
  specialize (C Z). destruct (Rlt_bool _ _) in C.
  - destruct C as (_ & C & _). intros E. rewrite E in C. discriminate.
  - intros E. rewrite E in C. unfold binary_overflow in C. simpl in C. discriminate.
Qed.

(** the numbers a call passes are not NaN *)
Definition call_numbers {L} (o : vop (BN L)) : Prop :=
  match o with OSet x | OInc x => Forall not_nan x | _ => True end.

Section Run.
Context (L : libm).
Definition is_inv_b (o b : v3 (BN L)) (v : lvar (BN L)) : Prop :=
  exists (r : b64) (t : list b64), l_kind v = KInv (N:=BN L) o b blo bhi (r :: t) /\ between_limits r.
Lemma inv_call_b o b (v : lvar (BN L)) op : call_numbers op -> is_inv_b o b v -> forall v', vcall v op = Ok v' -> is_inv_b o b v'.
Proof.
  intros Hop (r & t & Ek & B) v' H. destruct v as [i c kd]. cbn [l_kind] in Ek. subst kd.
  destruct op; cbn [vcall] in H; try (apply (f_equal (fun o => match o with Ok a => a | _ => v' end)) in H; cbv beta iota in H; subst v'; exists r, t; split; [exact eq_refl|exact B]).
  - change (with_kind (LVar i c (KInv (N:=BN L) o b blo bhi (r :: t))) (kset (KInv (N:=BN L) o b blo bhi (r :: t)) x) = Ok v') in H. apply with_kind_ok in H. destruct H as (k & H & ->).
    destruct x as [|q x]; [discriminate H|]. cbn [kset clip0 obind] in H. apply (f_equal (fun o => match o with Ok a => a | _ => k end)) in H. cbv beta iota in H. subst k.
    exists (clip (N:=BN L) blo bhi q), x. split; [exact eq_refl|]. apply bclip. simpl in Hop. inversion Hop; auto.
  - change (with_kind (LVar i c (KInv (N:=BN L) o b blo bhi (r :: t))) (kinc (KInv (N:=BN L) o b blo bhi (r :: t)) dx) = Ok v') in H. apply with_kind_ok in H. destruct H as (k & H & ->).
    destruct dx as [|q [|? ?]]; try discriminate H. destruct t as [|? ?]; [|discriminate H].
    assert (E : kinc (KInv (N:=BN L) o b blo bhi [r]) [q] = Ok (KInv (N:=BN L) o b blo bhi [clip (N:=BN L) blo bhi (badd r q)])) by exact eq_refl.
    rewrite E in H. clear E. apply (f_equal (fun o => match o with Ok a => a | _ => k end)) in H. cbv beta iota in H. subst k.
    exists (clip (N:=BN L) blo bhi (badd r q)), []. split; [exact eq_refl|]. apply bclip. apply badd_not_nan; [apply B|]. simpl in Hop. inversion Hop; auto.
Qed.
Lemma inv_calls_b o b l : forall (v : lvar (BN L)), Forall call_numbers l -> is_inv_b o b v -> forall v', vcalls v l = Ok v' -> is_inv_b o b v'.
Proof.
  induction l as [|op l IH]; intros v F H v' E; cbn [vcalls] in E; [congruence|]. inversion F; subst.
  destruct (vcall v op) eqn:Ec; try discriminate; [eapply IH; [auto|eapply inv_call_b; eauto|eauto]|eauto].
Qed.
Lemma limits_e9 (r : b64) : between_limits r -> Bltb (Babs r) (b_of_Q (1#1000000000)) = false.
Proof.
  intros (F & A & _). destruct (Bltb (Babs r) _) eqn:E; auto. exfalso.
  assert (C : Bltb (b_of_Q (1#1000000000)) blo = true) by (vm_compute; reflexivity).
  pose proof (b_trans _ _ _ E C) as D. destruct r as [s|s| |s m e B]; try discriminate.
    destruct s.
    + assert (X : Bltb (B754_finite true m e B) blo = true).
      { rewrite Bltb_correct by (auto; apply lims). apply Rlt_bool_true. apply Rle_lt_trans with 0%R.
        - apply F2R_le_0. simpl. lia.
        - assert (Y : Bltb (B754_zero false) blo = true) by (vm_compute; reflexivity). rewrite Bltb_correct in Y by (auto; apply lims).
          destruct (Rlt_bool_spec (B2R (B754_zero false : b64)) (B2R blo)) as [Z|Z]; [exact Z|discriminate]. }
      assert (Y : true = false) by (rewrite <- X; exact A). discriminate.
    + assert (Y : true = false) by (rewrite <- D; exact A). discriminate.
Qed.
Lemma inverse_range_doubles id (o b : v3 (BN L)) (range : b64) l v : not_nan range -> Forall call_numbers l ->
  vcalls (mk_inverse_range (N:=BN L) id o b range) l = Ok v ->
  exists (r : b64) (t : list b64), vval (lib (BN L)) v = r :: t /\ between_limits r /\ exists p, inv_pos v = Some p.
Proof.
  intros Hr F H. apply recip_not_nan in Hr. assert (I : is_inv_b o (v3normalized b) v).
  { eapply inv_calls_b; [exact F| |exact H]. exists (clip (N:=BN L) blo bhi (bdiv (b_of_Q 1) range)), []. split; [exact eq_refl|]. apply bclip. exact Hr. }
  destruct I as (r & t & Ek & B). exists r, t. split; [change (vval (lib (BN L)) v) with (kval (l_kind v)); rewrite Ek; exact eq_refl|]. split; auto.
  unfold inv_pos. rewrite Ek. cbn [nth]. pose proof (limits_e9 r B) as E. destruct B as (Fr & _).
  match goal with |- context [if ?b then _ else _] => replace b with false end; [eexists; exact eq_refl|].
  symmetry. apply orb_false_intro; [|exact E]. apply negb_false_iff. exact Fr.
Qed.
End Run.
