(** Real-number scalars: exact arithmetic in place of doubles.  Division by zero and square roots of negative numbers have
    the values Coq's library gives them; theorems that could meet them exclude them by hypothesis. *)
From Coq Require Import List Arith ZArith QArith Bool Reals Lra Qreals.
From Verif Require Import Base SpecOpt.
Import ListNotations.
Local Open Scope R_scope.

Definition Rltb (a b : R) : bool := if Rlt_dec a b then true else false.
Definition Rleb (a b : R) : bool := if Rle_dec a b then true else false.
(** std::atan2 without signed zeros *)
Definition Ratan2 (y x : R) : R :=
  if Rlt_dec 0 x then atan (y / x) else
  if Rlt_dec x 0 then (if Rle_dec 0 y then atan (y / x) + PI else atan (y / x) - PI) else
  if Rlt_dec 0 y then PI / 2 else if Rlt_dec y 0 then - PI / 2 else 0.
Canonical Structure RN : num :=
  MkNum R Rplus Rminus Rmult Rdiv Ropp Rabs sqrt sin cos tan acos Ratan2 Rltb Rleb (fun _ => true) Q2R.

Lemma Rltb_true a b : Rltb a b = true <-> a < b.
Proof. unfold Rltb. destruct (Rlt_dec a b); split; intros; auto; try discriminate; try contradiction. Qed.
Lemma Rltb_false a b : Rltb a b = false <-> b <= a.
Proof. unfold Rltb. destruct (Rlt_dec a b); split; intros; auto; try discriminate; lra. Qed.
Lemma Rleb_true a b : Rleb a b = true <-> a <= b.
Proof. unfold Rleb. destruct (Rle_dec a b); split; intros; auto; try discriminate; try contradiction. Qed.
Lemma Rleb_false a b : Rleb a b = false <-> b < a.
Proof. unfold Rleb. destruct (Rle_dec a b); split; intros; auto; try discriminate; lra. Qed.
Lemma lit_half : (nlit (1#2) : RN) = / 2.
Proof. unfold nlit; simpl; unfold Q2R; simpl. lra. Qed.
Lemma lit_zero : (nzero : RN) = 0.
Proof. unfold nzero, nlit; simpl; unfold Q2R; simpl. lra. Qed.
Lemma lit_int z : (nlit (z#1) : RN) = IZR z.
Proof. unfold nlit; simpl; unfold Q2R; simpl. lra. Qed.
Lemma r_nmax a b : nmax (N:=RN) a b = Rmax a b.
Proof. unfold nmax; simpl. unfold Rltb, Rmax. destruct (Rlt_dec a b), (Rle_dec a b); lra. Qed.
Lemma r_nmin a b : nmin (N:=RN) a b = Rmin a b.
Proof. unfold nmin; simpl. unfold Rltb, Rmin. destruct (Rlt_dec b a), (Rle_dec a b); lra. Qed.
Lemma real_order : cost_order (N:=RN).
Proof.
  split; simpl; intros.
  - apply Rltb_true. rewrite Rltb_true in *. lra.
  - apply Rltb_true. apply Rltb_true in H. change (Q2R (1#2)) with (nlit (1#2) : RN) in H. rewrite lit_half in H. lra.
  - apply Rltb_false. lra.
Qed.
