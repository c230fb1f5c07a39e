(** What the tests on the factorisation mean for the Jacobian, for a solver that factorises exactly. *)
From Coq Require Import List Arith ZArith QArith Bool Reals Lra Lia.
From Verif Require Import Base SpecOpt Optimizer Real RSum SpecSolver Gram.
Import ListNotations.
Local Open Scope R_scope.

(** ** minCoeff and maxCoeff *)
Lemma vmin_fold (l : list R) : forall m, let r := fold_left (fun m y => if nltb (n:=RN) y m then y else m) l m in
  (r = m \/ In r l) /\ r <= m /\ forall y, In y l -> r <= y.
Proof.
  induction l as [|a l IH]; intros m; cbn [fold_left].
  - cbn. split; auto. split; [lra|]. intros y [].
  - specialize (IH (if nltb (n:=RN) a m then a else m)). cbv zeta in *. destruct IH as (A & B & C).
    change (nltb (n:=RN) a m) with (Rltb a m) in *. destruct (Rltb a m) eqn:E.
    + apply Rltb_true in E. split; [destruct A; [right; left; auto|right; right; auto]|]. split; [lra|]. intros y [<-|Hy]; auto.
    + apply Rltb_false in E. split; [destruct A; [left; auto|right; right; auto]|]. split; [lra|]. intros y [<-|Hy]; auto. lra.
Qed.
Lemma vmin_ok (l : list R) m : vmin (N:=RN) l = Ok m -> In m l /\ forall y, In y l -> m <= y.
Proof.
  destruct l as [|a l]; [discriminate|]. intros E. injection E as <-. destruct (vmin_fold l a) as (A & B & C).
  split; [destruct A as [A|A]; [left; exact (eq_sym A)|right; exact A]|]. intros y [<-|Hy]; [exact B|exact (C y Hy)].
Qed.
Lemma vmax_fold (l : list R) : forall m, let r := fold_left (fun m y => if nltb (n:=RN) m y then y else m) l m in
  (r = m \/ In r l) /\ m <= r /\ forall y, In y l -> y <= r.
Proof.
  induction l as [|a l IH]; intros m; cbn [fold_left].
  - cbn. split; auto. split; [lra|]. intros y [].
  - specialize (IH (if nltb (n:=RN) m a then a else m)). cbv zeta in *. destruct IH as (A & B & C).
    change (nltb (n:=RN) m a) with (Rltb m a) in *. destruct (Rltb m a) eqn:E.
    + apply Rltb_true in E. split; [destruct A; [right; left; auto|right; right; auto]|]. split; [lra|]. intros y [<-|Hy]; auto.
    + apply Rltb_false in E. split; [destruct A; [left; auto|right; right; auto]|]. split; [lra|]. intros y [<-|Hy]; auto. lra.
Qed.
Lemma vmax_ok (l : list R) m : vmax (N:=RN) l = Ok m -> In m l /\ forall y, In y l -> y <= m.
Proof.
  destruct l as [|a l]; [discriminate|]. intros E. injection E as <-. destruct (vmax_fold l a) as (A & B & C).
  split; [destruct A as [A|A]; [left; exact (eq_sym A)|right; exact A]|]. intros y [<-|Hy]; [exact B|exact (C y Hy)].
Qed.

(** [H] is J^T J + l I *)
Definition fits (l : R) (J H : mat RN) : Prop :=
  symmetric_mat H /\ semidefinite_mat H /\ mrows H = mcols J /\ (forall x, quad_form H x = damped_sq l J x) /\ forall a, mat_at H a a = column_sq J a + l.
Lemma fits_gram J : fits 0 J (jtj J).
Proof.
  split; [apply gram_sym|]. split; [apply gram_semi|]. split; [reflexivity|]. split; [intros x; rewrite damped_zero; apply gram_form|].
  intros a. etransitivity; [exact (gram_at J a a)|]. symmetry. apply Rplus_0_r.
Qed.
Lemma fits_damped l J : 0 <= l -> fits l J (add_diag l (jtj J)).
Proof.
  intros Hl. split; [apply damped_sym|]. split; [apply damped_semi; auto|]. split; [reflexivity|]. split; [apply damped_form|].
  intros a. etransitivity; [exact (damped_at l J a a)|]. rewrite Nat.eqb_refl. reflexivity.
Qed.

Section Tests.
Context {S : Type} (SV : solver RN S).
Hypothesis HF : factorising_solver SV.

(** a refused matrix *)
Lemma refused s l J H : fits l J H -> sv_ok SV (sv_compute SV s H) = false ->
  exists x i, length x = mcols J /\ (i < mcols J)%nat /\ nth i x 0 = 1 /\ damped_sq l J x = 0.
Proof.
  intros (Fs & Fp & Fr & Fq & Fd) Ho. destruct HF as (holds & A & B & C & D & E).
  specialize (D _ _ (A s H Fs) Fp). rewrite Ho in D. destruct D as (x & a & D1 & D2 & D3 & D4). exists x, a. rewrite <- Fr, <- Fq. auto.
Qed.
Lemma accepted s l J H : fits l J H -> sv_ok SV (sv_compute SV s H) = true -> definite_mat H.
Proof.
  intros (Fs & Fp & Fr & Fq & Fd) Ho. destruct HF as (holds & A & B & C & D & E). specialize (D _ _ (A s H Fs) Fp). rewrite Ho in D. exact D.
Qed.
Lemma definite_accepted s l J H : fits l J H -> definite_mat H -> sv_ok SV (sv_compute SV s H) = true.
Proof.
  intros F Hd. destruct (sv_ok SV (sv_compute SV s H)) eqn:Ho; auto. exfalso. destruct (refused _ _ _ _ F Ho) as (x & i & L & Hi & X1 & X2).
  destruct F as (Fs & Fp & Fr & Fq & Fd). specialize (Hd x). rewrite Fr, Fq, X2 in Hd. apply (Rlt_irrefl 0). apply Hd; auto. exists i. split; auto. lra.
Qed.
(** the smallest and largest pivot *)
Lemma extreme_pivots s l J H mn mx : fits l J H -> sv_ok SV (sv_compute SV s H) = true ->
  vmin (map nabs (sv_D SV (sv_compute SV s H))) = Ok mn -> vmax (map nabs (sv_D SV (sv_compute SV s H))) = Ok mx ->
  0 < mn /\ mn <= mx /\ (exists x i, length x = mcols J /\ (i < mcols J)%nat /\ nth i x 0 = 1 /\ damped_sq l J x = mn) /\
  exists c, (c < mcols J)%nat /\ mx <= column_sq J c + l.
Proof.
  intros (Fs & Fp & Fr & Fq & Fd) Ho Emn Emx. destruct HF as (holds & A & B & C & D & E). destruct (E _ _ (A s H Fs) Fp Ho) as (_ & P).
  set (Ds := sv_D SV (sv_compute SV s H)) in *.
  assert (Q : forall d, In d (map (nabs (n:=RN)) Ds) -> In d Ds).
  { intros d Hd. apply in_map_iff in Hd. destruct Hd as (d0 & <- & Hd). destruct (P d0 Hd) as (P1 & _). change (nabs (n:=RN) d0) with (Rabs d0). rewrite Rabs_right by lra. exact Hd. }
  destruct (vmin_ok _ _ Emn) as (M1 & M2). destruct (vmax_ok _ _ Emx) as (M3 & M4).
  destruct (P _ (Q _ M1)) as (P1 & (x & a & P2 & P3 & P4 & P5) & _). destruct (P _ (Q _ M3)) as (_ & _ & (c & P6 & P7)).
  split; [exact P1|]. split; [apply M2; exact M3|]. split.
  - exists x, a. rewrite <- Fr, <- Fq. auto.
  - exists c. rewrite <- Fr, <- Fd. auto.
Qed.
Lemma pivots_there s l J H : fits l J H -> sv_ok SV (sv_compute SV s H) = true -> (0 < mcols J)%nat ->
  exists mn mx, vmin (map nabs (sv_D SV (sv_compute SV s H))) = Ok mn /\ vmax (map nabs (sv_D SV (sv_compute SV s H))) = Ok mx.
Proof.
  intros (Fs & Fp & Fr & Fq & Fd) Ho Hc. destruct HF as (holds & A & B & C & D & E). destruct (E _ _ (A s H Fs) Fp Ho) as (L & _).
  destruct (sv_D SV (sv_compute SV s H)) as [|d ds]; [cbn in L; lia|]. cbn. eauto.
Qed.
Lemma solving_keeps s l J H b s2 x : fits l J H -> sv_solve SV (sv_compute SV s H) b = (s2, x) -> sv_ok SV s2 = sv_ok SV (sv_compute SV s H).
Proof. intros (Fs & _) Es. destruct HF as (holds & A & B & _). destruct (B _ _ _ _ _ (A s H Fs) Es) as (_ & X & _). exact X. Qed.

Lemma lit_tiny : nlit (n:=RN) (1#100000000000000) = 1 / 100000000000000.
Proof. unfold nlit; simpl; unfold Q2R; simpl. lra. Qed.
Lemma lit_huge : nlit (n:=RN) 1000000000000 = 1000000000000.
Proof. unfold nlit; simpl; unfold Q2R; simpl. lra. Qed.
Lemma tiny_test (mn : R) : nltb (n:=RN) mn (nlit (1#100000000000000)) = true <-> mn < 1 / 100000000000000.
Proof. change (Rltb mn (nlit (n:=RN) (1#100000000000000)) = true <-> mn < 1 / 100000000000000). rewrite lit_tiny. apply Rltb_true. Qed.
Lemma ratio_test (mn mx : R) : 0 < mn -> nltb (n:=RN) (nlit 1000000000000) (ndiv mx mn) = true <-> 1000000000000 * mn < mx.
Proof.
  intros P. change (Rltb (nlit (n:=RN) 1000000000000) (mx / mn) = true <-> 1000000000000 * mn < mx). rewrite lit_huge, Rltb_true. split; intros H.
  - apply (Rmult_lt_compat_r mn) in H; auto. unfold Rdiv in H. rewrite Rmult_assoc, Rinv_l, Rmult_1_r in H by lra. exact H.
  - apply (Rmult_lt_reg_r mn); auto. unfold Rdiv. rewrite Rmult_assoc, Rinv_l, Rmult_1_r by lra. exact H.
Qed.
(** the three ways an attempt can count as a numerical failure *)
Lemma refused_posed s l J H : fits l J H -> sv_ok SV (sv_compute SV s H) = false -> ill_posed l J.
Proof. intros F Ho. destruct (refused _ _ _ _ F Ho) as (x & i & L & Hi & X1 & X2). exists x, i. repeat (split; auto). left. rewrite X2. lra. Qed.
Lemma tested_posed s l J H mn mx : fits l J H -> sv_ok SV (sv_compute SV s H) = true ->
  vmin (map nabs (sv_D SV (sv_compute SV s H))) = Ok mn -> vmax (map nabs (sv_D SV (sv_compute SV s H))) = Ok mx ->
  nltb (n:=RN) mn (nlit (1#100000000000000)) || nltb (n:=RN) (nlit 1000000000000) (ndiv mx mn) = true -> ill_posed l J.
Proof.
  intros F Ho E1 E2 T. destruct (extreme_pivots _ _ _ _ _ _ F Ho E1 E2) as (P1 & P2 & (x & i & P3 & P4 & P5 & P6) & (c & P7 & P8)).
  exists x, i. split; auto. split; auto. split; auto. rewrite P6. apply orb_prop in T. destruct T as [T|T].
  - left. apply tiny_test. exact T.
  - right. exists c. split; auto. apply ratio_test in T; auto. eapply Rlt_le_trans; [exact T|exact P8].
Qed.
End Tests.

(** with enough damping every system is well posed *)
Lemma damping_helps l J : 1 / 100000000000000 <= l -> (forall c, (c < mcols J)%nat -> column_sq J c <= 999999999999 * l) -> ~ ill_posed l J.
Proof.
  intros Hl Hc (x & i & L & Hi & X1 & X2). assert (P : 0 <= l) by lra. pose proof (damped_ge l J x i P Hi) as G. rewrite X1 in G.
  destruct X2 as [X2|(c & Hcc & X2)]; [lra|]. specialize (Hc c Hcc). lra.
Qed.
