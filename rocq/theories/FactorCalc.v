(** Derivatives along motions. *)
From Coq Require Import List Arith ZArith QArith Bool Reals Lra Lia.
From Coquelicot Require Import Coquelicot.
From Verif Require Import Base Sparse Graph Geom Vars FactorsLin FactorsGeo SpecGeom SpecFactor Real RSum GeomR.
Import ListNotations.
Local Open Scope R_scope.

Lemma d_eq (f : R -> R) (x a b : R) : is_derive f x a -> a = b -> is_derive f x b.
Proof. intros H <-. exact H. Qed.
Lemma d_plus (f g : R -> R) (x a b : R) : is_derive f x a -> is_derive g x b -> is_derive (fun s => f s + g s) x (a + b).
Proof. intros. apply (is_derive_plus f g x a b); auto. Qed.
Lemma d_minus (f g : R -> R) (x a b : R) : is_derive f x a -> is_derive g x b -> is_derive (fun s => f s - g s) x (a - b).
Proof. intros. apply (is_derive_minus f g x a b); auto. Qed.
Lemma d_opp (f : R -> R) (x a : R) : is_derive f x a -> is_derive (fun s => - f s) x (- a).
Proof. intros. apply (is_derive_opp f x a); auto. Qed.
Lemma d_const (c : R) x : is_derive (fun _ : R => c) x 0.
Proof. apply (is_derive_const (K:=R_AbsRing) (V:=R_NormedModule)). Qed.
Lemma d_mult (f g : R -> R) (x a b : R) : is_derive f x a -> is_derive g x b -> is_derive (fun s => f s * g s) x (a * g x + f x * b).
Proof. intros. apply (is_derive_mult f g x a b); auto. intros; apply Rmult_comm. Qed.
Lemma d_scal (f : R -> R) (c x a : R) : is_derive f x a -> is_derive (fun s => c * f s) x (c * a).
Proof. intros. apply (is_derive_scal f x c a); auto. Qed.
Lemma d_comp (f g : R -> R) (x a b : R) : is_derive f (g x) a -> is_derive g x b -> is_derive (fun s => f (g s)) x (b * a).
Proof. intros. apply (is_derive_comp f g x a b); auto. Qed.
Lemma d_div (f g : R -> R) (x a b : R) : is_derive f x a -> is_derive g x b -> g x <> 0 -> is_derive (fun s => f s / g s) x ((a * g x - f x * b) / (g x) ^ 2).
Proof. intros. apply (is_derive_div f g x a b); auto. Qed.
Lemma d_sqrt (f : R -> R) (x a : R) : is_derive f x a -> 0 < f x -> is_derive (fun s => sqrt (f s)) x (a / (2 * sqrt (f x))).
Proof. intros. apply (is_derive_sqrt f x a); auto. Qed.
Lemma d_cos (f : R -> R) (x a : R) : is_derive f x a -> is_derive (fun s => cos (f s)) x (a * - sin (f x)).
Proof. intros H. apply d_comp; auto. apply is_derive_cos. Qed.
Lemma d_sin (f : R -> R) (x a : R) : is_derive f x a -> is_derive (fun s => sin (f s)) x (a * cos (f x)).
Proof. intros H. apply d_comp; auto. apply is_derive_sin. Qed.
Lemma d_ext (f g : R -> R) x l : (forall s, f s = g s) -> is_derive f x l -> is_derive g x l.
Proof. intros H. apply is_derive_ext. auto. Qed.
Ltac der1 := lazymatch goal with
  | |- is_derive (fun s => @?f s + @?g s) _ _ => apply (d_plus f g)
  | |- is_derive (fun s => @?f s - @?g s) _ _ => apply (d_minus f g)
  | |- is_derive (fun s => @?f s * @?g s) _ _ => apply (d_mult f g)
  | |- is_derive (fun s => - @?f s) _ _ => apply (d_opp f)
  | |- is_derive (fun s => cos (@?f s)) _ _ => apply (d_cos f)
  | |- is_derive (fun s => sin (@?f s)) _ _ => apply (d_sin f)
  | |- is_derive (fun _ => ?c) _ _ => apply (d_const c)
  | |- is_derive (fun s => ?f s) _ _ => match goal with H : is_derive f _ _ |- _ => exact H end
  | |- is_derive ?f _ _ => match goal with H : is_derive f _ _ |- _ => exact H end
  end.
Ltac ders := repeat der1.
(** find the derivative of an expression built from functions with known derivatives *)
Ltac der := eapply d_eq; [ders|].

(** components of motions *)
Lemma moving_comp P p d : moving P p d -> exists x y z : R -> R, (forall s, P s = V3 (N:=RN) (x s) (y s) (z s)) /\
  (p = V3 (N:=RN) (x 0) (y 0) (z 0)) /\ is_derive x 0 (vx d) /\ is_derive y 0 (vy d) /\ is_derive z 0 (vz d).
Proof.
  intros [E H]. exists (fun s => vx (P s)), (fun s => vy (P s)), (fun s => vz (P s)).
  split; [intros s; destruct (P s); reflexivity|]. split; [rewrite <- E; destruct (P 0); reflexivity|].
  split; [|split]; [exact (H 0%nat ltac:(lia))|exact (H 1%nat ltac:(lia))|exact (H 2%nat ltac:(lia))].
Qed.
Lemma moving_of P p d (x y z : R -> R) : (forall s, P s = V3 (N:=RN) (x s) (y s) (z s)) -> p = V3 (N:=RN) (x 0) (y 0) (z 0) ->
  is_derive x 0 (vx d) -> is_derive y 0 (vy d) -> is_derive z 0 (vz d) -> moving P p d.
Proof.
  intros E E0 Hx Hy Hz. split; [rewrite E0; apply E|]. intros i Hi. destruct i as [|[|[|i]]]; [| | |lia]; (eapply d_ext; [intros s; rewrite E; reflexivity|]); assumption.
Qed.
Lemma turning_comp C a d : turning C a d -> exists x00 x01 x02 x10 x11 x12 x20 x21 x22 : R -> R,
  (forall s, C s = M3 (N:=RN) (x00 s) (x01 s) (x02 s) (x10 s) (x11 s) (x12 s) (x20 s) (x21 s) (x22 s)) /\
  (a = M3 (N:=RN) (x00 0) (x01 0) (x02 0) (x10 0) (x11 0) (x12 0) (x20 0) (x21 0) (x22 0)) /\
  is_derive x00 0 (vy d * x20 0 - vz d * x10 0) /\ is_derive x01 0 (vy d * x21 0 - vz d * x11 0) /\ is_derive x02 0 (vy d * x22 0 - vz d * x12 0) /\
  is_derive x10 0 (vz d * x00 0 - vx d * x20 0) /\ is_derive x11 0 (vz d * x01 0 - vx d * x21 0) /\ is_derive x12 0 (vz d * x02 0 - vx d * x22 0) /\
  is_derive x20 0 (vx d * x10 0 - vy d * x00 0) /\ is_derive x21 0 (vx d * x11 0 - vy d * x01 0) /\ is_derive x22 0 (vx d * x12 0 - vy d * x02 0).
Proof.
  intros [E H].
  exists (fun s => m00 (C s)), (fun s => m01 (C s)), (fun s => m02 (C s)), (fun s => m10 (C s)), (fun s => m11 (C s)), (fun s => m12 (C s)),
    (fun s => m20 (C s)), (fun s => m21 (C s)), (fun s => m22 (C s)).
  split; [intros s; destruct (C s); reflexivity|]. split; [rewrite <- E; destruct (C 0); reflexivity|]. rewrite E.
  assert (T : forall i j, (i < 3)%nat -> (j < 3)%nat -> is_derive (fun t => ent (C t) i j) 0 (sum3 (fun k => crossm d i k * ent a k j))) by exact H.
  destruct a as [a00 a01 a02 a10 a11 a12 a20 a21 a22], d as [d0 d1 d2].
  refine (conj _ (conj _ (conj _ (conj _ (conj _ (conj _ (conj _ (conj _ _))))))));
  [eapply d_eq; [exact (T 0 0 ltac:(lia) ltac:(lia))%nat|]|eapply d_eq; [exact (T 0 1 ltac:(lia) ltac:(lia))%nat|]|eapply d_eq; [exact (T 0 2 ltac:(lia) ltac:(lia))%nat|]
  |eapply d_eq; [exact (T 1 0 ltac:(lia) ltac:(lia))%nat|]|eapply d_eq; [exact (T 1 1 ltac:(lia) ltac:(lia))%nat|]|eapply d_eq; [exact (T 1 2 ltac:(lia) ltac:(lia))%nat|]
  |eapply d_eq; [exact (T 2 0 ltac:(lia) ltac:(lia))%nat|]|eapply d_eq; [exact (T 2 1 ltac:(lia) ltac:(lia))%nat|]|eapply d_eq; [exact (T 2 2 ltac:(lia) ltac:(lia))%nat|]];
  gx; ring.
Qed.
Lemma turning_of C a d : C 0 = a -> (forall i j, (i < 3)%nat -> (j < 3)%nat -> is_derive (fun t => ent (C t) i j) 0 (ent (m3mul (skew d) a) i j)) -> turning C a d.
Proof.
  intros E H. split; auto. intros i j Hi Hj. eapply d_eq; [apply H; auto|].
  destruct i as [|[|[|i]]]; [| | |lia]; destruct j as [|[|[|j]]]; try lia; destruct a, d; gx; ring.
Qed.
Ltac mcomp H := let x := fresh "x" in let y := fresh "y" in let z := fresh "z" in let e := fresh "Ec" in let e0 := fresh "E0" in
  apply moving_comp in H; destruct H as (x & y & z & e & e0 & ? & ? & ?).
Ltac tcomp H := let x := fresh "c00" in let e := fresh "Ec" in let e0 := fresh "E0" in
  apply turning_comp in H; destruct H as (x & ?c01 & ?c02 & ?c10 & ?c11 & ?c12 & ?c20 & ?c21 & ?c22 & e & e0 & ? & ? & ? & ? & ? & ? & ? & ? & ?).

(** image of a moving point under a turning matrix *)
Lemma mv_moves C a d P p e : turning C a d -> moving P p e -> moving (fun s => m3v (C s) (P s)) (m3v a p) (v3add (m3v a e) (v3cross d (m3v a p))).
Proof.
  intros HC HP. tcomp HC. mcomp HP. destruct d as [d0 d1 d2], e as [e0' e1 e2]. cbn [vx vy vz] in *. subst a p.
  eapply moving_of; [intros s; rewrite Ec, Ec0; gx; reflexivity|gx; reflexivity| | |]; gx; der; ring.
Qed.
Lemma v3sub_moves P p e Q q f : moving P p e -> moving Q q f -> moving (fun s => v3sub (P s) (Q s)) (v3sub p q) (v3sub e f).
Proof.
  intros HP HQ. mcomp HP. mcomp HQ. subst p q. destruct e as [e0 e1 e2], f as [f0 f1 f2]. cbn [vx vy vz] in *.
  eapply moving_of; [intros s; rewrite Ec, Ec0; gx; reflexivity|gx; reflexivity| | |]; gx; der; ring.
Qed.
Lemma v3scale_moves (w : R) P p e : moving P p e -> moving (fun s => v3scale w (P s)) (v3scale w p) (v3scale w e).
Proof.
  intros HP. mcomp HP. subst p. destruct e as [e0 e1 e2]. cbn [vx vy vz] in *.
  eapply moving_of; [intros s; rewrite Ec; gx; reflexivity|gx; reflexivity| | |]; gx; der; ring.
Qed.
Lemma still_moves (p : v3 RN) : moving (fun _ => p) p (v3zero (N:=RN)).
Proof. destruct p. eapply moving_of; [intros s; reflexivity|reflexivity| | |]; gx; apply d_const. Qed.
Lemma still_turns (a : m3 RN) : turning (fun _ => a) a (v3zero (N:=RN)).
Proof. apply turning_of; auto. intros i j Hi Hj. eapply d_eq; [apply d_const|]. destruct i as [|[|[|i]]]; [| | |lia]; destruct j as [|[|[|j]]]; try lia; destruct a; gx; ring. Qed.
Lemma dot_derive P p e Q q f : moving P p e -> moving Q q f -> is_derive (fun s => v3dot (P s) (Q s)) 0 (v3dot e q + v3dot p f).
Proof.
  intros HP HQ. mcomp HP. mcomp HQ. subst p q. destruct e as [e0 e1 e2], f as [f0 f1 f2]. cbn [vx vy vz] in *.
  eapply d_ext; [intros s; rewrite Ec, Ec0; gx; reflexivity|]. gx. der. ring.
Qed.
Lemma moving_loc P Q p e : locally 0 (fun s => Q s = P s) -> moving P p e -> moving Q p e.
Proof.
  intros L [E H]. split; [rewrite (locally_singleton _ _ L); exact E|]. intros i Hi. eapply is_derive_ext_loc; [|apply H; exact Hi].
  eapply filter_imp; [|exact L]. cbv beta. intros s Hs. rewrite Hs. reflexivity.
Qed.
Lemma d_cont (f : R -> R) x l : is_derive f x l -> continuous f x.
Proof. intros H. apply (ex_derive_continuous f x). exists l. exact H. Qed.
Lemma near_gt (f : R -> R) x c l : is_derive f x l -> c < f x -> locally x (fun s => c < f s).
Proof.
  intros H Hc. apply d_cont in H. exact (H (fun y : R => c < y) (open_gt c _ Hc)).
Qed.
Lemma near_lt (f : R -> R) x c l : is_derive f x l -> f x < c -> locally x (fun s => f s < c).
Proof.
  intros H Hc. apply d_cont in H. exact (H (fun y : R => y < c) (open_lt c _ Hc)).
Qed.
Lemma len_pos (p : v3 RN) : p <> v3zero (N:=RN) -> 0 < len p.
Proof.
  intros H. apply sqrt_lt_R0. destruct p as [x y z]. unfold length2. cbn [vx vy vz].
  destruct (Req_dec x 0); [destruct (Req_dec y 0); [destruct (Req_dec z 0)|]|]; try nra.
  exfalso. apply H. subst. gx. reflexivity.
Qed.
Lemma length2_len (p : v3 RN) : 0 < len p -> 0 < length2 p.
Proof. intros H. rewrite <- len_sq. nra. Qed.
(** the direction of a moving point *)
Lemma normalized_moves P p e : moving P p e -> 0 < len p ->
  moving (fun s => v3normalized (P s)) (v3div p (len p)) (v3div (v3sub e (v3scale (dot p e / (len p * len p)) p)) (len p)).
Proof.
  intros HP Hp. pose proof (length2_len _ Hp) as L. pose proof (len_sq p) as Q. pose proof HP as HP0. mcomp HP. subst p. destruct e as [e0 e1 e2]. cbn [vx vy vz] in *.
  assert (S : is_derive (fun s => x s * x s + y s * y s + z s * z s) 0 (2 * (x 0 * e0 + y 0 * e1 + z 0 * e2))).
  { der. ring. }
  assert (P0 : 0 < x 0 * x 0 + y 0 * y 0 + z 0 * z 0) by exact L.
  assert (W : is_derive (fun s => sqrt (x s * x s + y s * y s + z s * z s)) 0 ((x 0 * e0 + y 0 * e1 + z 0 * e2) / sqrt (x 0 * x 0 + y 0 * y 0 + z 0 * z 0))).
  { eapply d_eq; [apply d_sqrt; [exact S|exact P0]|]. cbv beta. field. apply Rgt_not_eq. apply sqrt_lt_R0. exact P0. }
  apply (moving_loc (fun s => v3div (P s) (sqrt (x s * x s + y s * y s + z s * z s)))).
  { eapply filter_imp; [|exact (near_gt _ _ _ _ S P0)]. cbv beta. intros s Hs. unfold v3normalized. rewrite Ec.
    gx. cbn [nltb]. replace (Rltb 0 (x s * x s + y s * y s + z s * z s)) with true by (symmetry; apply Rltb_true; exact Hs). reflexivity. }
  unfold len, dot. unfold len in Q. cbv [length2 vx vy vz] in Q. cbv [length2 vx vy vz]. set (l := sqrt (x 0 * x 0 + y 0 * y 0 + z 0 * z 0)) in *.
  assert (Hl : 0 < l) by (apply sqrt_lt_R0; exact P0).
  eapply moving_of; [intros s; rewrite Ec; gx; reflexivity|gx; reflexivity| | |]; gx;
    (eapply d_eq; [apply d_div; [eassumption|exact W|apply Rgt_not_eq; exact Hl]|]); cbv beta; fold l; field; apply Rgt_not_eq; exact Hl.
Qed.
