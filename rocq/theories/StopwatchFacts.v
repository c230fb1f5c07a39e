(** Proofs for PropsTools: the stopwatch. *)
From Coq Require Import List Arith ZArith QArith Reals Lra Lia Bool.
From Verif Require Import Base SpecOpt Real RSum Stopwatch SpecTools GeomR.
Import ListNotations.
Set Bullet Behavior "Strict Subproofs".

Lemma runs_after_app a : forall b n, runs_after (a ++ b) n = runs_after b (runs_after a n).
Proof. induction a as [|[[] t] a IH]; intros; cbn; auto. Qed.
Definition is_reset (c : wop * Z) : bool := match fst c with WReset => true | _ => false end.
Lemma since_reset_snoc cs : forall c, since_reset (cs ++ [c]) = if is_reset c then [] else since_reset cs ++ [c].
Proof.
  induction cs as [|d cs IH]; intros c.
  - destruct c as [[] t]; reflexivity.
  - cbn [app since_reset]. fold is_reset. change (existsb _ (cs ++ [c])) with (existsb is_reset (cs ++ [c])).
    change (existsb _ cs) with (existsb is_reset cs). rewrite existsb_app. cbn [existsb]. rewrite orb_false_r, IH.
    destruct (is_reset c) eqn:E.
    + rewrite orb_true_r. reflexivity.
    + rewrite orb_false_r. destruct (existsb is_reset cs); auto. destruct d as [[] t]; cbn; auto.
Qed.
Definition upto (t : Z) (cs : list (wop * Z)) : Prop := Forall (fun c => (snd c <= t)%Z) cs.
Lemma nondec_snoc cs : forall t0 c, nondecreasing t0 (cs ++ [c]) -> nondecreasing t0 cs /\ upto (snd c) cs /\ (t0 <= snd c)%Z.
Proof.
  induction cs as [|d cs IH]; intros t0 c; cbn.
  - intros (A & _). repeat split; auto. constructor.
  - intros (A & B). destruct (IH _ _ B) as (C & D & E). repeat split; auto; [constructor; auto|lia].
Qed.
Lemma since_incl cs c : In c (since_reset cs) -> In c cs.
Proof.
  induction cs as [|d cs IH]; cbn; auto. destruct (existsb _ cs); auto. destruct (fst d); cbn; tauto.
Qed.
Lemma upto_since t cs : upto t cs -> upto t (since_reset cs).
Proof. unfold upto. rewrite !Forall_forall. intros H c Hc. apply H. apply since_incl; auto. Qed.
Lemma upto_le t t' cs : (t <= t')%Z -> upto t cs -> upto t' cs.
Proof. intros H. apply Forall_impl. intros; lia. Qed.
Lemma filter_all {A} (f : A -> bool) l : Forall (fun x => f x = true) l -> filter f l = l.
Proof. induction 1; cbn; auto. rewrite H. congruence. Qed.
Lemma runs_at_late cs t u : upto t cs -> (t <= u)%Z -> runs_at cs u = runs_after cs false.
Proof.
  intros H Hu. unfold runs_at. rewrite filter_all; auto. eapply Forall_impl; [|exact H]. intros c Hc. cbn in Hc. apply Z.leb_le. lia.
Qed.
Lemma runs_at_early cs c u : (u < snd c)%Z -> runs_at (cs ++ [c]) u = runs_at cs u.
Proof. intros H. unfold runs_at. rewrite filter_app. cbn. rewrite (proj2 (Z.leb_gt _ _)) by auto. rewrite app_nil_r. reflexivity. Qed.
Lemma filter_ext_len {A} (f g : A -> bool) l : (forall x, In x l -> f x = g x) -> length (filter f l) = length (filter g l).
Proof. induction l; cbn; intros H; auto. rewrite (H a) by auto. destruct (g a); cbn; rewrite IHl; auto. Qed.
Lemma filter_const {A} b (l : list A) : length (filter (fun _ => b) l) = if b then length l else O.
Proof. induction l; cbn; destruct b; cbn in *; auto. Qed.
Lemma ticks_split cs t0 t t1 : (t0 <= t <= t1)%Z -> (forall u, (t <= u)%Z -> runs_at cs u = runs_at cs t) ->
  ticks_running cs t0 t1 = (ticks_running cs t0 t + if runs_at cs t then t1 - t else 0)%Z.
Proof.
  intros H K. unfold ticks_running. replace (Z.to_nat (t1 - t0)) with (Z.to_nat (t - t0) + Z.to_nat (t1 - t))%nat by lia.
  rewrite seq_app, filter_app, app_length, Nat2Z.inj_add. f_equal.
  rewrite (filter_ext_len _ (fun _ => runs_at cs t)).
  - rewrite filter_const. destruct (runs_at cs t); rewrite ?seq_length; lia.
  - intros i Hi. apply in_seq in Hi. apply K. lia.
Qed.
Lemma ticks_ext cs cs' t0 t1 : (forall u, (t0 <= u < t1)%Z -> runs_at cs u = runs_at cs' u) -> ticks_running cs t0 t1 = ticks_running cs' t0 t1.
Proof.
  intros H. unfold ticks_running. f_equal. apply filter_ext_len. intros i Hi. apply in_seq in Hi. apply H. lia.
Qed.
Lemma ticks_late cs t0 t t1 : upto t cs -> (t0 <= t <= t1)%Z ->
  ticks_running cs t0 t1 = (ticks_running cs t0 t + if runs_after cs false then t1 - t else 0)%Z.
Proof.
  intros U H. rewrite (ticks_split cs t0 t t1); auto.
  - rewrite (runs_at_late cs t t); auto; lia.
  - intros u Hu. rewrite !(runs_at_late cs t); auto; lia.
Qed.
Lemma ticks_snoc cs c t0 t1 : upto (snd c) cs -> (t0 <= snd c <= t1)%Z ->
  ticks_running (cs ++ [c]) t0 t1 = (ticks_running cs t0 (snd c) + if runs_after (cs ++ [c]) false then t1 - snd c else 0)%Z.
Proof.
  intros U H. rewrite (ticks_late _ t0 (snd c)); auto.
  - f_equal. apply ticks_ext. intros u Hu. apply runs_at_early. lia.
  - apply Forall_app. split; auto. constructor; auto. lia.
Qed.
Lemma ticks_nil t0 t1 : ticks_running [] t0 t1 = 0%Z.
Proof. unfold ticks_running, runs_at. cbn [filter runs_after]. rewrite filter_const. reflexivity. Qed.

Local Open Scope R_scope.
Definition exact_secs (tick : R) (z : Z) : RN := IZR z * tick.
Notation run tick cs := (w_run (N:=RN) (exact_secs tick) cs).
Lemma w_run_snoc {N : num} (secs : Z -> N) cs c : w_run secs (cs ++ [c]) = w_step secs (w_run secs cs) c.
Proof. unfold w_run. rewrite fold_left_app. reflexivity. Qed.
Lemma watch_inv tick t0 cs : forall t1, nondecreasing t0 cs -> upto t1 cs -> (t0 <= t1)%Z ->
  w_running (run tick cs) = runs_after (since_reset cs) false /\
  w_elapsed (N:=RN) (exact_secs tick) t1 (run tick cs) = IZR (ticks_running (since_reset cs) t0 t1) * tick.
Proof.
  induction cs as [|c cs IH] using rev_ind; intros t1 ND U H1.
  - cbn. split; auto. rewrite ticks_nil. unfold nzero. cbn [nlit RN]. change (Q2R 0 = 0 * tick). rewrite q0. ring.
  - destruct (nondec_snoc _ _ _ ND) as (ND' & U' & H0). apply Forall_app in U. destruct U as (U1 & U2). apply Forall_inv in U2. cbv beta in U2.
    pose proof (IH (snd c) ND' U' H0) as (R1 & E1). pose proof (IH t1 ND' U1 H1) as (_ & E2). clear IH.
    rewrite w_run_snoc, since_reset_snoc. pose proof (upto_since _ _ U') as US. pose proof (ticks_late _ t0 (snd c) t1 US ltac:(lia)) as T2.
    destruct c as [o t]. cbn [snd] in *. unfold w_step; cbn [fst snd is_reset].
    assert (Late : forall b, runs_after (since_reset cs ++ [(o, t)]) false = b ->
      ticks_running (since_reset cs ++ [(o, t)]) t0 t1 = (ticks_running (since_reset cs) t0 t + if b then t1 - t else 0)%Z).
    { intros b <-. rewrite (ticks_snoc (since_reset cs) (o, t) t0 t1 US) by (cbn [snd]; lia). reflexivity. }
    destruct o; cbn [is_reset fst].
    + unfold w_startf. destruct (w_running (run tick cs)) eqn:Er.
      * split; [rewrite runs_after_app; auto|]. rewrite (Late true) by (rewrite runs_after_app; auto). rewrite E2. rewrite T2, <- R1. reflexivity.
      * split; [rewrite runs_after_app; auto|]. rewrite (Late true) by (rewrite runs_after_app; auto).
        rewrite plus_IZR, Rmult_plus_distr_r. rewrite <- E1. unfold w_elapsed. rewrite Er. cbn [w_running w_acc w_start]. reflexivity.
    + unfold w_stop. destruct (w_running (run tick cs)) eqn:Er.
      * split; [rewrite runs_after_app; auto|]. rewrite (Late false) by (rewrite runs_after_app; auto). rewrite Z.add_0_r, <- E1.
        unfold w_elapsed. rewrite Er. cbn [w_running w_acc w_start]. reflexivity.
      * split; [rewrite runs_after_app; auto|]. rewrite (Late false) by (rewrite runs_after_app; auto). rewrite Z.add_0_r, <- E1.
        unfold w_elapsed. rewrite Er. reflexivity.
    + split; auto. rewrite ticks_nil. unfold w_elapsed, w_reset. cbn [w_running w_acc]. unfold nzero. cbn [nlit RN]. change (Q2R 0 = 0 * tick). rewrite q0. ring.
    + split; [rewrite runs_after_app; auto|]. rewrite (Late (runs_after (since_reset cs) false)) by (rewrite runs_after_app; auto). rewrite E2, T2. reflexivity.
Qed.
Lemma stopwatch_total tick t0 cs t1 : nondecreasing t0 (cs ++ [(WElapsed, t1)]) ->
  w_elapsed (N:=RN) (exact_secs tick) t1 (run tick cs) = IZR (ticks_running (since_reset cs) t0 t1) * tick.
Proof. intros H. destruct (nondec_snoc _ _ _ H) as (A & B & C). apply watch_inv; auto. Qed.

(** monotone in every arithmetic that respects the order of nonnegative numbers *)
Section Mono.
Context {N : num} (secs : Z -> N) (good : N -> Prop).
Hypothesis good0 : good nzero.
Hypothesis good_secs : forall z, (0 <= z)%Z -> good (secs z).
Hypothesis good_add : forall x y, good x -> good y -> good (nadd x y).
Hypothesis refl : forall x, good x -> nleb x x = true.
Hypothesis trans : forall x y z, good x -> good y -> good z -> nleb x y = true -> nleb y z = true -> nleb x z = true.
Hypothesis grow : forall x y, good x -> good y -> nleb x (nadd x y) = true.
Hypothesis add_mono : forall x y z, good x -> good y -> good z -> nleb y z = true -> nleb (nadd x y) (nadd x z) = true.
Hypothesis secs_mono : forall y z, (0 <= y <= z)%Z -> nleb (secs y) (secs z) = true.
Definition okw (t : Z) (w : watch (N:=N)) : Prop := good (w_acc w) /\ (w_running w = true -> (w_start w <= t)%Z).
Lemma good_elapsed t w : okw t w -> good (w_elapsed secs t w).
Proof. intros (A & B). unfold w_elapsed. destruct (w_running w); auto. apply good_add; auto. apply good_secs. specialize (B eq_refl). lia. Qed.
Lemma elapsed_le t t' w : okw t w -> (t <= t')%Z -> nleb (w_elapsed secs t w) (w_elapsed secs t' w) = true.
Proof.
  intros (A & B) H. unfold w_elapsed. destruct (w_running w); [|apply refl; auto]. specialize (B eq_refl).
  apply add_mono; auto; try (apply good_secs; lia). apply secs_mono. lia.
Qed.
Lemma okw_later t t' w : (t <= t')%Z -> okw t w -> okw t' w.
Proof. intros H (A & B). split; auto. intros E. specialize (B E). lia. Qed.
Lemma okw_step t w c : okw t w -> (t <= snd c)%Z -> okw (snd c) (w_step secs w c).
Proof.
  intros H K. destruct c as [o u]. cbn [snd] in K. apply (okw_later _ u) in H; auto. destruct H as (A & B). unfold w_step. cbn [fst snd]. destruct o.
  - unfold w_startf. destruct (w_running w) eqn:E; split; cbn; auto. intros; lia.
  - unfold w_stop. destruct (w_running w) eqn:E; split; cbn; auto; try discriminate; [apply good_add; auto; apply good_secs; specialize (B eq_refl); lia|].
    rewrite E. discriminate.
  - split; cbn; auto; try discriminate.
  - split; auto.
Qed.
Lemma step_le t w c t' : okw t w -> (t <= snd c <= t')%Z -> is_reset c = false ->
  nleb (w_elapsed secs t w) (w_elapsed secs t' (w_step secs w c)) = true.
Proof.
  intros H K R. pose proof (okw_step t w c H ltac:(lia)) as S. destruct c as [o u]. cbn [snd] in *.
  apply (trans _ (w_elapsed secs u (w_step secs w (o, u)))); try (apply good_elapsed); auto.
  - eapply okw_later; [|exact S]. lia.
  - assert (E : okw u w) by (eapply okw_later; [|exact H]; lia).
    apply (trans _ (w_elapsed secs u w)); try (apply good_elapsed); auto; [apply elapsed_le; auto; lia|].
    pose proof H as (A & B). destruct E as (_ & B'). unfold w_step. cbn [fst snd]. destruct o; try discriminate.
    + unfold w_startf. destruct (w_running w) eqn:Er; [apply refl, good_elapsed; split; auto|]. unfold w_elapsed. rewrite Er. cbn [w_running w_acc w_start].
      apply grow; auto. apply good_secs. lia.
    + unfold w_stop. destruct (w_running w) eqn:Er; [|apply refl, good_elapsed; split; auto; congruence]. unfold w_elapsed. rewrite Er. cbn [w_running w_acc].
      apply refl, good_add; auto. apply good_secs. specialize (B' eq_refl). lia.
    + apply refl, good_elapsed; split; auto.
  - apply elapsed_le; auto. lia.
Qed.
Lemma okw_run cs : forall t w, okw t w -> forall t', nondecreasing t (cs ++ [(WElapsed, t')]) -> okw t' (fold_left (w_step secs) cs w).
Proof.
  induction cs as [|c cs IH]; intros t w H t' ND; cbn in *.
  - eapply okw_later; [|exact H]. lia.
  - destruct ND as (A & B). eapply IH; [apply (okw_step t); eauto|auto].
Qed.
Lemma steps_le cs : forall t w t', okw t w -> nondecreasing t (cs ++ [(WElapsed, t')]) -> existsb is_reset cs = false ->
  nleb (w_elapsed secs t w) (w_elapsed secs t' (fold_left (w_step secs) cs w)) = true.
Proof.
  induction cs as [|c cs IH]; intros t w t' H ND R; cbn in ND, R |- *.
  - apply elapsed_le; auto. lia.
  - apply orb_false_elim in R. destruct R as (R1 & R2). destruct ND as (A & B).
    pose proof (okw_step t w c H A) as S.
    apply (trans _ (w_elapsed secs (snd c) (w_step secs w c))); try (apply good_elapsed; auto).
    + eapply okw_run; eauto.
    + apply (step_le t); auto. lia.
    + apply IH; auto.
Qed.
Lemma watch_mono t0 cs t cs' t' : nondecreasing t0 (cs ++ [(WElapsed, t)] ++ cs' ++ [(WElapsed, t')]) -> existsb is_reset cs' = false ->
  nleb (w_elapsed secs t (w_run secs cs)) (w_elapsed secs t' (w_run secs (cs ++ (WElapsed, t) :: cs'))) = true.
Proof.
  intros ND R. assert (W : okw t0 w_new) by (split; cbn; auto; discriminate).
  assert (ND1 : nondecreasing t0 (cs ++ [(WElapsed, t)]) /\ nondecreasing t (cs' ++ [(WElapsed, t')])).
  { revert t0 ND W. induction cs as [|c cs IH]; intros t0 ND W; cbn in ND |- *; [tauto|]. destruct ND as (A & B). destruct (IH _ B) as (C & D); auto. split; cbn; auto; discriminate. }
  destruct ND1 as (ND1 & ND2). unfold w_run. rewrite fold_left_app. cbn [fold_left]. unfold w_step at 3. cbn [fst].
  apply steps_le; auto. eapply okw_run; eauto.
Qed.
End Mono.
Lemma watch_mono_real tick t0 cs t cs' t' : 0 <= tick -> nondecreasing t0 (cs ++ [(WElapsed, t)] ++ cs' ++ [(WElapsed, t')]) -> existsb is_reset cs' = false ->
  w_elapsed (N:=RN) (exact_secs tick) t (run tick cs) <= w_elapsed (N:=RN) (exact_secs tick) t' (run tick (cs ++ (WElapsed, t) :: cs')).
Proof.
  intros T ND Rs. apply Rleb_true.
  assert (S : forall z, (0 <= z)%Z -> 0 <= exact_secs tick z) by (intros z Hz; unfold exact_secs; apply Rmult_le_pos; auto; apply IZR_le; auto).
  assert (Z0 : @nzero RN = 0) by (unfold nzero; cbn; apply q0).
  refine (watch_mono (N:=RN) (exact_secs tick) (fun x => 0 <= x) _ S _ _ _ _ _ _ t0 cs t cs' t' ND Rs); cbn [nleb nadd RN car].
  - rewrite Z0. lra.
  - intros; lra.
  - intros; apply Rleb_true; lra.
  - intros x y z _ _ _ A B. apply Rleb_true. apply Rleb_true in A, B. lra.
  - intros; apply Rleb_true; lra.
  - intros x y z _ _ _ A. apply Rleb_true. apply Rleb_true in A. lra.
  - intros y z H. apply Rleb_true. unfold exact_secs. apply Rmult_le_compat_r; auto. apply IZR_le. lia.
Qed.
