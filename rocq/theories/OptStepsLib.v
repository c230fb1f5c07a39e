(** The hypotheses on factors made by [C56]/[C58] hold of the library's factor classes. *)
From Coq Require Import List Arith ZArith Bool Lia Reals.
From Verif Require Import Base Sparse Graph SpecGraph Real ListLemmas Geom Vars VarsLemmas FactorsLin FactorsGeo SpecFactor FactorLib SpecShape FactorShape FactorSafe SpecSteps.
Set Bullet Behavior "Strict Subproofs".
Import ListNotations.
Local Open Scope nat_scope.

Notation rvar := (lvar RN).
Lemma revalued_lib (h h' : @heap rvar) : revalued (lib RN) h h' -> shapely h -> 
  (extends h h' /\ shapely h') /\ forall a v', nth_error h' a = Some v' -> exists v, nth_error h a = Some v /\ l_const v = l_const v'.
Proof.
  intros R S. induction R as [|h1 h2 a v v' d R IH A B C D E]; [split; [split; [apply extends_refl|exact S]|eauto]|].
  destruct IH as ((X & S1) & Y). pose proof B as B0. apply with_kind_ok in B. destruct (kinc_keeps _ _ _ (S1 _ _ A) B) as (K1 & K2). split; [split|].
  - eapply extends_trans; [exact X|]. intros b w Hb. destruct (Nat.eq_dec b a) as [->|n].
    + exists v'. split; auto. assert (w = v) as -> by congruence. exact K1.
    + exists w. rewrite (E b n). split; auto. apply same_class_refl.
  - intros b w Hb. destruct (Nat.eq_dec b a) as [->|n]; [assert (w = v') as -> by congruence; exact K2|]. rewrite (E b n) in Hb. eauto.
  - intros b w Hb. destruct (Nat.eq_dec b a) as [->|n].
    + assert (w = v') as -> by congruence. destruct (Y _ _ A) as (u & U1 & U2). exists u. split; auto. rewrite U2.
      pose proof (ok_inc _ lib_ok _ _ _ B0) as (_ & _ & K). symmetry. exact K.
    + rewrite (E b n) in Hb. eauto.
Qed.
Lemma lib_contract (h : @heap rvar) (fs : list (factor (N:=RN) (V:=rvar))) : shapely h ->
  Forall (fun f => exists lf, f = build lf /\ well_used h lf) fs -> shape_contract (lib RN) h fs.
Proof.
  intros S W h' f js R Hf Hj. destruct (revalued_lib _ _ R S) as ((X & S') & Y).
  rewrite Forall_forall in W. destruct (W _ Hf) as (lf & -> & U).
  destruct (lib_safe h' lf (well_used_kept _ _ _ X S' U)) as (_ & _ & B). destruct (B [] (br_nil _)) as (_ & C). rewrite Hj in C. exact (C eq_refl).
Qed.
Lemma lib_history l1 l2 h1 (h : @heap rvar) g1 g : finalized_history (lib RN) l1 l2 h1 h g1 g -> careful ([], empty_graph) l1 -> careful (h1, g1) l2 ->
  Forall buf_indep (get_all_factors g) /\ shape_contract (lib RN) h (get_all_factors g).
Proof.
  intros HF C1 C2. destruct (sound_history _ _ _ _ _ _ HF C1 C2) as (S & W). cbn [fst snd] in *. split; [|apply lib_contract; auto].
  eapply Forall_impl; [|exact W]. intros f (lf & -> & _). apply lib_buf_indep.
Qed.
