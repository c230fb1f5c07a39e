(** Covariances of two graphs that differ in what was measured. *)
From Coq Require Import List Arith ZArith QArith Bool Lia Permutation Reals Lra.
From Verif Require Import Base Sparse Graph SpecGraph SpecOpt ListLemmas GraphLayout GraphFin GraphBasic GraphVec GraphDense Optimizer OptLemmas OptWork OptMore Real RSum SpecSolver SpecSteps OptSteps SpecBlocks OptOrder OptPart SpecCov CovRun SpecMarginal Marginal MarginalRun SpecGrown Grown GrownRun.
From Verif Require Import Geom Vars VarsLemmas FactorsLin FactorsGeo FactorLib SpecShape FactorSafe OptStepsLib SpecFree SpecDesign.
Import ListNotations.
Local Open Scope nat_scope.
Set Bullet Behavior "Strict Subproofs".

Section Core.
Context {V : Type} (VC : vclass RN V).
Notation factor := (factor (N:=RN) (V:=V)).
Context (h h' : @heap V) (vs : list addr) (fs gs : list factor).
Hypothesis Wd : forall a, In a vs -> width VC h' a = width VC h a.
Definition twin (f g : factor) : Prop := f_rsize g = f_rsize f /\ forall a i c, deriv h' g a i c = deriv h f a i c.
Hypothesis Tw : Forall2 twin fs gs.
Lemma first_order_twin d f g i : twin f g -> first_order VC h' vs d g i = first_order VC h vs d f i.
Proof. intros (_ & D). unfold first_order. apply lsum_ext. intros a Ha. rewrite (Wd a Ha). apply rsum_ext. intros c _. rewrite D. reflexivity. Qed.
Lemma twin_sum (F G : factor -> R) l m : Forall2 twin l m -> (forall f g, twin f g -> F f = G g) -> lsum l F = lsum m G.
Proof. intros Tw' H. induction Tw' as [|f g l m T _ IH]; [reflexivity|]. unfold lsum in *. cbn [fold_right]. rewrite IH, (H f g T). reflexivity. Qed.
Lemma unnoticed_twin d : unnoticed VC h' vs gs d <-> unnoticed VC h vs fs d.
Proof.
  assert (A : (exists a c, In a vs /\ c < width VC h' a /\ d a c <> 0%R) <-> (exists a c, In a vs /\ c < width VC h a /\ d a c <> 0%R)).
  { split; intros (a & c & Ha & Hc & X); exists a, c; [rewrite <- (Wd a Ha)|rewrite (Wd a Ha)]; auto. }
  assert (B : (forall f i, In f gs -> i < f_rsize f -> first_order VC h' vs d f i = 0%R) <-> (forall f i, In f fs -> i < f_rsize f -> first_order VC h vs d f i = 0%R)).
  { clear A. pose proof Tw as Tw'. revert Tw'. generalize fs, gs. intros l0 m0 Tw'. induction Tw' as [|f g l m T _ IH]; [split; intros _ f i []|]. destruct IH as (I1 & I2). pose proof (proj1 T) as Rs. split; intros H e i [<-|He] Hi.
    - rewrite <- (first_order_twin d f g i T). apply H; [left; reflexivity|lia].
    - apply I1; auto. intros e' i' He' Hi'. apply H; [right; exact He'|exact Hi'].
    - rewrite (first_order_twin d f g i T). apply H; [left; reflexivity|lia].
    - apply I2; auto. intros e' i' He' Hi'. apply H; [right; exact He'|exact Hi']. }
  unfold unnoticed. rewrite A, B. tauto.
Qed.
Lemma column_twin b e d : covariance_column VC h' vs gs b e d <-> covariance_column VC h vs fs b e d.
Proof.
  assert (X : forall a c, lsum fs (fun f => rsum (f_rsize f) (fun i => deriv h f a i c * first_order VC h vs d f i))%R = lsum gs (fun f => rsum (f_rsize f) (fun i => deriv h' f a i c * first_order VC h' vs d f i))%R).
  { intros a c. apply (twin_sum _ _ _ _ Tw). intros f g T. rewrite (proj1 T). apply rsum_ext. intros i _. rewrite (first_order_twin d f g i T), (proj2 T). reflexivity. }
  unfold covariance_column. split; intros H a c Ha Hc; [rewrite X|rewrite <- X]; apply H; auto; rewrite (Wd a Ha) in *; exact Hc.
Qed.
Lemma answers_twin est : answers VC h' vs gs est -> answers VC h vs fs est.
Proof.
  intros [((d & Hd) & N)|(X & K)]; [left|right].
  - split; [exists d; apply unnoticed_twin; exact Hd|exact N].
  - split; [intros d Hd; apply (X d); apply unnoticed_twin; exact Hd|]. intros b Hb Wb. rewrite <- (Wd b Hb) in Wb. destruct (K b Hb Wb) as (P & (M1 & M2 & M3) & A). rewrite (Wd b Hb) in *. exists P. split; [|exact A].
    split; [exact M1|]. split; [exact M2|]. intros e He. destruct (M3 e He) as ((d & Hd) & U). split; [exists d; apply column_twin; exact Hd|]. intros d' Hd' i Hi. apply U; [apply column_twin; exact Hd'|exact Hi].
Qed.
End Core.

Lemma design_free f f' : same_design f f' -> value_free f /\ value_free f'.
Proof. destruct f, f'; cbn; try contradiction; try (split; exact I); destruct loc; try contradiction; destruct loc0; try contradiction; split; exact I. Qed.
Lemma design_build f f' : same_design f f' -> f_rsize (build f') = f_rsize (build f) /\ f_vars (build f') = f_vars (build f) /\ forall h, f_jac (build f') h [] = f_jac (build f) h [].
Proof.
  destruct f, f'; cbn [same_design]; try contradiction; try (destruct loc; try contradiction; destruct loc0; try contradiction); intros X.
  - destruct X as (X & L). injection X as -> ->. cbn [build generic_prior f_rsize f_vars f_jac]. change (car RN) with R in *. rewrite L. auto.
  - injection X as -> -> -> -> ->. auto.
  - injection X as -> -> -> -> -> -> ->. auto.
  - injection X as -> ->. auto.
  - injection X as -> -> -> ->. auto.
  - injection X as -> -> ->. auto.
  - injection X as -> -> -> -> ->. auto.
Qed.

Theorem design_covariances {S S' : Type} (SV : solver RN S) (SV' : solver RN S') (EV EV' : nat -> env (N:=RN) (V:=lvar RN)) (HE : forall n, env_ok (EV n)) (HE' : forall n, env_ok (EV' n)) (HF : factorising_solver SV) (HF' : factorising_solver SV')
  l1 l1' l2 l2' h1 h1' g1 g1' (p p' : pstate (N:=RN) (V:=lvar RN) (S:=S)) (q q' : pstate (N:=RN) (V:=lvar RN) (S:=S')) (lfs lfs' : list (lib_factor RN)) :
  finalized_history (lib RN) l1 l2 h1 (p_heap p) g1 (p_graph p) -> unfinalized (lib RN) ([], empty_graph) l1 -> careful ([], empty_graph) l1 -> careful (h1, g1) l2 ->
  finalized_history (lib RN) l1' l2' h1' (p_heap q) g1' (p_graph q) -> unfinalized (lib RN) ([], empty_graph) l1' -> careful ([], empty_graph) l1' -> careful (h1', g1') l2' ->
  let vs := get_all_variables (p_graph p) in let fs := get_all_factors (p_graph p) in let vs' := get_all_variables (p_graph q) in let fs' := get_all_factors (p_graph q) in
  still_there (lib RN) (p_heap p) (p_heap q) -> (forall a, In a vs <-> In a vs') -> fs = map build lfs -> Permutation fs' (map build lfs') -> Forall2 same_design lfs lfs' ->
  Forall (factor_wf (lib RN) (p_heap p) vs) fs -> some_active (lib RN) (p_heap p) fs -> Forall (factor_wf (lib RN) (p_heap q) vs') fs' -> some_active (lib RN) (p_heap q) fs' ->
  st_method (p_set p) = GaussNewton \/ (forall a v, nth_error (p_heap p) a = Some v -> real_kind (l_kind v)) ->
  st_method (p_set q) = GaussNewton \/ (forall a v, nth_error (p_heap q) a = Some v -> real_kind (l_kind v)) ->
  1 <= st_max_iter (p_set p) -> 1 <= st_max_iter (p_set q) -> p_hvalid p = false -> p_hvalid q = false ->
  optimize (lib RN) SV EV p = (p', Ok tt) -> optimize (lib RN) SV' EV' q = (q', Ok tt) -> p_caught p' = false -> p_caught q' = false ->
  exists p1 q1, prepare SV p' = (p1, Ok tt) /\ prepare SV' q' = (q1, Ok tt) /\
    forall b, In b vs -> 0 < width (lib RN) (p_heap p) b -> same_answer (snd (estimate_covariance (lib RN) SV (Some b) p1)) (snd (estimate_covariance (lib RN) SV' (Some b) q1)).
Proof.
  intros A B C1 C2 A' B' C1' C2' vs fs vs' fs' Th Gv Ef Pf Ds W Ac W' Ac' Hm Hm' Hn Hn' Hv Hv' E E' Hc Hc'.
  destruct (lib_history _ _ _ _ _ _ A C1 C2) as (G1 & G2). destruct (lib_history _ _ _ _ _ _ A' C1' C2') as (G1' & G2').
  destruct (held_answers (lib RN) SV EV lib_ok HE HF (fun v => real_kind (l_kind v)) l1 l2 h1 g1 p p' A B W Ac G1 G2 (traceable_undoable p Hm) Hn Hv E Hc) as (Nd & Hl & h & p1 & R1 & P1 & An & _).
  destruct (held_answers (lib RN) SV' EV' lib_ok HE' HF' (fun v => real_kind (l_kind v)) l1' l2' h1' g1' q q' A' B' W' Ac' G1' G2' (traceable_undoable q Hm') Hn' Hv' E' Hc') as (Nd' & Hl' & h' & q1 & R1' & P1' & An' & _).
  fold vs fs in Nd, Hl, An. fold vs' fs' in Nd', Hl', An'. exists p1, q1. split; [exact P1|]. split; [exact P1'|].
  pose proof (revalued_hpres (lib RN) lib_ok _ _ R1) as T1. pose proof (hpres_trans (lib RN) true _ _ _ (proj1 (there_hpres (lib RN) _ _) Th) (revalued_hpres (lib RN) lib_ok _ _ R1')) as T2.
  assert (Wl : forall k a, hpres (lib RN) true (p_heap p) k -> In a vs -> width (lib RN) k a = width (lib RN) (p_heap p) a).
  { intros k a T Ha. rewrite Forall_forall in Hl. specialize (Hl a Ha). unfold width. destruct (nth_error (p_heap p) a) as [v|] eqn:Ev; [|apply nth_error_None in Ev; unfold addr in *; lia]. destruct (T a v Ev) as (v' & -> & _ & Sz & C). rewrite (C eq_refl), Sz. reflexivity. }
  assert (Pv : Permutation vs vs') by (apply NoDup_Permutation; auto).
  assert (Tw : Forall2 (twin h h') fs (map build lfs')).
  { rewrite Ef. assert (Lv : forall f, In f lfs -> forall a, In (Some a) (f_vars (build f)) -> a < length (p_heap p)).
    { intros f Hf a Ha. rewrite Forall_forall in W. destruct (W (build f)) as (_ & W1 & _); [rewrite Ef; apply in_map; exact Hf|]. destruct (W1 _ Ha) as (b & v & X & Y & _). injection X as <-. apply nth_error_Some. congruence. }
    clear - Ds T1 T2 Lv. induction Ds as [|f f' l l' D _ IH]; cbn [map]; constructor; [|apply IH; intros e He; apply Lv; right; exact He].
    destruct (design_build f f' D) as (X1 & X2 & X3). split; [exact X1|]. intros a i c. unfold deriv. rewrite X2, X3.
    pose proof (Lv f (or_introl eq_refl)) as La. destruct (design_free f f' D) as (Vf & _). rewrite (free_jacobian _ _ f Vf T1 La), (free_jacobian _ _ f Vf T2 La). reflexivity. }
  intros b Hb Wb.
  assert (An2 : answers (lib RN) h vs' fs (fun a => snd (estimate_covariance (lib RN) SV' (Some a) q1)) -> same_answer (snd (estimate_covariance (lib RN) SV (Some b) p1)) (snd (estimate_covariance (lib RN) SV' (Some b) q1))).
  { intros An2. apply (answers_perm (lib RN) h vs vs' fs fs _ _ Pv (Permutation_refl _) An An2 b Hb). rewrite (Wl h b T1 Hb). exact Wb. }
  apply An2. apply (answers_twin (lib RN) h h' vs' fs (map build lfs')); [|exact Tw|].
  - intros a Ha. apply Gv in Ha. rewrite (Wl h' a T2 Ha), (Wl h a T1 Ha). reflexivity.
  - destruct An' as [((d & Hd) & N)|(X & K)]; [left|right].
    + split; [exists d; exact (unnoticed_perm (lib RN) _ _ _ _ _ d (Permutation_refl _) Pf Hd)|exact N].
    + split; [intros d Hd; apply (X d); exact (unnoticed_perm (lib RN) _ _ _ _ _ d (Permutation_refl _) (Permutation_sym Pf) Hd)|].
      intros e He We. destruct (K e He We) as (P & M & Q). exists P. split; [exact (marginal_perm (lib RN) _ _ _ _ _ e P (Permutation_refl _) Pf M)|exact Q].
Qed.
