(** A direction that no factor responds to is a direction the Jacobian does not see; Gauss-Newton then ends with FAILED. *)
From Coq Require Import List Arith ZArith Bool Reals Lra Lia.
From Verif Require Import Base ListLemmas Sparse Graph SpecGraph SpecOpt Geom Vars VarsLemmas Optimizer OptLemmas OptWork OptLM OptRun OptMore Real RSum SpecSolver SpecSteps SpecBlocks OptOrder
  SpecFactor GraphBasic OptLinear OptSteps OptVerdict.
Import ListNotations.
Local Open Scope nat_scope.
Set Bullet Behavior "Strict Subproofs".

Lemma lsum_zero {A} (l : list A) f : (forall a, In a l -> f a = 0%R) -> lsum l f = 0%R.
Proof. intros H. rewrite (lsum_ext l f (fun _ => 0%R) H). clear H. induction l as [|a l IH]; [reflexivity|]. unfold lsum in *. cbn. rewrite IH. ring. Qed.
Lemma lsum_plus {A} (l : list A) f g : lsum l (fun a => f a + g a)%R = (lsum l f + lsum l g)%R.
Proof. induction l as [|a l IH]; unfold lsum in *; cbn; [ring|]. rewrite IH. ring. Qed.
Lemma lsum_one (l : list nat) a X : NoDup l -> In a l -> lsum l (fun b => if b =? a then X else 0%R) = X.
Proof.
  induction 1 as [|b l Hb Nd IH]; intros Ha; [destruct Ha|]. destruct Ha as [->|Ha].
  - change (lsum (a :: l) ?f) with (f a + lsum l f)%R. cbn beta. rewrite Nat.eqb_refl. rewrite lsum_zero; [ring|]. intros c Hc.
    destruct (Nat.eqb_spec c a) as [->|]; [contradiction|reflexivity].
  - change (lsum (b :: l) ?f) with (f b + lsum l f)%R. cbn beta. rewrite (IH Ha). destruct (Nat.eqb_spec b a) as [->|]; [contradiction|ring].
Qed.

Notation rheap := (@heap (lvar RN)).
Definition block_of (vars : list (option addr)) (js : list (mat RN)) (a : addr) (i c : nat) : R :=
  match listed_at a vars with Some q => match nth_error js q with Some B => mat_at B i c | None => 0%R end | None => 0%R end.
Lemma listed_none a vars : ~ In (Some a) vars -> listed_at a vars = None.
Proof.
  induction vars as [|[b|] t IH]; intros H; cbn; auto.
  - destruct (Nat.eqb_spec a b) as [->|n]; [exfalso; apply H; left; reflexivity|]. rewrite IH; [reflexivity|]. intros K. apply H. right. exact K.
  - rewrite IH; [reflexivity|]. intros K. apply H. right. exact K.
Qed.
Lemma term_width (h : rheap) D a M i : term h D a M i = rsum (width (lib RN) h a) (fun c => mat_at M i c * nth c (D a) 0)%R.
Proof. unfold term, width. destruct (nth_error h a) as [v|]; [|reflexivity]. cbn [vconst lib]. destruct (l_const v); reflexivity. Qed.
Lemma response_sum (h : rheap) D vs i : NoDup vs -> forall vars js,
  (forall p, In p vars -> exists a, p = Some a /\ (width (lib RN) h a <> 0 -> In a vs)) ->
  NoDup (filter (fun p => match p with Some a => negb (width (lib RN) h a =? 0) | None => false end) vars) ->
  lsum vs (fun b => rsum (width (lib RN) h b) (fun c => block_of vars js b i c * nth c (D b) 0)%R) = response h D vars js i.
Proof.
  intros Nd. induction vars as [|p t IH]; intros js Hv Hd.
  - cbn. apply lsum_zero. intros b _. apply rsum_zero. intros c _. unfold block_of. cbn. ring.
  - destruct (Hv p (or_introl eq_refl)) as (a & -> & Ha). destruct js as [|M js].
    + cbn [response]. apply lsum_zero. intros b _. apply rsum_zero. intros c _. unfold block_of. destruct (listed_at b _) as [[|]|]; cbn; ring.
    + cbn [response]. assert (Ht : forall p, In p t -> exists a, p = Some a /\ (width (lib RN) h a <> 0 -> In a vs)) by (intros p Hp; apply Hv; right; exact Hp).
      rewrite term_width. cbn [filter] in Hd. destruct (Nat.eqb_spec (width (lib RN) h a) 0) as [W|W]; cbn [negb] in Hd.
      * rewrite <- (IH js Ht Hd), W. rewrite (rsum_zero 0) by (intros; lia). rewrite Rplus_0_l. apply lsum_ext. intros b _. apply rsum_ext. intros c Hc.
        f_equal. unfold block_of. cbn [listed_at]. destruct (Nat.eqb_spec b a) as [->|n]; [lia|]. destruct (listed_at b t); reflexivity.
      * inversion Hd as [|? ? Hn Hd' Eq]; subst. rewrite <- (IH js Ht Hd').
        assert (Na : ~ In (Some a) t).
        { intros K. apply Hn. apply filter_In. split; [exact K|]. destruct (Nat.eqb_spec (width (lib RN) h a) 0); [contradiction|reflexivity]. }
        rewrite <- (lsum_one vs a (rsum (width (lib RN) h a) (fun c => mat_at M i c * nth c (D a) 0)%R) Nd (Ha W)), <- lsum_plus. apply lsum_ext. intros b _.
        destruct (Nat.eqb_spec b a) as [->|n].
        -- rewrite <- rsum_plus. apply rsum_ext. intros c _. unfold block_of. rewrite (listed_none _ _ Na). cbn [listed_at]. rewrite Nat.eqb_refl. cbn. ring.
        -- rewrite Rplus_0_l. apply rsum_ext. intros c _. f_equal. unfold block_of. cbn [listed_at]. destruct (Nat.eqb_spec b a); [contradiction|]. destruct (listed_at b t); reflexivity.
Qed.
Lemma first_order_response (h : rheap) D vs (f : factor (N:=RN) (V:=lvar RN)) js i : NoDup vs -> factor_wf (lib RN) h vs f -> f_jac f h [] = (js, Ok tt) ->
  first_order (lib RN) h vs (fun a c => nth c (D a) 0%R) f i = response h D (f_vars f) js i.
Proof.
  intros Nd (_ & W1 & W2) E. rewrite <- (response_sum h D vs i Nd (f_vars f) js).
  - unfold first_order. apply lsum_ext. intros b _. apply rsum_ext. intros c _. f_equal. unfold deriv, block_of. rewrite E. reflexivity.
  - intros p Hp. destruct (W1 p Hp) as (a & v & -> & Hv & Hm & _). exists a. split; [reflexivity|]. unfold width. rewrite Hv. intros K. destruct (vconst (lib RN) v); [contradiction|]. apply Hm. reflexivity.
  - exact W2.
Qed.

(** a direction that changes nothing *)
Lemma first_order_unobservable {V : Type} (VC : vclass RN V) (h : @heap V) vs (fs : list (factor (N:=RN) (V:=V))) J d :
  jacobian_at VC h vs fs J -> (forall f i, In f fs -> i < f_rsize f -> first_order VC h vs d f i = 0%R) ->
  (exists a c, In a vs /\ c < width VC h a /\ d a c <> 0%R) -> exists x, unobservable J x.
Proof.
  intros HJ H0 (a & c & Ha & Hc & Hd). destruct (jacobian_parts VC _ _ _ _ HJ) as (R1 & R2 & R3). destruct (parts_to (width VC h) vs d) as (x & Lx & Dx).
  exists x. split; [congruence|]. rewrite R1, R2. split.
  - apply In_nth_error in Ha. destruct Ha as (k & Hk). exists (list_sum (firstn k (map (width VC h) vs)) + c). split; [pose proof (part_below (width VC h) vs k a Hk); lia|].
    rewrite (Dx k a c Hk Hc). exact Hd.
  - intros k Hk. destruct (part_of _ _ _ Hk) as (m & f & i & Hm & Hi & ->). refine (eq_trans _ (H0 f i (nth_error_In _ _ Hm) Hi)).
    apply (parts_sum (width VC h) vs (fun b c => deriv h f b i c * d b c)%R). intros q b e Hq He.
    exact (f_equal2 Rmult (R3 m f q b i e Hm Hq Hi He) (Dx q b e Hq He)).
Qed.

(** as [gn_unobservable]; that there is a Jacobian follows from the completed step *)
Theorem gn_blind {V : Type} (VC : vclass RN V) {S : Type} (SV : solver RN S) (EV : nat -> env (N:=RN) (V:=V)) :
  vclass_ok VC -> (forall n, env_ok (EV n)) -> factorising_solver SV ->
  forall l1 l2 h1 g1 (p p' : pstate (N:=RN) (V:=V) (S:=S)),
  finalized_history VC l1 l2 h1 (p_heap p) g1 (p_graph p) -> unfinalized VC ([], empty_graph) l1 ->
  let vs := get_all_variables (p_graph p) in let fs := get_all_factors (p_graph p) in
  Forall (factor_wf VC (p_heap p) vs) fs -> some_active VC (p_heap p) fs -> Forall buf_indep fs -> shape_contract VC (p_heap p) fs ->
  st_method (p_set p) = GaussNewton -> 1 <= st_max_iter (p_set p) -> (forall J, jacobian_at VC (p_heap p) vs fs J -> exists x, unobservable J x) ->
  optimize VC SV EV p = (p', Ok tt) -> p_caught p' = false ->
  ss_status (p_cur p') = FAILED /\ p_heap p' = p_heap p /\ ss_iter (p_cur p') = 0.
Proof.
  intros Hok HE HF l1 l2 h1 g1 p p' HFi Hu vs fs Hwf Hact Hbuf Hsh Hm Hn Hx E Hc. apply optimize_ok in E. destruct E as (Hg & g & r0 & p2 & Cr & L & ->).
  destruct (begun_on VC EV Hok HE l1 l2 h1 g1 p g r0 HFi Cr) as (On & Hl).
  destruct (st_max_iter (p_set p)) as [|n] eqn:En; [lia|]. cbn [opt_loop] in L. unfold one_step in L. change (p_set (begin_run g r0 p)) with (p_set p) in L. rewrite Hm in L.
  destruct (gn_step VC SV EV (begin_run g r0 p)) as [p3 [[]|e|u]] eqn:Eg; [| |discriminate].
  2: { unfold m_fail, mupd in L. injection L as <-. unfold end_run in Hc. cbn in Hc. discriminate. }
  assert (Hh : healthy (p_cur (begin_run g r0 p))) by (split; simpl; auto).
  destruct (gn_verdict VC SV EV Hok HE HF l1 h1 g1 (p_heap p) vs fs Hu Hl Hwf Hact Hbuf Hsh (begin_run g r0 p) p3 On Hh Eg) as (J & A & B & C & D).
  destruct (Hx J A) as (x & X).
  assert (Es : ss_status (p_cur p3) = FAILED) by (destruct (ss_status (p_cur p3)) eqn:Es; auto; exfalso; (eapply C; [discriminate|exact X])).
  rewrite Es in L. injection L as <-. unfold end_run. rewrite Es. cbn. split; auto.
  destruct (gn_failed VC SV EV _ _ Eg Hh) as (G1 & G2 & _); [left; exact Es|]. split; [exact G1|exact G2].
Qed.
