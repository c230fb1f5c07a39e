(** Proofs for PropsSizes. *)
From Coq Require Import List Arith ZArith Bool Lia.
From Verif Require Import Base ListLemmas Sparse Graph Geom Vars FactorLib SpecShape.
Import ListNotations.
Local Open Scope nat_scope.

Section VarSizes.
Context {N : num}.
Notation heap := (@heap (lvar N)).
Notation graph := (graph (N:=N) (V:=lvar N)).
Notation env := (env (N:=N) (V:=lvar N)).
Lemma neqb a b : a <> b -> (a =? b) = false. Proof. apply Nat.eqb_neq. Qed.
Lemma set_step E (h : heap) (g : graph) a v x : nth_error h a = Some v ->
  step (lib N) E (h, g) (OSetVal a x) =
  match with_kind v (kset (l_kind v) x) with Ok v' => ((lupd a v' h, g), AUnit (Ok tt)) | Throw e => ((h, g), AUnit (Throw e)) | UB u => ((h, g), AUnit (UB u)) end.
Proof. intros H. cbn [step]. unfold hupd, hget. rewrite H. cbn [vset lib]. destruct (with_kind v (kset (l_kind v) x)); reflexivity. Qed.
Lemma inc_step E (h : heap) (g : graph) a v x : nth_error h a = Some v ->
  step (lib N) E (h, g) (OIncVal a x) =
  match with_kind v (kinc (l_kind v) x) with Ok v' => ((lupd a v' h, g), AUnit (Ok tt)) | Throw e => ((h, g), AUnit (Throw e)) | UB u => ((h, g), AUnit (UB u)) end.
Proof. intros H. cbn [step]. unfold hupd, hget. rewrite H. cbn [vinc lib]. destruct (with_kind v (kinc (l_kind v) x)); reflexivity. Qed.
Lemma inc_rejects E (h : heap) (g : graph) a v x : nth_error h a = Some v -> ~ is_rotation (l_kind v) -> length x <> ksize (l_kind v) ->
  step (lib N) E (h, g) (OIncVal a x) = ((h, g), AUnit (Throw EVarSizeMismatch)).
Proof.
  intros H R L. rewrite (inc_step _ _ _ _ _ _ H). destruct (l_kind v); cbn [kinc ksize is_rotation] in *; try rewrite (neqb _ _ L); cbn; try reflexivity. contradiction R. exact I.
Qed.
Lemma set_rejects E (h : heap) (g : graph) a v x : nth_error h a = Some v -> is_generic (l_kind v) \/ is_plane (l_kind v) \/ is_pose2 (l_kind v) ->
  length x <> ksize (l_kind v) -> step (lib N) E (h, g) (OSetVal a x) = ((h, g), AUnit (Throw EVarSizeMismatch)).
Proof.
  intros H R L. rewrite (set_step _ _ _ _ _ _ H). destruct (l_kind v); cbn [kset ksize is_generic is_plane is_pose2] in *;
    try (exfalso; tauto); rewrite (neqb _ _ L); reflexivity.
Qed.
Lemma at_upd (h : heap) a v v' : nth_error h a = Some v -> nth_error (lupd a v' h) a = Some v'.
Proof. intros H. apply lupd_nth_same. apply nth_error_Some. congruence. Qed.
Lemma set_accepts E (h : heap) (g : graph) a v x : nth_error h a = Some v ->
  is_landmark (l_kind v) \/ (is_pose (l_kind v) /\ 6 < length x) \/ (is_inverse (l_kind v) /\ 1 < length x) ->
  exists h' v', step (lib N) E (h, g) (OSetVal a x) = ((h', g), AUnit (Ok tt)) /\ nth_error h' a = Some v' /\
    length (vval (lib N) v') = length x /\ vsize (lib N) v' = vsize (lib N) v.
Proof.
  intros H R. rewrite (set_step _ _ _ _ _ _ H). destruct v as [id c k]. cbn [l_kind] in *. destruct k; cbn [is_landmark is_pose is_inverse] in R; try (exfalso; tauto).
  - cbn. eexists _, _. split; [reflexivity|]. split; [exact (at_upd _ _ _ _ H)|]. split; reflexivity.
  - destruct R as [[]|[[_ L]|[[] _]]]. cbn [kset]. rewrite (proj2 (Nat.ltb_ge _ _)) by lia. cbn. eexists _, _. split; [reflexivity|]. split; [exact (at_upd _ _ _ _ H)|]. split; reflexivity.
  - destruct R as [[]|[[[] _]|[_ L]]]. destruct x as [|y t]; [cbn in L; lia|]. cbn. eexists _, _. split; [reflexivity|]. split; [exact (at_upd _ _ _ _ H)|]. split; reflexivity.
Qed.
Lemma set_undefined E (h : heap) (g : graph) a v x : nth_error h a = Some v -> length x <> ksize (l_kind v) ->
  is_rotation (l_kind v) \/ (is_pose (l_kind v) /\ length x < 6) \/ (is_inverse (l_kind v) /\ x = []) ->
  exists u, step (lib N) E (h, g) (OSetVal a x) = ((h, g), AUnit (UB u)).
Proof.
  intros H L R. rewrite (set_step _ _ _ _ _ _ H). destruct v as [id c k]. cbn [l_kind] in *. destruct k; cbn [is_rotation is_pose is_inverse] in R; try (exfalso; tauto).
  - destruct R as [[]|[[_ R]|[[] _]]]. cbn [kset]. rewrite (proj2 (Nat.ltb_lt _ _)) by lia. eexists. reflexivity.
  - cbn [kset]. unfold to_v3. cbn [ksize] in L. rewrite (neqb _ _ L). eexists. reflexivity.
  - destruct R as [[]|[[[] _]|[_ ->]]]. eexists. reflexivity.
Qed.
Lemma inc_undefined E (h : heap) (g : graph) a v x : nth_error h a = Some v -> is_rotation (l_kind v) -> length x <> ksize (l_kind v) ->
  exists u, step (lib N) E (h, g) (OIncVal a x) = ((h, g), AUnit (UB u)).
Proof.
  intros H R L. rewrite (inc_step _ _ _ _ _ _ H). destruct v as [id c k]. cbn [l_kind] in *. destruct k; try contradiction. cbn [kinc ksize] in *. unfold to_v3. rewrite (neqb _ _ L). eexists. reflexivity.
Qed.
End VarSizes.
