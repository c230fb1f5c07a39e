(** Specification: the same objects with the same values, some more of them constant. *)
From Coq Require Import List.
From Verif Require Import Base Graph Vars Real.
Import ListNotations.

Definition held_still (h h' : @heap (lvar RN)) : Prop :=
  Forall2 (fun v v' => l_id v' = l_id v /\ l_kind v' = l_kind v /\ (l_const v = true -> l_const v' = true)) h h'.
