(** Specification: graphs with further measurements that agree with the present estimate. *)
From Coq Require Import List Arith ZArith Bool Reals Permutation.
From Verif Require Import Base Sparse Graph SpecGraph Real.
Import ListNotations.
Local Open Scope nat_scope.

Section Agree.
Context {V : Type}.
Notation factor := (factor (N:=RN) (V:=V)).
(** the residual of the factor is zero *)
Definition agrees (h : @heap V) (f : factor) : Prop := exists x : list R, f_res_ref f h = Ok x /\ forall y, In y x -> y = 0%R.
(** the second graph has all variables and factors of the first; its further factors, of whichever variables, agree with the values *)
Definition grown_agreeing (h : @heap V) (vs vs' : list addr) (fs fs' : list factor) : Prop :=
  incl vs vs' /\ exists more, Permutation fs' (fs ++ more) /\ Forall (agrees h) more.
End Agree.
