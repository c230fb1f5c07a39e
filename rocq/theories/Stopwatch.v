(** Stopwatch: /repo/src/factorama/stopwatch.hpp.  Time points of the clock are integers (ticks); [secs] is the conversion of a
    difference of time points to [duration<double>]. *)
From Coq Require Import List ZArith.
From Verif Require Import Base.
Import ListNotations.

Section Stopwatch.
Context {N : num} (secs : Z -> N).

(** stopwatch.hpp:53-56; start_time_ of a watch that was never started is the clock's epoch *)
Record watch : Type := Watch { w_running : bool; w_acc : N; w_start : Z }.
(** stopwatch.hpp:9-13 *)
Definition w_new : watch := Watch false nzero 0.
(** stopwatch.hpp:15-22; [t] is what the clock shows *)
Definition w_startf (t : Z) (w : watch) : watch := if w_running w then w else Watch true (w_acc w) t.
(** stopwatch.hpp:24-33 *)
Definition w_stop (t : Z) (w : watch) : watch :=
  if w_running w then Watch false (nadd (w_acc w) (secs (t - w_start w))) (w_start w) else w.
(** stopwatch.hpp:35-39 *)
Definition w_reset (w : watch) : watch := Watch false nzero (w_start w).
(** stopwatch.hpp:41-50 *)
Definition w_elapsed (t : Z) (w : watch) : N :=
  if w_running w then nadd (w_acc w) (secs (t - w_start w)) else w_acc w.

(** the calls a program can make, each at the time the clock shows *)
Inductive wop : Set := WStart | WStop | WReset | WElapsed.
Definition w_step (w : watch) (c : wop * Z) : watch :=
  match fst c with
  | WStart => w_startf (snd c) w
  | WStop => w_stop (snd c) w
  | WReset => w_reset w
  | WElapsed => w
  end.
Definition w_run (cs : list (wop * Z)) : watch := fold_left w_step cs w_new.
End Stopwatch.
