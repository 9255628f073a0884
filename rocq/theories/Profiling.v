(** Model of TimeProfiling (/repo/src/common/time_profiling.cpp,
    mrob/time_profiling.hpp).

    steady_clock::now() is an argument: nanoseconds since the epoch of the clock,
    an integer.  Counts are kept as doubles in the code, exact up to 2^53
    microseconds: here integers, without bound. *)
Require Import ZArith Reals List String.
Import ListNotations.
Local Open Scope Z_scope.

(** time_profiling.hpp:75-76 *)
Record profiler : Type := mkProfiler { t1 : Z; time_profiles : list (string * Z) }.
(** time_profiling.cpp:29-32: a time_point is the epoch of the clock *)
Definition profiler_new : profiler := mkProfiler 0 [].
(** lines 39-43 *)
Definition reset (now : Z) (p : profiler) : profiler := mkProfiler now [].
(** lines 45-48 *)
Definition start (now : Z) (p : profiler) : profiler := mkProfiler now (time_profiles p).
(** lines 50-55: duration_cast to microseconds truncates *)
Definition stop (now : Z) (key : string) (p : profiler) : profiler :=
  mkProfiler (t1 p) (time_profiles p ++ [(key, Z.quot (now - t1 p) 1000)]).
(** lines 68-74 *)
Definition total_time (p : profiler) : Z := fold_left (fun s t => s + snd t) (time_profiles p) 0.
(** lines 58-66: the percentages printed; [None]: 0/0 or x/0 *)
Definition shares (p : profiler) : option (list (string * R)) :=
  if Z.eqb (total_time p) 0 then None
  else Some (map (fun t => (fst t, (IZR (snd t) / IZR (total_time p) * 100)%R)) (time_profiles p)).

Inductive prof_op : Type :=
| Reset (now : Z) | Start (now : Z) | Stop (now : Z) (key : string).
Definition prof_step (p : profiler) (o : prof_op) : profiler :=
  match o with
  | Reset n => reset n p
  | Start n => start n p
  | Stop n k => stop n k p
  end.
Definition prof_run (ops : list prof_op) : profiler := fold_left prof_step ops profiler_new.
