(** * C55: how long library code runs by itself *)
From Verif Require Import OpBound.

(** A thread that is in library code comes to code of the client - a slot function, an
    operator==, a destructor, a combiner, or the caller to which the call returns - after
    at most 8 of its own steps, whatever the other threads do in between; this does not
    depend on the number of slots or signals. *)
Theorem C55_library_runs_are_bounded e ps t n w w' :
  reachable e ps w -> lib_run e t n w w' -> n <= 8.
Proof. exact (library_steps e ps t n w w'). Qed.
Print Assumptions C55_library_runs_are_bounded.
Example C55_longest : exists w w', reachable x2_env [h2_prog] w /\ lib_run x2_env 0 8 w w' /\
  stack_is w 0 (fun st => match st with FDisc 1 :: FAssign 1 (Some 0) 1 :: _ => true | _ => false end) = true.
Proof. exact ex_C55. Qed.
