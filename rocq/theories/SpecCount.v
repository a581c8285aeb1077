(** * Specification: counting the calls of threads that connect and emit *)
From Verif Require Import SpecState TidyExamples.
From Verif Require Export SpecAlone SpecEnd SpecQuiet.

(** How many threads have not finished. *)
Definition stopped (st : list frame) : bool := match st with [FRet _] => true | _ => false end.
Definition working (w : world) : nat := length (filter (fun st => stopped st = false) (w_thr w)).

(** What [w0] has to be: a signal without slots, and threads that have finished or are about to run
    [connect_invoke] (TidyExamples.v) for some numbers. *)
Definition about_to_connect (w0 : world) : Prop :=
  (forall t s l, EErased t s l ∉ w_log w0) /\ (forall s1 s2, EMoveSig s1 s2 ∉ w_log w0) /\ signal_lives w0 0 /\ spec_comb (w_log w0) 0 = Some None /\ slots_of w0 0 = [] /\
  forall t st, w_thr w0 !! t = Some st -> (exists o, st = [FRet o]) \/ exists n m, st = [FProg (connect_invoke n m)].

