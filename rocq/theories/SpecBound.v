(** * How long library code runs by itself *)
From Verif Require Export SpecOwn.

(** The thread with stack [st] is in library code: no code of the client is on top, and
    it is not the destructor of one of its functors that has just returned.  (Combiners and the
    comparison of two slots count as code of the client here, also the default combiner.) *)
Definition in_library (st : list frame) : Prop :=
  match st with
  | [] | FProg _ :: _ | FRet _ :: FDtor _ :: _ => False
  | _ => True
  end.

(** [lib_run e t n w w']: from [w] to [w'] thread [t] makes [n] steps, all of them in
    library code; meanwhile the other threads do what they like.  Waiting for a mutex is
    not a step. *)
Inductive lib_run (e : env) (t : tid) : nat -> world -> world -> Prop :=
| LR_start w : lib_run e t 0 w w
| LR_own n w w1 w2 st fail : lib_run e t n w w1 -> w_thr w1 !! t = Some st -> in_library st ->
    step e w1 t fail = SOk w2 -> lib_run e t (S n) w w2
| LR_other n w w1 w2 u fail : lib_run e t n w w1 -> u <> t -> step e w1 u fail = SOk w2 -> lib_run e t n w w2.
