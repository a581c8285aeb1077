(** * Specification: who waits for whom *)
From Verif Require Export SpecAtomic SpecState.

(** The call of [p] that begins in [w0] works with the mutex of [s] locked, or of the signal
    of the slot it disconnects. *)
Definition locks (w0 : world) (p : op) (s : sid) : Prop := op_sig p = Some s \/ exists l, disconnects w0 p l.

(** Thread [t] runs code that holds no mutex: what runs is not between lock and unlock of a
    signal and neither an operator== nor a functor's destructor called there. *)
Definition outside (w : world) (t : tid) : Prop :=
  forall f st, w_thr w !! t = Some (f :: st) -> calm (f :: st) /\ forall s, ~ in_section s f.

(** The call with the continuation [k], [st] in thread [t] has locked the mutex of [s], and
    the next step is one of the call itself, not of client code that it runs. *)
Definition holds_in (t : tid) (s : sid) (k : out -> prog) (st : list frame) (w : world) : Prop :=
  exists c, w_thr w !! t = Some (c ++ FWait k :: st) /\ (forall f, f ∈ c -> client_frame f = false) /\ exists f, f ∈ c /\ in_section s f.
(** [n] such steps, while the other threads do what they like. *)
Inductive section_run (e : env) (t : tid) (s : sid) (k : out -> prog) (st : list frame) : nat -> world -> world -> Prop :=
| R_start w : holds_in t s k st w -> section_run e t s k st 0 w w
| R_own n w w1 w2 fail : section_run e t s k st n w w1 -> step e w1 t fail = SOk w2 -> holds_in t s k st w2 -> section_run e t s k st (S n) w w2
| R_other n w w1 w2 u fail : section_run e t s k st n w w1 -> u <> t -> step e w1 u fail = SOk w2 -> section_run e t s k st n w w2.
