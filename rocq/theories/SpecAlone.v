(** * Threads that only emit: vocabulary *)
From Verif Require Export Machine SpecCall.

(** Operations that do not change what others can see: emissions, the combiner's use of its
    iterator, queries, reading a client integer. *)
Definition looks (o : op) : Prop :=
  match o with
  | OEmit _ _ | ODeref _ => True
  | OVar (VValid _) | OVar (VConnected _) | OVar (VBlocked _) | OVar (VRead _) => True
  | _ => False
  end.
Inductive only_looks : prog -> Prop :=
| ol_ret o : only_looks (Ret o)
| ol_do o k : looks o -> (forall r, only_looks (k r)) -> only_looks (Do o k).
(** All callables and combiners only look. *)
Definition looking_client (e : env) : Prop :=
  (forall r c args, only_looks (e_body e r c args)) /\ (forall k n, only_looks (e_comb e k n)).
(** Thread with stack [st] has finished, or is about to run a program that only looks. *)
Definition looker (st : list frame) : Prop :=
  (exists o, st = [FRet o]) \/ (exists p, st = [FProg p] /\ only_looks p).
Definition all_lookers (w : world) : Prop := forall t st, w_thr w !! t = Some st -> looker st.

(** An event without the number of its emission and without the time at which the call of the
    slot began: these numbers depend on what other threads do. *)
Definition unnumbered (ev : event) : event :=
  match ev with
  | EEmit t _ s args xs => EEmit t 0 s args xs
  | EDeref t _ pos l r => EDeref t 0 pos l r
  | EEmitRet t _ o => EEmitRet t 0 o
  | ECall t r eid c args _ => ECall t r ((fun _ => 0) <$> eid) c args 0
  | ERet t r eid o => ERet t r ((fun _ => 0) <$> eid) o
  | ESkip t r eid _ => ESkip t r ((fun _ => 0) <$> eid) 0
  | ev => ev
  end.
(** What thread [t] did between [w0] and [w]. *)
Definition done_by (t : tid) (w0 w : world) (evs : list event) : Prop :=
  exists new, w_log w = new ++ w_log w0 /\ evs = map unnumbered (mine t new).
(** Thread [t] alone for [n] steps. *)
Definition alone (t : tid) (n : nat) : sched := repeat (t, MOk) n.
Definition finished_with (w : world) (t : tid) (o : out) : Prop := w_thr w !! t = Some [FRet o].

(** ** A loop of emissions, as in invoke_many (tests/signal_tests.cpp, 233-240) *)
Fixpoint emit_many (m : nat) (s : sid) (args : list arg) : prog :=
  match m with O => Ret OutUnit | S m => Do (OEmit s args) (fun _ => emit_many m s args) end.
(** The slots called, in order of time; logs begin with the latest event. *)
Definition called_slot (ev : event) : option lid :=
  match ev with ECall _ (RSlot l) _ _ _ _ => Some l | _ => None end.
Definition slots_called (new : list event) : list lid := rev (omap called_slot new).
(** Signal [s] exists, is combined by optional_last_value, and its list is [xs], whose slots are
    connected, not blocked and not expired. *)
Definition ready (w : world) (s : sid) (xs : list lid) : Prop :=
  exists r v, w_sigs w !! s = Some r /\ sg_alive r = true /\ sg_blocked r = false /\ sg_comb r = None /\ sg_vec r = Some v /\
    w_vecs w !! v = Some xs /\
    Forall (fun l => exists i, get_ref w (RSlot l) = Some i /\ im_conn i = true /\ im_blk i = false /\ expired w (im_c i) = false) xs.
(** The callables return at once, and do not throw. *)
Definition simple_bodies (e : env) : Prop :=
  forall r c args, exists o x, e_body e r c args = Ret o /\ wrap e o = Some (OutOpt x).
(** Every thread has finished, or is about to run such a loop. *)
Definition loops (w : world) : Prop :=
  forall t st, w_thr w !! t = Some st ->
    (exists o, st = [FRet o]) \/ exists m s args xs, st = [FProg (emit_many m s args)] /\ ready w s xs.
(** ** Fair schedules *)
(** [sc] consists of [k] parts, each with a turn for each of [n] threads. *)
Definition rounds (n k : nat) (sc : sched) : Prop :=
  exists parts, sc = concat parts /\ length parts = k /\ Forall (fun part => forall t, t < n -> exists m, (t, m) ∈ part) parts.
(** Alone, every thread comes to its end. *)
Definition each_ends (e : env) (w : world) : Prop :=
  forall t st, w_thr w !! t = Some st -> exists n wt o, run e w (alone t n) = inl wt /\ finished_with wt t o.
