(** * Specification: when lists of slots are copied *)
From Verif Require Export SpecOwn SpecAtomic.

(** An emission in progress, in any thread, walks over list [v]. *)
Definition walked (w : world) (v : vid) : Prop :=
  exists t stk s eid args, w_thr w !! t = Some stk /\ FEmit s eid v args ∈ stk.
(** [v] is the list of the living signal [s]. *)
Definition list_of (w : world) (s : sid) (v : vid) : Prop :=
  exists r, w_sigs w !! s = Some r /\ sg_alive r = true /\ sg_vec r = Some v.
(** From [w] to [w'] the list [v] of [s] was replaced by a copy [v'] of it. *)
Definition copied (w w' : world) (s : sid) (v v' : vid) : Prop :=
  list_of w s v /\ list_of w' s v' /\ w_vecs w !! v' = None /\ w_vecs w' = w_vecs w ++ [vec_of w v].
Definition lists (w : world) : nat := length (w_vecs w).

(** [made e t op k st w0 w n]: in the call of [op] that began in [w0] thread [t] has come to
    [w], and the steps of the call itself made [n] lists.  Steps of other threads, and of client
    code that the call runs, do not count. *)
Inductive made (e : env) (t : tid) (op : op) (k : out -> prog) (st : list frame) (w0 : world) : world -> nat -> Prop :=
| D_start fail w :
    w_thr w0 !! t = Some (FProg (Do op k) :: st) -> step e w0 t fail = SOk w -> made e t op k st w0 w (lists w - lists w0)
| D_other t' fail w w' n :
    made e t op k st w0 w n -> (t' = t -> forall stk, w_thr w !! t = Some stk -> ~ own_step k st stk) ->
    step e w t' fail = SOk w' -> made e t op k st w0 w' n
| D_own fail w w' stk n :
    made e t op k st w0 w n -> w_thr w !! t = Some stk -> own_step k st stk ->
    (forall o, ~ returned t k st w o) -> step e w t fail = SOk w' -> made e t op k st w0 w' (n + (lists w' - lists w)).

(** The calls that may make one: a new signal has a list; connect, disconnect and
    disconnect(f) change one, and that may take a copy. *)
Definition may_make (w0 : world) (p : op) : Prop :=
  match p with ONewSignal _ | OConnect _ _ _ | OErase _ _ => True | _ => exists l, disconnects w0 p l end.
