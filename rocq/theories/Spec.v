(** * What the log of an execution means

    A small specification over logs only; it mentions no definition of the
    machine.  Logs are newest first. *)
From Verif Require Export Base.

(** The [n] oldest events of a log: the log as it was when it had [n] events. *)
Definition older (n : nat) (log : list event) : list event := drop (length log - n) log.

(** Removing [x] from a list without repetitions by moving the last element into
    its place. *)
Definition swap_remove (x : nat) (xs : list nat) : list nat :=
  if decide (x ∈ xs) then
    match last xs with
    | Some y => map (fun z => if decide (z = x) then y else z) (take (length xs - 1) xs)
    | None => xs
    end
  else xs.

(** The list of slots of signal [s]: connected slots at the end, removals by
    [swap_remove], a move takes the list along. *)
Fixpoint spec_list (log : list event) (s : sid) : list lid :=
  match log with
  | [] => []
  | ev :: log =>
      match ev with
      | EConn _ s' l _ => if decide (s' = s) then spec_list log s ++ [l] else spec_list log s
      | ERem _ s' _ l | EErased _ s' l =>
          if decide (s' = s) then swap_remove l (spec_list log s) else spec_list log s
      | EMoveSig s1 s2 =>
          if decide (s = s2) then spec_list log s1
          else if decide (s = s1) then [] else spec_list log s
      | _ => spec_list log s
      end
  end.

(** The state slot [l] was connected with. *)
Fixpoint spec_conn0 (log : list event) (l : lid) : option impl :=
  match log with
  | [] => None
  | EConn _ _ l' i :: log => if decide (l' = l) then Some i else spec_conn0 log l
  | _ :: log => spec_conn0 log l
  end.

(** Is slot [l] blocked: what the last blocking operation said, at first what it
    was connected with. *)
Fixpoint spec_blk (log : list event) (l : lid) : bool :=
  match log with
  | [] => false
  | EConn _ _ l' i :: log => if decide (l' = l) then im_blk i else spec_blk log l
  | EBlk l' b :: log => if decide (l' = l) then b else spec_blk log l
  | _ :: log => spec_blk log l
  end.

(** Is the connected flag of slot [l] set: was it when connecting, and has it not
    been cleared since. *)
Fixpoint spec_flag (log : list event) (l : lid) : bool :=
  match log with
  | [] => false
  | EConn _ _ l' i :: log => if decide (l' = l) then im_conn i else spec_flag log l
  | EFlag l' :: log => if decide (l' = l) then false else spec_flag log l
  | _ :: log => spec_flag log l
  end.

(** The object slot [l] tracks, if any. *)
Definition spec_tracks (log : list event) (l : lid) : option oid :=
  match spec_conn0 log l with
  | Some i => match c_kind (im_c i) with KTracked => Some (c_pv (im_c i)) | _ => None end
  | None => None
  end.

(** The signal slot [l] was connected to. *)
Fixpoint spec_home (log : list event) (l : lid) : option sid :=
  match log with
  | [] => None
  | EConn _ s l' _ :: log => if decide (l' = l) then Some s else spec_home log l
  | _ :: log => spec_home log l
  end.

(** The state of the functor in slot [l]: what it was set to last, at first what it
    was connected with. *)
Fixpoint spec_st (log : list event) (l : lid) : Z :=
  match log with
  | [] => 0
  | EConn _ _ l' i :: log => if decide (l' = l) then im_st i else spec_st log l
  | ESet _ (RSlot l') z :: log => if decide (l' = l) then z else spec_st log l
  | _ :: log => spec_st log l
  end.

(** Does slot [l] exist: it was connected and has not been destroyed. *)
Fixpoint spec_alive (log : list event) (l : lid) : bool :=
  match log with
  | [] => false
  | EConn _ _ l' _ :: log => if decide (l' = l) then true else spec_alive log l
  | ESlotDead l' :: log => if decide (l' = l) then false else spec_alive log l
  | _ :: log => spec_alive log l
  end.

(** Does the tracked object [o] exist: it was created and has not been destroyed. *)
Fixpoint spec_obj (log : list event) (o : oid) : bool :=
  match log with
  | [] => false
  | ENewObj o' :: log => if decide (o' = o) then true else spec_obj log o
  | EObjDead o' :: log => if decide (o' = o) then false else spec_obj log o
  | _ :: log => spec_obj log o
  end.

(** The combiner of signal [s]. *)
Fixpoint spec_comb (log : list event) (s : sid) : option (option nat) :=
  match log with
  | [] => None
  | ENewSig s' c :: log => if decide (s' = s) then Some c else spec_comb log s
  | EMoveSig s1 s2 :: log => if decide (s2 = s) then spec_comb log s1 else spec_comb log s
  | _ :: log => spec_comb log s
  end.

(** [log_all P log]: every event [ev] of [log] is in relation [P] to what happened
    before it. *)
Definition log_all (P : event -> list event -> Prop) (log : list event) : Prop :=
  forall post ev pre, log = post ++ ev :: pre -> P ev pre.

(** Counting events. *)
Definition ecount (f : event -> bool) (log : list event) : nat := length (filter (fun ev => f ev) log).

Global Instance slotref_eq_dec : EqDecision slotref.
Proof. solve_decision. Defined.

(** [P] held of the log at some moment between length [start] and now. *)
Definition seen (start : nat) (log : list event) (P : list event -> Prop) : Prop :=
  exists n, start <= n <= length log /\ P (older n log).

(** What connected() should answer. *)
Definition spec_connected (log : list event) (l : lid) : bool :=
  spec_alive log l && spec_flag log l &&
  match spec_tracks log l with Some o => spec_obj log o | None => true end.

(** Would an emission that reaches slot [l] now call it? *)
Definition spec_callable (log : list event) (l : lid) : bool :=
  spec_connected log l && negb (spec_blk log l).

(** The reasons not to call an existing slot. *)
Definition refuses (p : list event) (l : lid) : Prop :=
  spec_blk p l = true \/ spec_flag p l = false \/ exists o, spec_tracks p l = Some o /\ spec_obj p o = false.

Definition is_disc_true (l : lid) (ev : event) : bool :=
  match ev with EDisc _ l' true => bool_decide (l' = l) | _ => false end.
Definition is_blk (l : lid) (b : bool) (ev : event) : bool :=
  match ev with EBlk l' b' => bool_decide (l' = l) && Bool.eqb b' b | _ => false end.
Definition is_call (r : slotref) (ev : event) : bool :=
  match ev with ECall _ r' _ _ _ _ => bool_decide (r' = r) | _ => false end.
Definition is_ret (r : slotref) (ev : event) : bool :=
  match ev with ERet _ r' _ _ => bool_decide (r' = r) | _ => false end.

(** ** Emissions *)

(** Emission [eid] began: thread [t] called signal [s], whose combiner is [c], with
    [args] and copied the list [xs]. *)
Definition began (log : list event) (t : tid) (eid : nat) (s : sid) (args : list arg) (xs : list lid) (c : option nat) : Prop :=
  exists post pre, log = post ++ EEmit t eid s args xs :: pre /\ spec_comb pre s = Some c.

(** What emission [eid] did after it began; newest first. *)
Definition about (eid : nat) (ev : event) : bool :=
  match ev with
  | EDeref _ i _ _ _ | EEmitRet _ i _ | ECall _ _ (Some i) _ _ _ | ERet _ _ (Some i) _ | ESkip _ _ (Some i) _ =>
      bool_decide (i = eid)
  | _ => false
  end.
Definition did (eid : nat) (log : list event) : list event := filter (fun ev => about eid ev) log.

(** [explains t eid xs p evs q]: running the combiner program [p] over the slots [xs] as
    emission [eid] does [evs] and leaves [q] to be run.  A dereference of position [pos]
    either calls the slot at that position, and gives what the call returned, or skips
    it, and gives a disengaged optional; any other operation of the combiner is not part
    of the emission and may return anything. *)
Inductive explains (t : tid) (eid : nat) (xs : list lid) (p : prog) : list event -> prog -> Prop :=
| X_start : explains t eid xs p [] p
| X_other evs o k r : explains t eid xs p evs (Do o k) -> (forall pos, o <> ODeref pos) ->
    explains t eid xs p evs (k r)
| X_skip evs pos k l start : explains t eid xs p evs (Do (ODeref pos) k) -> xs !! pos = Some l ->
    explains t eid xs p (EDeref t eid pos l (OutOpt None) :: ESkip t (RSlot l) (Some eid) start :: evs) (k (OutOpt None))
| X_call evs pos k l c args start r : explains t eid xs p evs (Do (ODeref pos) k) -> xs !! pos = Some l ->
    explains t eid xs p (EDeref t eid pos l r :: ERet t (RSlot l) (Some eid) r ::
                         ECall t (RSlot l) (Some eid) c args start :: evs) (k r).

(** The same for an emission that may be in the middle of a slot call, or finished. *)
Inductive progress (t : tid) (eid : nat) (xs : list lid) (p : prog) : list event -> Prop :=
| P_between evs q : explains t eid xs p evs q -> progress t eid xs p evs
| P_skip evs pos k l start : explains t eid xs p evs (Do (ODeref pos) k) -> xs !! pos = Some l ->
    progress t eid xs p (ESkip t (RSlot l) (Some eid) start :: evs)
| P_call evs pos k l c args start : explains t eid xs p evs (Do (ODeref pos) k) -> xs !! pos = Some l ->
    progress t eid xs p (ECall t (RSlot l) (Some eid) c args start :: evs)
| P_ret evs pos k l c args start r : explains t eid xs p evs (Do (ODeref pos) k) -> xs !! pos = Some l ->
    progress t eid xs p (ERet t (RSlot l) (Some eid) r :: ECall t (RSlot l) (Some eid) c args start :: evs)
| P_done evs o : explains t eid xs p evs (Ret o) -> progress t eid xs p (EEmitRet t eid o :: evs).

(** ** Emissions with the default combiner, optional_last_value *)

(** [visits t eid xs evs n z]: emission [eid] has visited the first [n] slots of [xs], in
    order, each once; a visit either skips the slot or calls its callable once; [z] is
    the last value a callable returned. *)
Inductive visits (t : tid) (eid : nat) (xs : list lid) : list event -> nat -> option Z -> Prop :=
| V_none : visits t eid xs [] 0 None
| V_skip evs n z l start : visits t eid xs evs n z -> xs !! n = Some l ->
    visits t eid xs (EDeref t eid n l (OutOpt None) :: ESkip t (RSlot l) (Some eid) start :: evs) (S n) z
| V_call evs n z l c args start y : visits t eid xs evs n z -> xs !! n = Some l ->
    visits t eid xs (EDeref t eid n l (OutOpt y) :: ERet t (RSlot l) (Some eid) (OutOpt y) ::
                     ECall t (RSlot l) (Some eid) c args start :: evs) (S n) (match y with Some _ => y | None => z end).

(** All an emission with the default combiner can have done. *)
Inductive default_emission (t : tid) (eid : nat) (xs : list lid) : list event -> Prop :=
| D_between evs n z : visits t eid xs evs n z -> default_emission t eid xs evs
| D_skipped evs n z l start : visits t eid xs evs n z -> xs !! n = Some l ->
    default_emission t eid xs (ESkip t (RSlot l) (Some eid) start :: evs)
| D_called evs n z l c args start : visits t eid xs evs n z -> xs !! n = Some l ->
    default_emission t eid xs (ECall t (RSlot l) (Some eid) c args start :: evs)
| D_returned evs n z l c args start y : visits t eid xs evs n z -> xs !! n = Some l ->
    default_emission t eid xs (ERet t (RSlot l) (Some eid) (OutOpt y) :: ECall t (RSlot l) (Some eid) c args start :: evs)
| D_done evs z : visits t eid xs evs (length xs) z ->
    default_emission t eid xs (EEmitRet t eid (OutOpt z) :: evs)
(* the callable of slot number [n] threw [x]: nothing else is visited, [x] leaves *)
| D_threw evs n z l c args start x : visits t eid xs evs n z -> xs !! n = Some l ->
    default_emission t eid xs (ERet t (RSlot l) (Some eid) (OutExn x) :: ECall t (RSlot l) (Some eid) c args start :: evs)
| D_leaving evs n z l c args start x : visits t eid xs evs n z -> xs !! n = Some l ->
    default_emission t eid xs (EDeref t eid n l (OutExn x) :: ERet t (RSlot l) (Some eid) (OutExn x) ::
                               ECall t (RSlot l) (Some eid) c args start :: evs)
| D_left evs n z l c args start x : visits t eid xs evs n z -> xs !! n = Some l ->
    default_emission t eid xs (EEmitRet t eid (OutExn x) :: EDeref t eid n l (OutExn x) :: ERet t (RSlot l) (Some eid) (OutExn x) ::
                               ECall t (RSlot l) (Some eid) c args start :: evs).

(** The answers the combiner of emission [eid] got, in chronological order. *)
Fixpoint answers (eid : nat) (log : list event) : list (nat * lid * out) :=
  match log with
  | [] => []
  | EDeref _ i pos l r :: log => if decide (i = eid) then answers eid log ++ [(pos, l, r)] else answers eid log
  | _ :: log => answers eid log
  end.

(** The last value among them. *)
Definition last_value (ans : list (nat * lid * out)) : option Z :=
  fold_left (fun z a => match snd a with OutOpt (Some y) => Some y | _ => z end) ans None.

(** Visits of slot [l] by emission [eid]. *)
Definition is_visit (eid : nat) (l : lid) (ev : event) : bool :=
  match ev with
  | ECall _ (RSlot l') (Some i) _ _ _ | ESkip _ (RSlot l') (Some i) _ => bool_decide (i = eid /\ l' = l)
  | _ => false
  end.

(** ** Arguments *)

(** Does [ev] call, for emission [eid], a callable that moves from its [i]-th argument? *)
Definition takes (e : env) (eid i : nat) (ev : event) : bool :=
  match ev with
  | ECall _ _ (Some i') c _ _ => bool_decide (i' = eid) && e_consumes e c i
  | _ => false
  end.

(** The [i]-th argument after it was moved from [n] times. *)
Definition moved_arg (e : env) (n : nat) (a : arg) : arg :=
  match a with AVal z => AVal (Nat.iter n (e_moved e) z) | ARef x => ARef x end.

(** ** Lists *)

(** Does [ev] take slot [l] out of a list? *)
Definition takes_out (l : lid) (ev : event) : Prop :=
  match ev with ERem _ _ _ l' | EErased _ _ l' => l' = l | _ => False end.
Definition out_of_list (log : list event) (l : lid) : Prop := exists ev, ev ∈ log /\ takes_out l ev.

(** Does [ev] end the removal that a disconnect of [l] performs? *)
Definition is_rem (l : lid) (ev : event) : bool :=
  match ev with ERem _ _ l' _ | ERemMiss _ _ l' => bool_decide (l' = l) | _ => false end.
