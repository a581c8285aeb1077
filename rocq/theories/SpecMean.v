(** * What an emission means

    A description of emissions by recursion on the program, without threads, stacks, mutexes or
    snapshots: an emission runs the combiner over the list, dereferencing an iterator calls the
    slot there unless it is blocked, disconnected or expired, and the call runs the callable.
    It describes signals nobody changes; [looks] in SpecAlone.v says what may be done meanwhile. *)
From Verif Require Export SpecAlone.

(** The callable a call of slot [l] runs, if it runs one. *)
Definition takes_calls (w : world) (l : lid) : option callable :=
  match w_slots w !! l with
  | Some r =>
      let i := sl_impl r in
      let dead := match c_kind (im_c i) with KTracked => negb (default false (v_objs (w_vars w) !! c_pv (im_c i))) | _ => false end in
      if im_blk i || negb (im_conn i) || dead then None else Some (im_c i)
  | None => None
  end.
(** Slot [l] exists: a signal has it in its list. *)
Definition kept (w : world) (l : lid) : bool :=
  existsb (fun r => sg_alive r && match sg_vec r with Some v => bool_decide (l ∈ vec_of w v) | None => false end) (w_sigs w).

(** The replies to queries. *)
Inductive replies (w : world) : vop -> out -> Prop :=
| an_none c r v : v_conns (w_vars w) !! c = Some r -> cn_live r = true -> cn_slot r = None ->
    v = VValid c \/ v = VConnected c \/ v = VBlocked c -> replies w v (OutBool false)
| an_valid c r l : v_conns (w_vars w) !! c = Some r -> cn_live r = true -> cn_slot r = Some l ->
    replies w (VValid c) (OutBool (kept w l))
| an_connected c r l i : v_conns (w_vars w) !! c = Some r -> cn_live r = true -> cn_slot r = Some l -> sl_impl <$> w_slots w !! l = Some i ->
    replies w (VConnected c) (OutBool (kept w l && im_conn i &&
      match c_kind (im_c i) with KTracked => default false (v_objs (w_vars w) !! c_pv (im_c i)) | _ => true end))
| an_blocked c r l i : v_conns (w_vars w) !! c = Some r -> cn_live r = true -> cn_slot r = Some l -> sl_impl <$> w_slots w !! l = Some i ->
    replies w (VBlocked c) (OutBool (kept w l && im_blk i))
| an_read a z : v_store (w_vars w) !! a = Some z -> replies w (VRead a) (OutZ z).

(** Signal [s] exists, its list is [xs] and its combiner [cb]. *)
Definition listed (w : world) (s : sid) (xs : list lid) (cb : option nat) : Prop :=
  exists r v, w_sigs w !! s = Some r /\ sg_alive r = true /\ sg_vec r = Some v /\ vec_of w v = xs /\ sg_comb r = cb.

(** What a slot returns when its callable returned [o]: results are wrapped, exceptions pass. *)
Inductive returned_as (e : env) : out -> out -> Prop :=
| wr_exn x : returned_as e (OutExn x) (OutExn x)
| wr_void : e_void e = true -> returned_as e OutUnit (OutOpt None)
| wr_value z : e_void e = false -> returned_as e (OutZ z) (OutOpt (Some z)).
(** What callable [c] leaves of the arguments [a]: it may have moved from those passed by value. *)
Definition left_over (e : env) (c : callable) (a a' : list arg) : Prop :=
  length a' = length a /\
  forall i x, a !! i = Some x -> a' !! i = Some (match x with AVal z => if e_consumes e c i then AVal (e_moved e z) else x | ARef _ => x end).

(** A call: the slot and the arguments the callable was given. *)
Notation call := (lid * list arg)%type.

(** [means e w cx a p o tr]: program [p] returns [o] after the calls [tr], in order.  Inside a
    combiner [cx] is the list its iterators go over, and [a] the arguments the next call gets.
    [slot_means e w l a r a' tr]: calling slot [l] with [a] returns [r] and leaves [a']. *)
Inductive means (e : env) (w : world) : option (list lid) -> list arg -> prog -> out -> list call -> Prop :=
| me_ret cx a o : means e w cx a (Ret o) o []
| me_emit cx a s args k xs cb r tr o tr' : listed w s xs cb ->
    means e w (Some xs) args (combiner e cb (length xs)) r tr -> means e w cx a (k r) o tr' ->
    means e w cx a (Do (OEmit s args) k) o (tr ++ tr')
| me_deref xs a pos k l r a' tr o tr' : xs !! pos = Some l -> slot_means e w l a r a' tr ->
    means e w (Some xs) a' (k r) o tr' -> means e w (Some xs) a (Do (ODeref pos) k) o (tr ++ tr')
| me_ask cx a v k x o tr : replies w v x -> means e w cx a (k x) o tr -> means e w cx a (Do (OVar v) k) o tr
with slot_means (e : env) (w : world) : lid -> list arg -> out -> list arg -> list call -> Prop :=
| sm_skip l a : takes_calls w l = None -> slot_means e w l a (OutOpt None) a []
| sm_call l a c o r a' tr : takes_calls w l = Some c -> means e w None [] (e_body e (RSlot l) c a) o tr -> returned_as e o r -> left_over e c a a' ->
    slot_means e w l a r a' ((l, a) :: tr).

(** The calls in a log, in order of time. *)
Definition call_of (ev : event) : option call :=
  match ev with ECall _ (RSlot l) _ _ args _ => Some (l, args) | _ => None end.
Definition calls_in (new : list event) : list call := rev (omap call_of new).
(** Every thread has finished or is about to run a program with a meaning. *)
Definition meaningful (e : env) (w : world) : Prop :=
  forall t st, w_thr w !! t = Some st -> (exists o, st = [FRet o]) \/ exists p o tr, st = [FProg p] /\ only_looks p /\ means e w None [] p o tr.

(** ** The default combiner *)
(** Calling the slots [xs] one after the other, beginning with arguments [a], returns the optional
    values [vs] and leaves [a']. *)
Inductive each_called (e : env) (w : world) : list lid -> list arg -> list (option Z) -> list arg -> list call -> Prop :=
| ec_nil a : each_called e w [] a [] a []
| ec_cons l xs a z a1 tr vs a' tr' : slot_means e w l a (OutOpt z) a1 tr -> each_called e w xs a1 vs a' tr' ->
    each_called e w (l :: xs) a (z :: vs) a' (tr ++ tr').
(** The last value there is. *)
Fixpoint last_engaged (vs : list (option Z)) : option Z :=
  match vs with
  | [] => None
  | z :: vs => match last_engaged vs with Some y => Some y | None => z end
  end.
(** An emission over [xs] with optional_last_value (1619-1638): all are called and the last value is
    returned; or one throws, those after it are not called, and its exception is passed on. *)
Definition last_value_of (e : env) (w : world) (xs : list lid) (a : list arg) (o : out) (tr : list call) : Prop :=
  (exists vs a', each_called e w xs a vs a' tr /\ o = OutOpt (last_engaged vs)) \/
  (exists pre l post vs a1 a2 tr1 tr2 x, xs = pre ++ l :: post /\ each_called e w pre a vs a1 tr1 /\ slot_means e w l a1 (OutExn x) a2 tr2 /\
     tr = tr1 ++ tr2 /\ o = OutExn x).
