(** * Specification: the operations on connections as operations of a sequential object

    The object is a table that says of every slot whether it exists, whether its connected
    flag is set, whether it is blocked and which object it tracks, and which tracked objects
    exist.  Every act changes it, or answers a question about it, at once. *)
From Verif Require Export SpecOwn.

Record cell := Cell { k_there : bool; k_flag : bool; k_blk : bool; k_obj : option oid }.
Record table := Table { t_slot : lid -> option cell; t_obj : oid -> bool }.

(** The acts: connect makes slot [l] (with the flags of a slot object, if it is given one);
    disconnect of [l], with its result; the queries of [l], with their answers; block or
    unblock [l]; slot [l] is destroyed; a tracked object comes and goes. *)
Inductive act :=
| AConnect (l : lid) (i : impl)
| ADisconnect (l : lid) (b : bool)
| AConnected (l : lid) (b : bool)
| ABlocked (l : lid) (b : bool)
| AValid (l : lid) (b : bool)
| ABlock (l : lid) (b : bool)
| AGone (l : lid)
| AObjNew (o : oid)
| AObjGone (o : oid).

Definition change (T : table) (l : lid) (f : cell -> cell) : table :=
  Table (fun l' => if decide (l' = l) then f <$> t_slot T l' else t_slot T l') (t_obj T).
(** The state after an act. *)
Definition next (T : table) (a : act) : table :=
  match a with
  | AConnect l i =>
      Table (fun l' => if decide (l' = l)
                       then Some (Cell true (im_conn i) (im_blk i) (match c_kind (im_c i) with KTracked => Some (c_pv (im_c i)) | _ => None end))
                       else t_slot T l') (t_obj T)
  | ADisconnect l true => change T l (fun c => Cell (k_there c) false (k_blk c) (k_obj c))
  | ABlock l b => change T l (fun c => Cell (k_there c) (k_flag c) b (k_obj c))
  | AGone l => change T l (fun c => Cell false (k_flag c) (k_blk c) (k_obj c))
  | AObjNew o => Table (t_slot T) (fun o' => if decide (o' = o) then true else t_obj T o')
  | AObjGone o => Table (t_slot T) (fun o' => if decide (o' = o) then false else t_obj T o')
  | _ => T
  end.
(** The result of an act is right for the state in which it happens: disconnect succeeds
    exactly if the slot exists and its flag is set; connected() also asks for the object. *)
Definition right (T : table) (a : act) : Prop :=
  match a with
  | AConnect l _ => t_slot T l = None
  | ADisconnect l b => exists c, t_slot T l = Some c /\ b = k_there c && k_flag c
  | AConnected l b => exists c, t_slot T l = Some c /\ b = k_there c && k_flag c && match k_obj c with Some o => t_obj T o | None => true end
  | ABlocked l b => exists c, t_slot T l = Some c /\ b = k_there c && k_blk c
  | AValid l b => exists c, t_slot T l = Some c /\ b = k_there c
  | ABlock l _ | AGone l => exists c, t_slot T l = Some c /\ k_there c = true
  | AObjNew o => t_obj T o = false
  | AObjGone o => t_obj T o = true
  end.
(** Histories are newest first, like logs. *)
Fixpoint after (H : list act) : table :=
  match H with [] => Table (fun _ => None) (fun _ => false) | a :: H => next (after H) a end.
Fixpoint sequential (H : list act) : Prop :=
  match H with [] => True | a :: H => right (after H) a /\ sequential H end.

(** The act an event of the log stands for.  A disconnect that succeeds happens when the flag
    changes, one that fails when it returns. *)
Definition act_of (ev : event) : option act :=
  match ev with
  | EConn _ _ l i => Some (AConnect l i)
  | EFlag l => Some (ADisconnect l true)
  | EDisc _ l false => Some (ADisconnect l false)
  | EConnd _ l b => Some (AConnected l b)
  | EBlkd _ l b => Some (ABlocked l b)
  | EValid _ l b => Some (AValid l b)
  | EBlk l b => Some (ABlock l b)
  | ESlotDead l => Some (AGone l)
  | ENewObj o => Some (AObjNew o)
  | EObjDead o => Some (AObjGone o)
  | _ => None
  end.
Definition history (log : list event) : list act := omap act_of log.

(** The call of [op] that begins in [w0] disconnects slot [l]: disconnect() of a connection, or
    the destructor of or an assignment to a scoped connection. *)
Definition disconnects (w0 : world) (o : op) (l : lid) : Prop :=
  match o with
  | OVar (VDisc c) => exists r, v_conns (w_vars w0) !! c = Some r /\ cn_live r = true /\ cn_slot r = Some l
  | OVar (VDestroyConn c) | OVar (VAssignCopy c _) | OVar (VAssignMove c _) =>
      exists r, v_conns (w_vars w0) !! c = Some r /\ cn_live r = true /\ cn_scoped r = true /\ cn_slot r = Some l
  | _ => False
  end.
(** It asks about slot [l]. *)
Definition looks_at (w0 : world) (v : vop) (l : lid) : Prop :=
  exists c r, asks c v /\ v_conns (w_vars w0) !! c = Some r /\ cn_live r = true /\ cn_slot r = Some l.

(** [performs w0 op l o a]: a call of [op] that begins in [w0] is about slot [l], and if it
    returns [o] it did [a]. *)
Definition performs (w0 : world) (p : op) (l : lid) (o : out) (a : act) : Prop :=
  (disconnects w0 p l /\ exists b, a = ADisconnect l b /\ (forall c, p = OVar (VDisc c) -> o = OutBool b)) \/
  (exists v b, p = OVar v /\ looks_at w0 v l /\ o = OutBool b /\
     a = match v with VValid _ => AValid l b | VConnected _ => AConnected l b | _ => ABlocked l b end) \/
  (exists v b, p = OVar v /\ sets_block w0 v (Some l) b /\ a = ABlock l b) \/
  (exists s src sc c i, p = OConnect s src sc /\ connects w0 src i /\ o = OutId c /\ a = AConnect l i).

(** The acts that no call performs: they are the end of something nobody owns any more, and
    the client's making of an object. *)
Definition by_nobody (a : act) : bool := match a with AGone _ | AObjNew _ | AObjGone _ => true | _ => false end.

(** [a] is part of a call of [p] that begins in [w0]: it is what [p] asks for, or [p] is an
    emission that finds the tracked object of a slot gone and so disconnects the slot. *)
Definition part_of (w0 : world) (p : op) (a : act) : Prop :=
  match a with
  | AConnect l i => exists s src sc, p = OConnect s src sc /\ connects w0 src i
  | ADisconnect l b => disconnects w0 p l \/ (b = true /\ exists s args, p = OEmit s args)
  | AConnected l _ => exists c, p = OVar (VConnected c) /\ looks_at w0 (VConnected c) l
  | ABlocked l _ => exists c, p = OVar (VBlocked c) /\ looks_at w0 (VBlocked c) l
  | AValid l _ => exists c, p = OVar (VValid c) /\ looks_at w0 (VValid c) l
  | ABlock l b => exists v, p = OVar v /\ sets_block w0 v (Some l) b
  | _ => False
  end.
