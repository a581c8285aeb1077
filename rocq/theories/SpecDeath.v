(** * Specification: when a slot is destroyed and who runs its functor's destructor *)
From Verif Require Export SpecState SpecOwn.

(** The calls in progress that have a shared_ptr to slot [l]: an emission over a vector with
    [l] in it (1787), connection::disconnect (1506), and the other members of connection and
    connection_blocker that lock the slot (1500, 1512, 1518, 1526, 1455, 1463). *)
Definition in_hand (w : world) (l : lid) (f : frame) : Prop :=
  match f with
  | FEmit _ _ v _ => l ∈ vec_of w v
  | FDisc l' | FRemRet l' | FTmp l' => l' = l
  | _ => False
  end.
(** Slot [l] is in the list of a signal not destroyed yet, or some call in progress has it. *)
Definition has_owner (w : world) (l : lid) : Prop :=
  (exists s, l ∈ slots_of w s /\ EDestroySig s ∉ w_log w) \/
  (exists t st f, w_thr w !! t = Some st /\ f ∈ st /\ in_hand w l f).

(** The slots and tracked objects destroyed according to a list of events, latest first. *)
Definition deaths (evs : list event) : list (lid + oid) :=
  omap (fun ev => match ev with ESlotDead l => Some (inl l) | EObjDead o => Some (inr o) | _ => None end) evs.
(** The destructors of the functors these slots were connected with and of these objects. *)
Definition destructor (e : env) (log : list event) (x : lid + oid) : option prog :=
  match x with
  | inl l => match spec_conn0 log l with Some i => e_dtor e (im_c i) | None => None end
  | inr o => e_odtor e o
  end.
(** They run above [st], one after the other. *)
Definition running_first (e : env) (log : list event) (xs : list (lid + oid)) (st : list frame) : list frame :=
  foldr (fun x st => match destructor e log x with Some p => FProg p :: FDtor x :: st | None => st end) st xs.
Definition is_dtor (f : frame) : bool := match f with FDtor _ => true | _ => false end.
Definition n_dtor (st : list frame) : nat := length (List.filter is_dtor st).

(** [locks x v l]: the operation [v] locks a weak_ptr to slot [l]. *)
Definition locks (x : vars) (v : vop) (l : lid) : Prop :=
  match v with
  | VConnected c | VBlocked c | VBlock c | VUnblock c | VBlocker c => exists sc, v_conns x !! c = Some (ConnV true sc (Some l))
  | VBDestroy b => v_blks x !! b = Some (BlkV true (Some l))
  | VBAssign d s => d <> s /\ v_blks x !! d = Some (BlkV true (Some l)) /\ exists m, v_blks x !! s = Some (BlkV true m)
  | _ => False
  end.
