(** * Specification: what is left when nothing is running *)
From Verif Require Export Spec SpecEnd.

(** Slot [l] was connected from a slot object whose flag was already cleared. *)
Definition born_disconnected (log : list event) (l : lid) : Prop := exists i, spec_conn0 log l = Some i /\ im_conn i = false.
(** In the course of one call of slot [l] its object died: the call, which began when the log had
    [start] events, has seen the object alive, then dead, and has cleared the flag. *)
Definition died_in_call (log : list event) (l : lid) : Prop := exists a t eid start b,
  log = a ++ ESkip t (RSlot l) eid start :: EFlag l :: b /\
  seen start b (fun p => exists o, spec_tracks p l = Some o /\ spec_obj p o = true) /\
  seen start b (fun p => exists o, spec_tracks p l = Some o /\ spec_obj p o = false).

(** No thread is inside a disconnect of [l] that cleared the flag. *)
Definition none_inside (w : world) (l : lid) : Prop := forall t st, w_thr w !! t = Some st -> FRemRet l ∉ st.

(** ** Clients that destroy the connections they make *)
(** Whatever calls return, [p] destroys connection [c] before it returns. *)
Inductive frees (c : cid) : prog -> Prop :=
| Fr_now k : frees c (Do (OVar (VDestroyConn c)) k)
| Fr_later o k : (forall r, frees c (k r)) -> frees c (Do o k).

(** Operations that make a scoped connection. *)
Definition makes_scoped (o : op) : bool :=
  match o with OVar (VNewConn sc) | OVar (VMoveConn _ sc) | OConnect _ _ sc => sc | _ => false end.
(** Operations that make a plain connection, overwrite a connection, or call signal::disconnect(f)
    or the move constructor of signal. *)
Definition untidy_op (o : op) : bool :=
  match o with
  | OVar (VNewConn sc) | OVar (VMoveConn _ sc) | OConnect _ _ sc => negb sc
  | OVar (VCopyConn _ _) | OVar (VRelease _) | OVar (VAssignCopy _ _) | OVar (VAssignMove _ _) => true
  | OErase _ _ | OMoveSignal _ => true
  | _ => false
  end.
(** [neat p]: all connections [p] makes are scoped and [p] destroys each of them. *)
Inductive neat : prog -> Prop :=
| Neat_ret o : neat (Ret o)
| Neat_do o k : untidy_op o = false -> (makes_scoped o = true -> forall c, frees c (k (OutId c))) -> (forall r, neat (k r)) -> neat (Do o k).
Definition neat_env (e : env) : Prop :=
  (forall r c args, neat (e_body e r c args)) /\ (forall k n, neat (e_comb e k n)) /\
  (forall ty x y, neat (e_eq e ty x y)) /\ (forall c p, e_dtor e c = Some p -> neat p) /\ (forall o p, e_odtor e o = Some p -> neat p).

(** Programs that connect functions only: neither slot objects nor tracked member functions. *)
Definition function_op (o : op) : Prop :=
  match o with OConnect _ (SrcFn c) _ => c_kind c <> KTracked | OConnect _ (SrcSlot _) _ => False | _ => True end.
Inductive functions : prog -> Prop :=
| Fun_ret o : functions (Ret o)
| Fun_do o k : function_op o -> (forall r, functions (k r)) -> functions (Do o k).
Definition functions_env (e : env) : Prop :=
  (forall r c args, functions (e_body e r c args)) /\ (forall k n, functions (e_comb e k n)) /\
  (forall ty x y, functions (e_eq e ty x y)) /\ (forall c p, e_dtor e c = Some p -> functions p) /\ (forall o p, e_odtor e o = Some p -> functions p).
