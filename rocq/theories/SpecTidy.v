(** * Specification: clients that keep to the rules of ownership *)
From Verif Require Export SpecUse.

(** A thing a piece of code may use: a signal that is shared and never destroyed; a signal of
    its own; an integer location; a connection; a blocker; a slot variable; a slot variable
    known to hold a callable; a tracked object it keeps alive. *)
Inductive thing :=
| TSig (s : sid) | TOwn (s : sid) | TLoc (a : nat) | TConn (c : cid) | TBlk (b : bid)
| TSlot (u : uid) | TFull (u : uid) | TObj (x : oid).
Global Instance thing_eq : EqDecision thing.
Proof. solve_decision. Defined.

(** Things with one owner; the others are shared and stay for ever. *)
Definition linear (th : thing) : bool := match th with TSig _ | TLoc _ => false | _ => true end.
(** The variable a thing is. *)
Definition key (th : thing) : thing := match th with TFull u => TSlot u | TSig s => TOwn s | _ => th end.

(** It exists in [w]. *)
Definition lives (w : world) (th : thing) : Prop :=
  match th with
  | TSig s | TOwn s => signal_lives w s
  | TLoc a => is_Some (v_store (w_vars w) !! a)
  | TConn c => conn_lives w c
  | TBlk b => blk_lives w b
  | TSlot u => slot_lives w u
  | TFull u => slot_lives w u /\ ~ slot_null w u
  | TObj x => v_objs (w_vars w) !! x = Some true
  end.

(** What a piece of client code is. *)
Inductive role :=
| Main                  (* the program of a thread *)
| Body (r : slotref)    (* the callable in [r] *)
| Combiner (n : nat)    (* a combiner given [n] slots *)
| Equality              (* operator== of a functor *)
| Destructor.           (* the destructor of a functor *)

Section tidy.
Context (e : env).
(** Things all code may use and none may change or destroy. *)
Context (G : list thing).
(** The shared signals and locations a callable refers to. *)
Context (caps : callable -> list thing).

Definition may_return (a : role) (o : out) : Prop :=
  match a with
  | Main | Combiner _ => True
  | Body _ => returns_ok e o
  | Equality => eq_returns_ok o
  | Destructor => forall x, o <> OutExn x
  end.

(** With [own] in its possession, code may use [th]. *)
Inductive knows (own : list thing) : thing -> Prop :=
| K_shared th : th ∈ G -> knows own th
| K_own th : th ∈ own -> knows own th
| K_full u : knows own (TFull u) -> knows own (TSlot u)
| K_sig s : TOwn s ∈ own -> knows own (TSig s).
(** ... and change it. *)
Definition has (own : list thing) (th : thing) : Prop :=
  th ∈ own \/ exists u, th = TSlot u /\ TFull u ∈ own.

(** ... and let others refer to it for as long as they like. *)
Definition lends (own : list thing) (th : thing) : Prop := th ∈ G \/ has own th.

(** The locations among the arguments. *)
Definition locs (args : list arg) : list thing :=
  omap (fun a => match a with ARef x => Some (TLoc x) | AVal _ => None end) args.

Definition vop_ok (own : list thing) (v : vop) : Prop :=
  match v with
  | VNewConn _ | VBNew | VNewObj | VNewLoc _ | VSlotEmpty => True
  | VCopyConn c _ | VValid c | VConnected c | VBlocked c | VBlock c | VUnblock c | VDisc c | VBlocker c => knows own (TConn c)
  | VMoveConn c _ | VRelease c | VDestroyConn c => has own (TConn c)
  | VAssignCopy d s => has own (TConn d) /\ knows own (TConn s)
  | VAssignMove d s | VSwap d s => has own (TConn d) /\ has own (TConn s)
  | VBMove b | VBDestroy b => has own (TBlk b)
  | VBAssign d s | VBSwap d s => has own (TBlk d) /\ has own (TBlk s)
  | VResetObj x => has own (TObj x)
  | VRead a | VWrite a _ => knows own (TLoc a)
  | VSlotNew c => Forall (lends own) (caps c)
  | VSlotCopy u => knows own (TFull u)
  | VSlotMove u | VSlotDestroy u => has own (TSlot u)
  | VSlotAssignMove d s => has own (TSlot d) /\ has own (TSlot s)
  | VSlotBool u | VSlotConnected u | VSlotBlocked u | VSlotBlock u | VSlotUnblock u | VSlotDisc u => knows own (TSlot u)
  end.
Definition op_ok (a : role) (own : list thing) (o : op) : Prop :=
  match o with
  | OVar v => vop_ok own v
  | ONewSignal _ => True
  | ODestroySignal s => has own (TOwn s)
  | OMoveSignal _ | OMoveAssignSignal _ _ => False
  | OConnect s (SrcFn c) _ => knows own (TSig s) /\ Forall (lends own) (caps c)
  | OConnect s (SrcSlot u) _ => knows own (TSig s) /\ knows own (TFull u)
  | OErase s (SrcFn _) => knows own (TSig s)
  | OErase s (SrcSlot u) => knows own (TSig s) /\ knows own (TSlot u)
  | OEmit s args => knows own (TSig s) /\ Forall (lends own) (locs args)
  | OSlotCall u args => knows own (TFull u) /\ Forall (lends own) (locs args)
  | OSlotEq u1 u2 => knows own (TSlot u1) /\ knows own (TSlot u2)
  | OSelfGet r | OSelfSet r _ => a = Body r
  | ODeref pos => exists n, a = Combiner n /\ pos < n
  end.

Definition without (th : thing) (own : list thing) : list thing := filter (fun x => x <> th) own.
(** What is left of [own] after the call. *)
Definition left (own : list thing) (o : op) : list thing :=
  match o with
  | OVar (VDestroyConn c) => without (TConn c) own
  | OVar (VBDestroy b) => without (TBlk b) own
  | OVar (VResetObj x) => without (TObj x) own
  | OVar (VSlotDestroy u) => without (TSlot u) (without (TFull u) own)
  | OVar (VSlotMove u) => TSlot u :: without (TFull u) own
  | OVar (VSlotAssignMove d s) =>
      if bool_decide (d = s) then own else
      (if bool_decide (TFull s ∈ own) then [TFull d] else []) ++ TSlot d :: TSlot s :: without (TFull s) (without (TFull d) own)
  | ODestroySignal s => without (TOwn s) own
  | _ => own
  end.
(** What the result [r] adds; a signal may be made to be shared, or to be destroyed later ([keep]). *)
Definition gained (keep : bool) (own : list thing) (o : op) (r : out) : list thing :=
  match r with
  | OutId n =>
      match o with
      | OVar (VNewConn _) | OVar (VCopyConn _ _) | OVar (VMoveConn _ _) | OVar (VRelease _) | OConnect _ _ _ => [TConn n]
      | OVar (VBlocker _) | OVar VBNew | OVar (VBMove _) => [TBlk n]
      | OVar VNewObj => [TObj n]
      | OVar (VNewLoc _) => [TLoc n]
      | OVar (VSlotNew _) | OVar (VSlotCopy _) => [TFull n]
      | OVar VSlotEmpty => [TSlot n]
      | OVar (VSlotMove u) => if bool_decide (TFull u ∈ own) then [TFull n] else [TSlot n]
      | ONewSignal _ => if keep then [TOwn n] else [TSig n]
      | _ => []
      end
  | OutBool true => match o with OVar (VSlotBool u) => if bool_decide (TSlot u ∈ own) then [TFull u] else [] | _ => [] end
  | _ => []
  end.

(** New variables are none of those in [own]. *)
Definition unused (own new : list thing) : Prop := forall th, th ∈ new -> linear th = true -> key th ∉ (key <$> own).
Definition possible (keep : bool) (own : list thing) (o : op) (r : out) : Prop :=
  match r with OutId _ => unused own (gained keep own o r) | _ => True end.

(** [tidy a own p]: the code [p], in role [a] and with [own] in its possession, uses only what it
    may use. *)
Inductive tidy (a : role) (own : list thing) : prog -> Prop :=
| Tidy_ret o : may_return a o -> tidy a own (Ret o)
| Tidy_do keep o k : op_ok a own o -> (forall r, possible keep own o r -> tidy a (gained keep own o r ++ left own o) (k r)) -> tidy a own (Do o k).

(** All callables, combiners, operator== and destructors are.  They own nothing to begin with. *)
Definition tidy_env : Prop :=
  (forall c, Forall (fun th => linear th = false) (caps c)) /\
  (forall r c args, tidy (Body r) (caps c ++ locs args) (e_body e r c args)) /\
  (forall k n, tidy (Combiner n) [] (e_comb e k n)) /\
  (forall ty x y, tidy Equality [] (e_eq e ty x y)) /\
  (forall c p, e_dtor e c = Some p -> tidy Destructor (caps c) p) /\
  (forall o p, e_odtor e o = Some p -> tidy Destructor [] p).

(** [w0]: every thread has returned or is about to begin with a tidy program; [own t] is what
    thread [t] owns. *)
Record settled (ps : list prog) (own : tid -> list thing) (w0 : world) : Prop := Settled {
  se_reach : reachable e ps w0;
  se_moved : forall s1 s2, EMoveSig s1 s2 ∉ w_log w0;
  se_threads : forall t st, w_thr w0 !! t = Some st -> (exists o, st = [FRet o]) \/ exists p, st = [FProg p] /\ tidy Main (own t) p;
  se_shared : forall th, th ∈ G -> lives w0 th /\ forall s, th <> TOwn s;
  se_owned : forall t th, th ∈ own t -> lives w0 th /\ forall s, th <> TOwn s;
  se_apart : forall t t' th th', th ∈ own t -> th' ∈ own t' -> linear th = true -> key th = key th' -> t = t';
  se_alone : forall t th th', th ∈ own t -> th' ∈ G -> linear th = true -> key th <> key th';
  se_slots : forall l r th, w_slots w0 !! l = Some r -> th ∈ caps (im_c (sl_impl r)) -> lives w0 th;
  se_vars : forall u r i th, v_us (w_vars w0) !! u = Some r -> us_impl r = Some i -> th ∈ caps (im_c i) -> lives w0 th }.
End tidy.
