(** * Specification: notions about states of threads *)
From Verif Require Import Machine.

(** ** Mutexes *)

(** Is [f] a frame of a function that holds the mutex of [s]: connect,
    disconnect, disconnect(f), the start of an emission, a move? *)
Definition in_section (s : sid) (f : frame) : Prop :=
  match f with
  | FWrite s' _ | FBody s' _ _ | FUnlock s' _ | FErase s' _ _ _ _ _ | FEraseCmp s' _ _ _ _ _ => s' = s
  | _ => False
  end.
(** No operator== or functor destructor is running. *)
Definition calm (st : list frame) : Prop :=
  forall f, f ∈ st -> match f with FEraseCmp _ _ _ _ _ _ | FDtor (inl _) => False | _ => True end.

(** The signal an operation works on with its mutex locked. *)
Definition op_sig (o : op) : option sid :=
  match o with
  | OMoveSignal s | OConnect s _ _ | OErase s _ | OEmit s _ => Some s
  | _ => None
  end.
(** The list of slots of a signal. *)
Definition slots_of (w : world) (s : sid) : list lid :=
  match w_sigs w !! s with
  | Some r => match sg_vec r with Some v => vec_of w v | None => [] end
  | None => []
  end.

(** Operations on plain connection objects (also construction of, swap with and
    release of scoped ones) that are not calls on the slot. *)
Definition plain_op (x : vars) (v : vop) : Prop :=
  match v with
  | VNewConn _ | VCopyConn _ _ | VMoveConn _ _ | VSwap _ _ | VRelease _ => True
  | VAssignCopy d _ | VAssignMove d _ | VDestroyConn d => forall r, v_conns x !! d = Some r -> cn_scoped r = false
  | _ => False
  end.

(** No emission over a list with [l], no disconnect of [l] and no query of [l] is in progress. *)
Definition not_in_use (w : world) (l : lid) : Prop :=
  forall t st f, w_thr w !! t = Some st -> f ∈ st ->
    match f with
    | FEmit _ _ v _ => l ∉ vec_of w v
    | FDisc l' | FRemRet l' | FTmp l' => l' <> l
    | _ => True
    end.

(** The thread is executing code of an emission, not of a callable. *)
Definition machinery (w : world) (st : list frame) : Prop :=
  match st with
  | FSlot (RSlot _) _ _ _ (Some _) _ :: _ => True
  | FRet _ :: FDeref _ _ _ :: _ => True
  | FRet _ :: FEmit _ _ _ _ :: _ => True
  | FProg (Ret _) :: FEmit _ _ _ _ :: _ => True
  | FProg (Do (ODeref pos) _) :: FEmit _ _ v _ :: _ => pos < length (vec_of w v)
  | _ => False
  end.
