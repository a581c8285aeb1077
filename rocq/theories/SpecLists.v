(** * Specification: the operations on signals as operations of sequential lists

    Every signal has a list of slots.  Every act changes a list, or reads it, at once. *)
From Verif Require Export SpecErase SpecState SpecAtomic.

(** The acts: connect appends slot [l] to the list of [s]; disconnect of [l] takes [l'] out
    of it, or finds nothing to take out; disconnect(f) with argument [f] finds the list [xs],
    leaves [ys] and returns or throws [o]; an emission reads the list; a move of signal [s]
    makes signal [s2]. *)
Inductive lact :=
| LAdd (s : sid) (l : lid)
| LTake (s : sid) (l l' : lid)
| LMiss (s : sid) (l : lid)
| LErase (s : sid) (f : option callable) (xs ys : list lid) (o : out)
| LRead (s : sid) (xs : list lid)
| LMove (s s2 : sid).

Definition put (L : sid -> list lid) (s : sid) (xs : list lid) : sid -> list lid :=
  fun s' => if decide (s' = s) then xs else L s'.
(** The lists after an act. *)
Definition lnext (L : sid -> list lid) (a : lact) : sid -> list lid :=
  match a with
  | LAdd s l => put L s (L s ++ [l])
  | LTake s _ l' => put L s (swap_remove l' (L s))
  | LErase s _ _ ys _ => put L s ys
  | LMove s s2 => put (put L s []) s2 (L s)
  | LMiss _ _ | LRead _ _ => L
  end.
(** What an act reports is right for the lists on which it happens. *)
Definition lright (L : sid -> list lid) (a : lact) : Prop :=
  match a with
  | LAdd s l => l ∉ L s
  | LTake s _ l' => l' ∈ L s
  | LErase s _ xs ys o => xs = L s /\ exists zs, xs ≡ₚ ys ++ zs /\ (o = OutNat (length zs) \/ exists x, o = OutExn x)
  | LRead s xs => xs = L s
  | LMove s s2 => s2 <> s /\ L s2 = []
  | LMiss _ _ => True
  end.
Fixpoint lafter (H : list lact) : sid -> list lid :=
  match H with [] => fun _ => [] | a :: H => lnext (lafter H) a end.
Fixpoint lsequential (H : list lact) : Prop :=
  match H with [] => True | a :: H => lright (lafter H) a /\ lsequential H end.

(** The act an event of the log stands for.  disconnect(f) takes out slots one after the
    other, but counts as one act, at its end. *)
Definition lact_of (ev : event) : option lact :=
  match ev with
  | EConn _ s l _ => Some (LAdd s l)
  | ERem _ s l l' => Some (LTake s l l')
  | ERemMiss _ s l => Some (LMiss s l)
  | EErase _ s f xs ys n => Some (LErase s f xs ys (OutNat n))
  | EEraseExn _ s f xs ys x => Some (LErase s f xs ys (OutExn x))
  | EEmit _ _ s _ xs => Some (LRead s xs)
  | EMoveSig s s2 => Some (LMove s s2)
  | _ => None
  end.
Definition lhistory (log : list event) : list lact := omap lact_of log.

(** The callable that the disconnection begun in [w0] compares slots with: the one given, or the
    one in the given slot object, if it holds one. *)
Definition removes (w0 : world) (src : csrc) (f : option callable) : Prop :=
  match src with
  | SrcFn c => f = Some c
  | SrcSlot u => exists r, v_us (w_vars w0) !! u = Some r /\ us_live r = true /\ f = im_c <$> us_impl r
  end.
(** A call of [p], an operation on a signal, that gives [o] acts on lists as [H]: once, or if
    it runs out of memory before it can, not at all. *)
Definition lperforms (w0 : world) (p : op) (o : out) (H : list lact) : Prop :=
  match p with
  | OConnect s _ _ => (exists c l, o = OutId c /\ H = [LAdd s l]) \/ (exists x, o = OutExn x /\ H = [])
  | OErase s src => (exists f xs ys, removes w0 src f /\ H = [LErase s f xs ys o]) \/ (o = OutExn BadAlloc /\ H = [])
  | OEmit s _ => exists xs, H = [LRead s xs]
  | OMoveSignal s => exists s2, o = OutId s2 /\ H = [LMove s s2]
  | _ => False
  end.

(** [a] is part of a call of [p] that begins in [w0]. *)
Definition lpart (w0 : world) (p : op) (a : lact) : Prop :=
  match a with
  | LAdd s _ => exists src sc, p = OConnect s src sc
  | LTake _ l _ | LMiss _ l => disconnects w0 p l
  | LErase s _ _ _ _ => exists src, p = OErase s src
  | LRead s _ => exists args, p = OEmit s args
  | LMove s _ => p = OMoveSignal s
  end.
