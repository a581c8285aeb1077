(** * What optional<T> is supposed to do

    A variable holds nothing or a value.  Nothing here mentions storage, flags or objects,
    except the last section, which says what a proper life of an object is. *)
From Verif Require Export OptModel.

(** ** Values *)
(** [None] in the list is a variable that was destroyed. *)
Notation ovals := (list (option (option Z))).
(** It returns, bad_optional_access is thrown, an exception of T is certain, or the behaviour
    is undefined. *)
Inductive oans := AVal (v : oval) (vs : list (option (option Z))) | AAccess | AThrows | AUndef.

(** What is left in a variable after a move out of it: it stays engaged. *)
Definition leave (mv : Z -> Z) (move : bool) (x : option Z) : option Z := if move then mv <$> x else x.
Definition at_var (vs : ovals) (i : nat) (k : option Z -> oans) : oans :=
  match vs !! i with Some (Some x) => k x | _ => AUndef end.
Definition put_var (vs : ovals) (i : nat) (x : option Z) : ovals := <[i := Some x]> vs.
Definition add_var (vs : ovals) (x : option Z) : oans := AVal (VI (length vs)) (vs ++ [Some x]).

Definition ospec (mv : Z -> Z) (vs : ovals) (o : oop) : oans :=
  match o with
  | ONew => add_var vs None
  | ONewVal z | ONewInPlace z => add_var vs (Some z)
  | ONewIf b z | ONewInPlaceIf b z => add_var vs (if b then Some z else None)
  | ONewCopy j => at_var vs j (fun x => add_var vs x)
  | ONewMove j => at_var vs j (fun x => add_var (put_var vs j (leave mv true x)) x)
  | ONewConv m j => at_var vs j (fun x => add_var (put_var vs j (leave mv m x)) x)
  | ODelete i => at_var vs i (fun _ => AVal VU (<[i := None]> vs))
  | OAssign i j => at_var vs j (fun x => at_var vs i (fun _ => AVal VU (put_var vs i x)))
  | OAssignMove i j => at_var vs j (fun x => at_var vs i (fun _ => AVal VU (put_var (put_var vs i x) j (leave mv true x))))
  | OAssignConv m i j => at_var vs j (fun x => at_var vs i (fun _ => AVal VU (put_var (put_var vs j (leave mv m x)) i x)))
  | OAssignVal i z | OEmplace i z => at_var vs i (fun _ => AVal VU (put_var vs i (Some z)))
  | OEmplaceX i => at_var vs i (fun _ => AThrows)
  | OAssignNone i | OReset i => at_var vs i (fun _ => AVal VU (put_var vs i None))
  | OSwap i j => at_var vs i (fun x => at_var vs j (fun y => AVal VU (put_var (put_var vs i y) j x)))
  | OHas i | OPtr i => at_var vs i (fun x => AVal (VB (match x with Some _ => true | None => false end)) vs)
  | OGet i => at_var vs i (fun x => match x with Some z => AVal (VZ z) vs | None => AUndef end)
  | OSet i z => at_var vs i (fun x => match x with Some _ => AVal VU (put_var vs i (Some z)) | None => AUndef end)
  | OTake i => at_var vs i (fun x => match x with Some z => AVal (VZ z) (put_var vs i (Some (mv z))) | None => AUndef end)
  | OValue i => at_var vs i (fun x => match x with Some z => AVal (VZ z) vs | None => AAccess end)
  | OTakeValue i => at_var vs i (fun x => match x with Some z => AVal (VZ z) (put_var vs i (Some (mv z))) | None => AAccess end)
  | OValueOr i z | OGetValueOr i z => at_var vs i (fun x => AVal (VZ (match x with Some z' => z' | None => z end)) vs)
  | OTakeValueOr i z =>
      at_var vs i (fun x => match x with Some z' => AVal (VZ z') (put_var vs i (Some (mv z'))) | None => AVal (VZ z) vs end)
  end.

(** ** After an exception of T *)
(** Only [i] may differ, and if it does it was engaged and still is. *)
Definition loose (vs : ovals) (i : nat) (vs' : ovals) : Prop :=
  vs' = vs \/ exists z z', vs !! i = Some (Some (Some z)) /\ vs' = put_var vs i (Some z').
Definition ospec_throw (vs : ovals) (o : oop) (vs' : ovals) : Prop :=
  match o with
  | ONewVal _ | ONewIf _ _ | ONewInPlace _ | ONewInPlaceIf _ _ | ONewCopy _ | ONewConv false _ | OValueOr _ _ => vs' = vs
  | ONewMove j | ONewConv true j | OTake j | OTakeValue j | OTakeValueOr j _ => loose vs j vs'
  | OAssign i _ | OAssignConv false i _ | OAssignVal i _ | OSet i _ => loose vs i vs'
  | OAssignMove i j | OAssignConv true i j => exists vs1, loose vs i vs1 /\ loose vs1 j vs'
  | OEmplace i _ | OEmplaceX i => vs' = put_var vs i None
  | OSwap i j =>
      (exists vs1, loose vs i vs1 /\ loose vs1 j vs') \/
      ((exists z, vs !! i = Some (Some (Some z))) /\ vs !! j = Some (Some None) /\ vs' = put_var vs i None)
  | _ => False
  end.

(** ** Whole clients *)
(** [opt_trace mv vs os rs vs']: from the values [vs] the operations [os] may give the
    answers [rs] and lead to the values [vs'].  Only exceptions of T leave a choice. *)
Inductive opt_trace (mv : Z -> Z) : ovals -> list oop -> list oret -> ovals -> Prop :=
| OT_nil vs : opt_trace mv vs [] [] vs
| OT_val vs o os v rs vs1 vs' :
    ospec mv vs o = AVal v vs1 -> opt_trace mv vs1 os rs vs' -> opt_trace mv vs (o :: os) (RetV v :: rs) vs'
| OT_access vs o os rs vs' :
    ospec mv vs o = AAccess -> opt_trace mv vs os rs vs' -> opt_trace mv vs (o :: os) (RetX XAccess :: rs) vs'
| OT_throw vs o os rs vs1 vs' :
    ospec_throw vs o vs1 -> opt_trace mv vs1 os rs vs' -> opt_trace mv vs (o :: os) (RetX XT :: rs) vs'.
(** Nothing that T does throws. *)
Definition no_throw (oracle : list tout) (os : list oop) : Prop :=
  Forall (eq TFine) oracle /\ Forall (fun o => forall i, o <> OEmplaceX i) os.

(** ** Lives of objects *)
Inductive life := Unborn | Alive | Dead | Wrong.
(** Newest event first.  Construction, then uses, then one destruction, then nothing. *)
Fixpoint olife (o : oid) (l : list oev) : life :=
  match l with
  | [] => Unborn
  | EvCon o' :: l => if decide (o = o') then match olife o l with Unborn => Alive | _ => Wrong end else olife o l
  | EvUse o' :: l => if decide (o = o') then match olife o l with Alive => Alive | _ => Wrong end else olife o l
  | EvDes o' :: l => if decide (o = o') then match olife o l with Alive => Dead | _ => Wrong end else olife o l
  end.

(** Variable [i] exists and is engaged, with object [o] in its storage. *)
Definition holds_obj (w : ow) (i : nat) (o : oid) : Prop := w_opt w !! i = Some (Some (Cell true (Some o))).
Definition is_engaged (w : ow) (i : nat) : bool := match w_opt w !! i with Some (Some c) => c_init c | _ => false end.
(** Which variables are engaged before and after an operation that ended with an exception
    of T. *)
Definition after_exception (o : oop) (before after : nat -> bool) : Prop :=
  match o with
  | OEmplace k _ | OEmplaceX k => after k = false /\ forall i, i <> k -> after i = before i
  | OSwap k j =>
      (forall i, after i = before i) \/
      (before k = true /\ before j = false /\ after k = false /\ forall i, i <> k -> after i = before i)
  | _ => forall i, after i = before i
  end.
