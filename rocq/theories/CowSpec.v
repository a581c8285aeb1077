(** * Specification: pointers with value semantics *)
From Verif Require Export CowModel.

(** What a client sees: each variable is destroyed, empty or has a value. *)
Notation values := (list (option (option Z))).
Definition shown (c : cow) : values :=
  (fun x => match x with
    | None => None
    | Some None => Some None
    | Some (Some a) => Some (cw_mem c !! a)
    end) <$> cw_vars c.

(** The effect of an operation if each variable had its own value. *)
Definition vval (vs : values) (i : nat) : option (option Z) := match vs !! i with Some x => x | None => None end.
Definition vstep (vs : values) (o : cop) : values :=
  match o with
  | CDefault => vs ++ [Some None]
  | CMake z => vs ++ [Some (Some z)]
  | CCopy i => vs ++ [vval vs i]
  | CMove i => <[i := Some None]> vs ++ [vval vs i]
  | CAssign i j => <[i := vval vs j]> vs
  | CAssignMove i j => if decide (i = j) then vs else <[i := vval vs j]> (<[j := Some None]> vs)
  | CAssignRaw i z | CWrite i z => <[i := Some (Some z)]> vs
  | CDestroy i => <[i := None]> vs
  | CRead _ | CRef _ | CData _ | CConstData _ | CPoke _ _ | CPeek _ | CEq _ _ | CBool _ => vs
  end.
(** The result of a reading operation. *)
Definition vres (vs : values) (o : cop) (r : cout) : Prop :=
  match o with
  | CRead i => exists z, vval vs i = Some (Some z) /\ r = CVal z
  | CBool i => r = CIs (bool_decide (vval vs i <> Some None))
  | _ => True
  end.
Inductive vtrace : values -> list cop -> list cret -> values -> Prop :=
| VT_nil vs : vtrace vs [] [] vs
| VT_val vs o r os rs vs' : vres vs o r -> vtrace (vstep vs o) os rs vs' -> vtrace vs (o :: os) (RVal r :: rs) vs'
| VT_exn vs o os rs vs' : vtrace vs os rs vs' -> vtrace vs (o :: os) (RExn :: rs) vs'.

Definition is_poke (o : cop) : bool := match o with CPoke _ _ => true | _ => false end.
(** Operations that make a second owner of a value. *)
Definition copies (o : cop) : bool := match o with CCopy _ | CAssign _ _ => true | _ => false end.
(** Operations on variable [i] other than reading and copying it. *)
Definition touches (i : nat) (o : cop) : bool :=
  match o with
  | CMove j | CDestroy j | CWrite j _ | CRef j | CData j | CAssign j _ | CAssignRaw j _ => Nat.eqb i j
  | CAssignMove j k => Nat.eqb i j || Nat.eqb i k
  | _ => false
  end.
(** Variable [i] is usable, and not empty. *)
Definition usable (vs : values) (i : nat) : Prop := vval vs i <> None.
Definition holds_value (vs : values) (i : nat) : Prop := exists z, vval vs i = Some (Some z).
(** When is an operation defined, given what is shown and which addresses are alive? *)
Definition defined (vs : values) (alive : addr -> Prop) (o : cop) : Prop :=
  match o with
  | CDefault | CMake _ => True
  | CCopy i | CMove i | CAssignRaw i _ | CDestroy i | CData i | CConstData i | CBool i => usable vs i
  | CAssign i j | CAssignMove i j | CEq i j => usable vs i /\ usable vs j
  | CRead i | CWrite i _ | CRef i => holds_value vs i
  | CPoke a _ | CPeek a => alive a
  end.
Definition alive (c : cow) (a : addr) : Prop := exists i, cw_vars c !! i = Some (Some (Some a)).
(** Two variables point to the same object. *)
Definition same (c : cow) (i j : nat) : Prop :=
  exists a, cw_vars c !! i = Some (Some (Some a)) /\ cw_vars c !! j = Some (Some (Some a)).
Definition creach (c : cow) : Prop := exists os rs, crun cow0 os = Some (rs, c).
(** Operations for which the code allocates: an object, and a control block for it. *)
Definition needs_memory (c : cow) (o : cop) : Prop :=
  match o with
  | CMake _ | CAssignRaw _ _ => True
  | CWrite i _ | CRef i | CData i => exists j, j <> i /\ same c i j
  | _ => False
  end.
