(** * Executable model of cow_ptr and make_cow

    /repo/signals.hpp, lines 502-671.  A client has any number of cow_ptr<T> variables
    and keeps addresses it got from them.  An element of T is an integer; T's copy
    constructor copies the integer or throws, its other functions do not throw.
    Construction of T in make_cow is "allocate, then store"; both may fail. *)
From Coq Require Export ZArith.
From stdpp Require Export base list.

(** A variable is destroyed ([None]), holds a null pointer ([Some None]) or an address.
    Addresses are never used twice (simplification: the allocator may reuse them, but
    only a client that uses a dangling address could tell; that is [CBad] here). *)
Notation addr := nat.
Notation cowvar := (option (option nat)).
Record cow := Cow { cw_mem : list Z; cw_vars : list cowvar }.

(** std::shared_ptr::use_count: the number of cow_ptrs that own the object.  Computed,
    not stored; std::shared_ptr is trusted to free the object when it gets to zero. *)
Definition owns (a : addr) (x : cowvar) : bool := match x with Some (Some b) => Nat.eqb a b | _ => false end.
Definition count (c : cow) (a : addr) : nat := length (filter (fun x => Is_true (owns a x)) (cw_vars c)).

Inductive cop :=
| CDefault                    (* cow_ptr(), 518 *)
| CMake (z : Z)               (* make_cow and cow_ptr(T* ), 521-523, 661-671 *)
| CCopy (i : nat)             (* cow_ptr(const cow_ptr&), 525-527 *)
| CMove (i : nat)             (* cow_ptr(cow_ptr&&), 529-531 *)
| CAssign (i j : nat)         (* i = j, 534-542 *)
| CAssignMove (i j : nat)     (* i = std::move(j), 545-549 *)
| CAssignRaw (i : nat) (z : Z) (* i = new T(z), 552-556 *)
| CDestroy (i : nat)          (* 519 *)
| CRead (i : nat)             (* read() and const operator*, 567-570, 615-618 *)
| CWrite (i : nat) (z : Z)    (* write() = z, *i = z, 560-564, 621-625 *)
| CRef (i : nat)              (* T& r = write(), r is kept *)
| CData (i : nat)             (* operator->, operator T*, data(): 573-578, 588-592, 602-606 *)
| CConstData (i : nat)        (* their const versions: 581-585, 595-599, 608-611 *)
| CPoke (a : addr) (z : Z)    (* the client writes through an address it kept *)
| CPeek (a : addr)            (* the client reads through an address it kept *)
| CEq (i j : nat)             (* ==, 627-631; != at 633-637 is its negation *)
| CBool (i : nat).            (* explicit operator bool, 641-644 *)

Inductive cout := CUnit | CVal (z : Z) | CAddr (a : option addr) | CIs (b : bool) | CNew (i : nat).
(** [CBad]: undefined behaviour; [CExn]: an exception left the function; [CAbort]: an
    exception met a noexcept function. *)
Inductive cres := COk (o : cout) (c : cow) | CExn (c : cow) | CAbort | CBad.

(** What the memory allocator and the copy constructor of T do in a call. *)
Inductive cmem := CFine | CThrow | CNoBlock.

Definition set_var (c : cow) (i : nat) (x : cowvar) : cow := Cow (cw_mem c) (<[i := x]> (cw_vars c)).
Definition add_var (c : cow) (x : cowvar) : cres := COk (CNew (length (cw_vars c))) (Cow (cw_mem c) (cw_vars c ++ [x])).
Definition get_var (c : cow) (i : nat) : option (option addr) :=
  match cw_vars c !! i with Some (Some p) => Some p | _ => None end.
Definition store (c : cow) (z : Z) : cow := Cow (cw_mem c ++ [z]) (cw_vars c).

(** new T(z) wrapped in cow_ptr(T* ) noexcept. *)
Definition alloc (m : cmem) (c : cow) (z : Z) (k : addr -> cow -> cres) : cres :=
  match m with
  | CFine => k (length (cw_mem c)) (store c z)
  | CThrow => CExn c
  | CNoBlock => CAbort
  end.
(** detach(), 647-655. *)
Definition detach (m : cmem) (c : cow) (i : nat) (k : option addr -> cow -> cres) : cres :=
  match get_var c i with
  | None => CBad
  | Some None => k None c
  | Some (Some a) =>
      if Nat.ltb 1 (count c a) then
        match cw_mem c !! a with
        | None => CBad
        | Some z => alloc m c z (fun b c' => k (Some b) (set_var c' i (Some (Some b))))
        end
      else k (Some a) c
  end.
(** Access to memory: the object must be alive. *)
Definition load (c : cow) (a : addr) (k : Z -> cres) : cres :=
  match cw_mem c !! a with
  | Some z => if Nat.ltb 0 (count c a) then k z else CBad
  | None => CBad
  end.
Definition poke (c : cow) (a : addr) (z : Z) : cow := Cow (<[a := z]> (cw_mem c)) (cw_vars c).

Definition cstep (m : cmem) (c : cow) (o : cop) : cres :=
  match o with
  | CDefault => add_var c (Some None)
  | CMake z => alloc m c z (fun a c' => add_var c' (Some (Some a)))
  | CCopy i => match get_var c i with Some p => add_var c (Some p) | None => CBad end
  | CMove i => match get_var c i with Some p => add_var (set_var c i (Some None)) (Some p) | None => CBad end
  | CAssign i j =>
      match get_var c i, get_var c j with
      | Some _, Some q => COk CUnit (if Nat.eqb i j then c else set_var c i (Some q))
      | _, _ => CBad
      end
  | CAssignMove i j =>
      (* std::shared_ptr is unchanged by a move assignment to itself *)
      match get_var c i, get_var c j with
      | Some _, Some q => COk CUnit (if Nat.eqb i j then c else set_var (set_var c j (Some None)) i (Some q))
      | _, _ => CBad
      end
  | CAssignRaw i z =>
      match get_var c i with
      | Some _ => alloc m c z (fun a c' => COk CUnit (set_var c' i (Some (Some a))))
      | None => CBad
      end
  | CDestroy i => match get_var c i with Some _ => COk CUnit (set_var c i None) | None => CBad end
  | CRead i => match get_var c i with Some (Some a) => load c a (fun z => COk (CVal z) c) | _ => CBad end
  | CWrite i z =>
      detach m c i (fun p c' => match p with Some a => load c' a (fun _ => COk CUnit (poke c' a z)) | None => CBad end)
  | CRef i => detach m c i (fun p c' => match p with Some a => COk (CAddr (Some a)) c' | None => CBad end)
  | CData i => detach m c i (fun p c' => COk (CAddr p) c')
  | CConstData i => match get_var c i with Some p => COk (CAddr p) c | None => CBad end
  | CPoke a z => load c a (fun _ => COk CUnit (poke c a z))
  | CPeek a => load c a (fun z => COk (CVal z) c)
  | CEq i j =>
      match get_var c i, get_var c j with
      | Some p, Some q => COk (CIs (bool_decide (p = q))) c
      | _, _ => CBad
      end
  | CBool i => match get_var c i with Some p => COk (CIs (bool_decide (p <> None))) c | None => CBad end
  end.

(** A run of a client: the results in order and the final state.  An exception is
    caught by the client, which goes on. *)
Inductive cret := RVal (o : cout) | RExn.
Fixpoint crun (c : cow) (os : list (cmem * cop)) : option (list cret * cow) :=
  match os with
  | [] => Some ([], c)
  | (m, o) :: os =>
      match cstep m c o with
      | COk r c' => match crun c' os with Some (rs, c'') => Some (RVal r :: rs, c'') | None => None end
      | CExn c' => match crun c' os with Some (rs, c'') => Some (RExn :: rs, c'') | None => None end
      | CAbort | CBad => None
      end
  end.
Definition cow0 : cow := Cow [] [].
