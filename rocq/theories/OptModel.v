(** * Executable model of opt::optional<T>

    /repo/optional.hpp: optional_base (127-505), tc_optional_base (507-734), optional
    (754-1036), std::swap (1621-1630).  A client has any number of optional<T> variables.
    A value of T is an integer.  Every contained T is an object with an identity; its
    constructors and assignments may throw, its destructor does not.
    [mv z] is what is left of an object with value [z] after it was moved from. *)
From Coq Require Export ZArith.
From stdpp Require Export base list.

(** ** Objects of type T *)
Definition oid := nat.
(** What happens in the next constructor or assignment of T: it works, or it throws and
    leaves the target (of an assignment) and the source (of a move) with these values. *)
Inductive tout := TFine | TThrow (target source : Z).
(** Lifetime events. *)
Inductive oev := EvCon (o : oid) | EvUse (o : oid) | EvDes (o : oid).
(** The two members of optional_base, 134-135: m_initialized and the object, if any, that
    lives in m_storage. *)
Record cell := Cell { c_init : bool; c_obj : option oid }.
(** The whole state: the outcomes to come of T's functions, all objects ever made with
    value and "still alive", the event log (newest first), the variables ([None] is a
    destroyed one). *)
Record ow := OW { w_or : list tout; w_objs : list (Z * bool); w_ev : list oev; w_opt : list (option cell) }.

(** Exceptions: one thrown by T, or bad_optional_access. *)
Inductive oexn := XT | XAccess.
(** Results of a function: it returns, it throws, or the behaviour is undefined. *)
Inductive res (A : Type) := Ok (a : A) (w : ow) | Throw (x : oexn) (w : ow) | Bad.
Arguments Ok {A}. Arguments Throw {A}. Arguments Bad {A}.
Definition M A := ow -> res A.
Definition ret {A} (a : A) : M A := fun w => Ok a w.
Definition bind {A B} (m : M A) (f : A -> M B) : M B :=
  fun w => match m w with Ok a w' => f a w' | Throw x w' => Throw x w' | Bad => Bad end.
Definition bad {A} : M A := fun _ => Bad.
Definition throw {A} (x : oexn) : M A := fun w => Throw x w.
(** Run [fin] also when [m] throws: the destructor of a local. *)
Definition finally {A} (m : M A) (fin : M unit) : M A :=
  fun w => match m w with
  | Ok a w' => bind fin (fun _ => ret a) w'
  | Throw x w' => bind fin (fun _ => throw x) w'
  | Bad => Bad
  end.
Notation "x <-- m ;; k" := (bind m (fun x => k)) (at level 60, m at next level, right associativity).
Notation "m ;;; k" := (bind m (fun _ => k)) (at level 60, right associativity).

Section T.
Context (mv : Z -> Z).

Definition set_obj (w : ow) (o : oid) (x : Z * bool) : ow := OW (w_or w) (<[o := x]> (w_objs w)) (w_ev w) (w_opt w).
Definition log_ev (w : ow) (e : oev) : ow := OW (w_or w) (w_objs w) (e :: w_ev w) (w_opt w).
Definition pop (w : ow) : tout * ow :=
  match w_or w with [] => (TFine, w) | t :: ts => (t, OW ts (w_objs w) (w_ev w) (w_opt w)) end.

(** Use of an object as such: it must be alive. *)
Definition use (o : oid) : M Z :=
  fun w => match w_objs w !! o with Some (z, true) => Ok z (log_ev w (EvUse o)) | _ => Bad end.
Definition put (o : oid) (z : Z) : M unit :=
  fun w => match w_objs w !! o with Some (_, true) => Ok tt (set_obj w o (z, true)) | _ => Bad end.
(** A constructor of T that gives the new object value [z]; when it throws there is no
    object. *)
Definition make (z : Z) : M oid :=
  fun w => match pop w with
  | (TFine, w') => Ok (length (w_objs w')) (OW (w_or w') (w_objs w' ++ [(z, true)]) (EvCon (length (w_objs w')) :: w_ev w') (w_opt w'))
  | (TThrow _ _, w') => Throw XT w'
  end.
(** T(const T&) and T(T&&). *)
Definition make_copy (o : oid) : M oid := z <-- use o ;; make z.
Definition make_move (o : oid) : M oid :=
  z <-- use o ;;
  fun w => match pop w with
  | (TFine, w') => bind (make z) (fun o' => bind (put o (mv z)) (fun _ => ret o')) (OW (TFine :: w_or w') (w_objs w') (w_ev w') (w_opt w'))
  | (TThrow _ s, w') => bind (put o s) (fun _ => throw XT) w'
  end.
(** Assignment to a living T from a value, from an object, from an object by move. *)
Definition set_val (d : oid) (z : Z) : M unit :=
  _ <-- use d ;;
  fun w => match pop w with
  | (TFine, w') => put d z w'
  | (TThrow t _, w') => bind (put d t) (fun _ => throw XT) w'
  end.
Definition set_copy (d s : oid) : M unit := z <-- use s ;; set_val d z.
Definition set_move (d s : oid) : M unit :=
  z <-- use s ;; _ <-- use d ;;
  fun w => match pop w with
  | (TFine, w') => bind (put d z) (fun _ => put s (mv z)) w'
  | (TThrow t s', w') => bind (put d t) (fun _ => bind (put s s') (fun _ => throw XT)) w'
  end.
(** ~T() *)
Definition des (o : oid) : M unit :=
  fun w => match w_objs w !! o with Some (z, true) => Ok tt (log_ev (set_obj w o (z, false)) (EvDes o)) | _ => Bad end.

(** ** Variables *)
Definition get_cell (i : nat) : M cell := fun w => match w_opt w !! i with Some (Some c) => Ok c w | _ => Bad end.
Definition set_cell (i : nat) (c : option cell) : M unit :=
  fun w => Ok tt (OW (w_or w) (w_objs w) (w_ev w) (<[i := c]> (w_opt w))).
Definition new_cell (c : cell) : M nat :=
  fun w => Ok (length (w_opt w)) (OW (w_or w) (w_objs w) (w_ev w) (w_opt w ++ [Some c])).

(** ** optional_base *)
(** get_impl(), 479-487: the object in the storage; there must be one. *)
Definition get_impl (c : cell) : M oid := match c_obj c with Some o => ret o | None => bad end.
(** construct(...), 374-400: placement new, then m_initialized = true.  [mk] is the
    constructor call. *)
Definition construct (mk : M oid) : M cell := o <-- mk ;; ret (Cell true (Some o)).
(** destroy() and destroy_impl(), 473-477 and 500-504. *)
Definition destroy (c : cell) : M cell :=
  if c_init c then o <-- get_impl c ;; des o ;;; ret (Cell false None) else ret c.
(** optional_base(), 147-157, 244-248. *)
Definition empty : cell := Cell false None.
(** Constructors from values, 159-193, 409-438: construct if [cond]. *)
Definition base_value (cond : bool) (z : Z) : M cell := if cond then construct (make z) else ret empty.
(** Copy and move constructor, 195-212. *)
Definition base_copy (r : cell) : M cell :=
  if c_init r then construct (o <-- get_impl r ;; make_copy o) else ret empty.
Definition base_move (r : cell) : M cell :=
  if c_init r then construct (o <-- get_impl r ;; make_move o) else ret empty.
(** assign(optional_base const&) and assign(optional_base&&), 249-281,
    assign_value 461-471. *)
Definition base_assign (c r : cell) : M cell :=
  if c_init c then
    if c_init r then d <-- get_impl c ;; s <-- get_impl r ;; set_copy d s ;;; ret c else destroy c
  else
    if c_init r then construct (o <-- get_impl r ;; make_copy o) else ret c.
Definition base_assign_mv (c r : cell) : M cell :=
  if c_init c then
    if c_init r then d <-- get_impl c ;; s <-- get_impl r ;; set_move d s ;;; ret c else destroy c
  else
    if c_init r then construct (o <-- get_impl r ;; make_move o) else ret c.
(** assign(optional<U> const&), assign(optional<U>&&), 283-318 and the converting
    constructors 806-826.  U's value is converted to a temporary T first, from which T is
    then move-assigned or move-constructed.  The conversion does not change the value.
    For the rvalue version the source keeps what a move leaves. *)
Definition convert (move : bool) (o : oid) : M oid := if move then make_move o else make_copy o.
Definition with_temp {A} (move : bool) (r : cell) (k : oid -> M A) : M A :=
  o <-- get_impl r ;; tmp <-- convert move o ;; finally (k tmp) (des tmp).
Definition base_convert (move : bool) (r : cell) : M cell :=
  if c_init r then with_temp move r (fun tmp => construct (make_move tmp)) else ret empty.
Definition base_assign_conv (move : bool) (c r : cell) : M cell :=
  if c_init c then
    if c_init r then with_temp move r (fun tmp => d <-- get_impl c ;; set_move d tmp ;;; ret c) else destroy c
  else
    if c_init r then with_temp move r (fun tmp => construct (make_move tmp)) else ret c.
(** assign(T const&) and assign(T&&), 320-336. *)
Definition base_assign_val (c : cell) (z : Z) : M cell :=
  if c_init c then d <-- get_impl c ;; set_val d z ;;; ret c else construct (make z).

(** ** optional<T> *)
Inductive oop :=
| ONew                              (* 776-786 *)
| ONewVal (z : Z)                   (* 788-798 *)
| ONewIf (b : bool) (z : Z)         (* 800-804 *)
| ONewInPlace (z : Z)               (* 899-907 *)
| ONewInPlaceIf (b : bool) (z : Z)  (* 909-917 *)
| ONewCopy (j : nat) | ONewMove (j : nat)          (* 828-834 *)
| ONewConv (move : bool) (j : nat)                 (* 806-826 *)
| ODelete (i : nat)                                (* 837, 244-247 *)
| OAssign (i j : nat) | OAssignMove (i j : nat)    (* 859-865 *)
| OAssignConv (move : bool) (i j : nat)            (* 839-857 *)
| OAssignVal (i : nat) (z : Z)      (* 867-874 *)
| OAssignNone (i : nat)             (* 876-883, 338-343 *)
| OEmplace (i : nat) (z : Z)        (* 885-897, 402-407 *)
| OEmplaceX (i : nat)               (* the same when an argument's conversion to T throws *)
| OReset (i : nat)                  (* 347-352 *)
| OSwap (i j : nat)                 (* 919-923, 1625-1629 *)
| OHas (i : nat)                    (* 1025-1034, is_initialized 367-370 *)
| OGet (i : nat)                    (* get, operator*, operator->: 925-976; read through it *)
| OSet (i : nat) (z : Z)            (* *opt = z: 934-938, 973-976 *)
| OTake (i : nat)                   (* T t = *std::move(opt): 978-981 *)
| OValue (i : nat)                  (* value(), 983-997 *)
| OTakeValue (i : nat)              (* T t = std::move(opt).value(): 999-1005 *)
| OValueOr (i : nat) (z : Z)        (* value_or const&, 1007-1014 *)
| OTakeValueOr (i : nat) (z : Z)    (* value_or &&, 1016-1023 *)
| OGetValueOr (i : nat) (z : Z)     (* get_value_or, 940-949 *)
| OPtr (i : nat).                   (* get_ptr() is not null, 354-365, get_pointer 1596-1618 *)
Inductive oval := VU | VZ (z : Z) | VB (b : bool) | VI (i : nat).

(** Update of a variable by a function on its cell. *)
Definition upd (i : nat) (f : cell -> M cell) : M oval := c <-- get_cell i ;; c' <-- f c ;; set_cell i (Some c') ;;; ret VU.
Definition fresh_var (m : M cell) : M oval := c <-- m ;; i <-- new_cell c ;; ret (VI i).
(** emplace, 402-407: destroy, then construct; between the two m_initialized is false. *)
Definition emplace (i : nat) (z : Z) : M oval :=
  c <-- get_cell i ;; c' <-- destroy c ;; set_cell i (Some c') ;;; c'' <-- construct (make z) ;; set_cell i (Some c'') ;;; ret VU.
(** The same with an argument whose conversion throws inside the placement new. *)
Definition emplace_x (i : nat) : M oval :=
  c <-- get_cell i ;; c' <-- destroy c ;; set_cell i (Some c') ;;; throw XT.
(** An object that is returned to the client, read and destroyed. *)
Definition returned (m : M oid) : M oval := o <-- m ;; z <-- use o ;; des o ;;; ret (VZ z).
(** swap: the qualified call std::swap( *this, rhs) in the class template finds the
    overloads declared before it, so std::swap of <utility>: T tmp(move(a)); a = move(b);
    b = move(tmp). *)
Definition swap (i j : nat) : M oval :=
  a <-- get_cell i ;; _ <-- get_cell j ;;
  tmp <-- base_move a ;;
  finally
    (a <-- get_cell i ;; b <-- get_cell j ;; a' <-- base_assign_mv a b ;; set_cell i (Some a') ;;;
     b <-- get_cell j ;; b' <-- base_assign_mv b tmp ;; set_cell j (Some b') ;;; ret VU)
    (destroy tmp ;;; ret tt).

Definition oexec (o : oop) : M oval :=
  match o with
  | ONew => fresh_var (ret empty)
  | ONewVal z | ONewInPlace z => fresh_var (base_value true z)
  | ONewIf b z | ONewInPlaceIf b z => fresh_var (base_value b z)
  | ONewCopy j => r <-- get_cell j ;; fresh_var (base_copy r)
  | ONewMove j => r <-- get_cell j ;; fresh_var (base_move r)
  | ONewConv m j => r <-- get_cell j ;; fresh_var (base_convert m r)
  | ODelete i => c <-- get_cell i ;; destroy c ;;; set_cell i None ;;; ret VU
  | OAssign i j => r <-- get_cell j ;; upd i (fun c => base_assign c r)
  | OAssignMove i j => r <-- get_cell j ;; upd i (fun c => base_assign_mv c r)
  | OAssignConv m i j => r <-- get_cell j ;; upd i (fun c => base_assign_conv m c r)
  | OAssignVal i z => upd i (fun c => base_assign_val c z)
  | OAssignNone i | OReset i => upd i destroy
  | OEmplace i z => emplace i z
  | OEmplaceX i => emplace_x i
  | OSwap i j => swap i j
  | OHas i => c <-- get_cell i ;; ret (VB (c_init c))
  | OPtr i => c <-- get_cell i ;; ret (VB (c_init c))
  (* assert(is_initialized()); with NDEBUG undefined behaviour *)
  | OGet i => c <-- get_cell i ;; if c_init c then o <-- get_impl c ;; z <-- use o ;; ret (VZ z) else bad
  | OSet i z => c <-- get_cell i ;; if c_init c then o <-- get_impl c ;; set_val o z ;;; ret VU else bad
  | OTake i => c <-- get_cell i ;; if c_init c then returned (o <-- get_impl c ;; make_move o) else bad
  | OValue i => c <-- get_cell i ;; if c_init c then o <-- get_impl c ;; z <-- use o ;; ret (VZ z) else throw XAccess
  | OTakeValue i => c <-- get_cell i ;; if c_init c then returned (o <-- get_impl c ;; make_move o) else throw XAccess
  | OValueOr i z => c <-- get_cell i ;; returned (if c_init c then o <-- get_impl c ;; make_copy o else make z)
  | OTakeValueOr i z => c <-- get_cell i ;; returned (if c_init c then o <-- get_impl c ;; make_move o else make z)
  | OGetValueOr i z => c <-- get_cell i ;; if c_init c then o <-- get_impl c ;; z' <-- use o ;; ret (VZ z') else ret (VZ z)
  end.

(** A client: it catches exceptions and goes on. *)
Inductive oret := RetV (v : oval) | RetX (x : oexn).
Fixpoint orun (w : ow) (os : list oop) : option (list oret * ow) :=
  match os with
  | [] => Some ([], w)
  | o :: os =>
      match oexec o w with
      | Ok v w' => match orun w' os with Some (rs, w'') => Some (RetV v :: rs, w'') | None => None end
      | Throw x w' => match orun w' os with Some (rs, w'') => Some (RetX x :: rs, w'') | None => None end
      | Bad => None
      end
  end.
End T.
Definition ow0 (oracle : list tout) : ow := OW oracle [] [] [].

(** ** tc_optional_base: scalars, 507-734

    m_initialized and m_storage, a T that always has a value.  Operations on a scalar
    neither throw nor change the source of a move. *)
Record tcell := TCell { t_init : bool; t_val : Z }.
Definition tw := list (option tcell).
Inductive tres := TOk (v : oval) (w : tw) | TX (x : oexn) (w : tw) | TBad.
(** Default constructor with m_storage{}, 527-535; from a value 537-545 (m_initialized(cond));
    in place 647-678: starts disengaged with m_storage{} (indeterminate in the overload with
    an initializer_list, which no scalar has) and then constructs. *)
Definition tempty : tcell := TCell false 0.
Definition tconstruct (z : Z) : tcell := TCell true z.
(** assign(optional<U> const&), assign(optional<U>&&), 560-580. *)
Definition tconv (c r : tcell) : tcell := TCell (t_init r) (if t_init r then t_val r else t_val c).
(** destroy(), 730-733. *)
Definition tdestroy (c : tcell) : tcell := TCell false (t_val c).
Definition tget (w : tw) (i : nat) (k : tcell -> tres) : tres := match w !! i with Some (Some c) => k c | _ => TBad end.
Definition tset (w : tw) (i : nat) (c : option tcell) : tw := <[i := c]> w.
Definition tnew (w : tw) (c : tcell) : tres := TOk (VI (length w)) (w ++ [Some c]).
Definition texec (o : oop) (w : tw) : tres :=
  match o with
  | ONew => tnew w tempty
  | ONewVal z => tnew w (TCell true z)
  | ONewInPlace z => tnew w (tconstruct z)
  | ONewIf b z => tnew w (TCell b z)
  | ONewInPlaceIf b z => tnew w (if b then tconstruct z else tempty)
  (* implicit copy and move: memberwise *)
  | ONewCopy j | ONewMove j => tget w j (fun r => tnew w r)
  | ONewConv _ j => tget w j (fun r => tnew w (if t_init r then tconstruct (t_val r) else tempty))
  | ODelete i => tget w i (fun _ => TOk VU (tset w i None))
  | OAssign i j | OAssignMove i j => tget w j (fun r => tget w i (fun _ => TOk VU (tset w i (Some r))))
  | OAssignConv _ i j => tget w j (fun r => tget w i (fun c => TOk VU (tset w i (Some (tconv c r)))))
  | OAssignVal i z | OEmplace i z => tget w i (fun _ => TOk VU (tset w i (Some (tconstruct z))))
  (* emplace_assign, 642-646: m_storage = value_type(args...) throws first *)
  | OEmplaceX i => tget w i (fun _ => TX XT w)
  | OAssignNone i | OReset i => tget w i (fun c => TOk VU (tset w i (Some (tdestroy c))))
  | OSwap i j => tget w i (fun a => tget w j (fun b => TOk VU (tset (tset w i (Some b)) j (Some a))))
  | OHas i | OPtr i => tget w i (fun c => TOk (VB (t_init c)) w)
  | OGet i | OTake i => tget w i (fun c => if t_init c then TOk (VZ (t_val c)) w else TBad)
  | OSet i z => tget w i (fun c => if t_init c then TOk VU (tset w i (Some (TCell true z))) else TBad)
  | OValue i | OTakeValue i => tget w i (fun c => if t_init c then TOk (VZ (t_val c)) w else TX XAccess w)
  | OValueOr i z | OTakeValueOr i z | OGetValueOr i z => tget w i (fun c => TOk (VZ (if t_init c then t_val c else z)) w)
  end.
Fixpoint trun (w : tw) (os : list oop) : option (list oret * tw) :=
  match os with
  | [] => Some ([], w)
  | o :: os =>
      match texec o w with
      | TOk v w' => match trun w' os with Some (rs, w'') => Some (RetV v :: rs, w'') | None => None end
      | TX x w' => match trun w' os with Some (rs, w'') => Some (RetX x :: rs, w'') | None => None end
      | TBad => None
      end
  end.
