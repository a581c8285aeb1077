(** * Model of the comparison operators of optional

    /repo/optional.hpp, lines 1210-1536.  An optional is an [option]; [rel] holds the six
    operators of the element type, which need not be related to each other.  The
    operators for optional<T&> (1404-1474) and optional<const T&> (1476-1536) with a value
    are word for word those for optional<T> (1320-1402), with the referred object as the
    element; so one definition stands for the three. *)
From Coq Require Export Bool ZArith.
From stdpp Require Export base.

Record rel (T : Type) := Rel { eqT : T -> T -> bool; neT : T -> T -> bool; ltT : T -> T -> bool;
  gtT : T -> T -> bool; leT : T -> T -> bool; geT : T -> T -> bool }.
Arguments Rel {T}. Arguments eqT {T}. Arguments neT {T}. Arguments ltT {T}. Arguments gtT {T}. Arguments leT {T}. Arguments geT {T}.

Section Ops.
Context {T : Type} (r : rel T).

(** bool(x) *)
Definition eng (x : option T) : bool := match x with Some _ => true | None => false end.

(** optional and optional, 1212-1246 *)
Definition oo_eq (x y : option T) : bool :=
  match x, y with Some a, Some b => eqT r a b | _, _ => Bool.eqb (eng x) (eng y) end.
Definition oo_ne x y := negb (oo_eq x y).
Definition oo_lt (x y : option T) : bool :=
  match y with None => false | Some b => match x with None => true | Some a => ltT r a b end end.
Definition oo_gt x y := oo_lt y x.
Definition oo_le x y := negb (oo_lt y x).
Definition oo_ge x y := negb (oo_lt x y).

(** optional and nullopt, 1248-1318; first the optional on the left, then on the right *)
Definition on_eq (x : option T) := negb (eng x).
Definition on_ne (x : option T) := eng x.
Definition on_lt (x : option T) := false.
Definition on_le (x : option T) := negb (eng x).
Definition on_gt (x : option T) := eng x.
Definition on_ge (x : option T) := true.
Definition no_eq (x : option T) := negb (eng x).
Definition no_ne (x : option T) := eng x.
Definition no_lt (x : option T) := eng x.
Definition no_le (x : option T) := true.
Definition no_gt (x : option T) := false.
Definition no_ge (x : option T) := negb (eng x).

(** optional and value, 1320-1402 *)
Definition ov_eq (x : option T) (v : T) := match x with Some a => eqT r a v | None => false end.
Definition ov_ne (x : option T) (v : T) := match x with Some a => neT r a v | None => true end.
Definition ov_lt (x : option T) (v : T) := match x with Some a => ltT r a v | None => true end.
Definition ov_gt (x : option T) (v : T) := match x with Some a => gtT r a v | None => false end.
Definition ov_ge (x : option T) (v : T) := match x with Some a => geT r a v | None => false end.
Definition ov_le (x : option T) (v : T) := match x with Some a => leT r a v | None => true end.
Definition vo_eq (v : T) (x : option T) := match x with Some a => eqT r v a | None => false end.
Definition vo_ne (v : T) (x : option T) := match x with Some a => neT r v a | None => true end.
Definition vo_gt (v : T) (x : option T) := match x with Some a => gtT r v a | None => true end.
Definition vo_lt (v : T) (x : option T) := match x with Some a => ltT r v a | None => false end.
Definition vo_le (v : T) (x : option T) := match x with Some a => leT r v a | None => false end.
Definition vo_ge (v : T) (x : option T) := match x with Some a => geT r v a | None => true end.
End Ops.

(** double: integers and NaN; all comparisons with NaN are false but !=. *)
Inductive dbl := Num (z : Z) | NaN.
Definition dcmp (f : Z -> Z -> bool) (u : bool) (x y : dbl) : bool := match x, y with Num a, Num b => f a b | _, _ => u end.
Definition drel : rel dbl :=
  Rel (dcmp Z.eqb false) (dcmp (fun a b => negb (Z.eqb a b)) true) (dcmp Z.ltb false)
      (dcmp (fun a b => Z.ltb b a) false) (dcmp Z.leb false) (dcmp (fun a b => Z.leb b a) false).
