(** * Executable models of opt::optional<T&> and opt::optional<void>

    /repo/optional.hpp, optional<T&> 1038-1129 and optional<void> 1131-1203. *)
From Coq Require Export ZArith.
From stdpp Require Export base list.

(** ** optional<T&>

    The objects referred to belong to the client: a memory of integers.  A location is
    never freed here; an optional<T&> does not keep its object alive and a client that uses
    it afterwards is outside the model. *)
Notation loc := nat (only parsing).
(** The member T* ref, 1047; a destroyed variable is [None] in the list. *)
Record rw := RW { r_mem : list Z; r_opt : list (option (option loc)) }.
Inductive rop :=
| RNew                             (* optional(), optional(nullopt): 1057-1058 *)
| RBind (a : loc)                  (* optional(T&), optional(in_place, T&): 1059, 1061 *)
| RCopy (j : nat)                  (* optional(const optional&): 1060 *)
| RDelete (i : nat)                (* 1066 *)
| RNone (i : nat)                  (* operator=(nullopt), reset(): 1068-1071, 1128 *)
| RAssign (i j : nat)              (* operator=(U&&) with U an optional<T&>: 1073-1079 *)
| REmplace (i : nat) (a : loc)     (* emplace(T&): 1086-1089 *)
| RSwap (i j : nat)                (* 1094-1097 *)
| RHas (i : nat)                   (* operator bool, has_value: 1113-1120 *)
| RGet (i : nat)                   (* operator*, operator->: 1099-1107; read through it *)
| RSet (i : nat) (z : Z)           (* *opt = z *)
| RValue (i : nat)                 (* value(): 1109-1111 *)
| RValueOr (i : nat) (z : Z)       (* value_or: 1122-1126 *)
| RPeek (a : loc)                  (* the client reads its object directly *)
| RPoke (a : loc) (z : Z).         (* the client writes its object directly *)
Inductive rans := RUnit | RZ (z : Z) | RB (b : bool) | RVar (i : nat) | RAccess.
(** [None]: undefined behaviour. *)
Definition rvar (w : rw) (i : nat) (k : option loc -> option (rans * rw)) : option (rans * rw) :=
  match r_opt w !! i with Some (Some r) => k r | _ => None end.
Definition rput (w : rw) (i : nat) (x : option (option loc)) : rw := RW (r_mem w) (<[i := x]> (r_opt w)).
Definition rpush (w : rw) (r : option loc) : option (rans * rw) :=
  Some (RVar (length (r_opt w)), RW (r_mem w) (r_opt w ++ [Some r])).
Definition rload (w : rw) (a : loc) : option (rans * rw) := match r_mem w !! a with Some z => Some (RZ z, w) | None => None end.
Definition rstore (w : rw) (a : loc) (z : Z) : option (rans * rw) :=
  match r_mem w !! a with Some _ => Some (RUnit, RW (<[a := z]> (r_mem w)) (r_opt w)) | None => None end.
(** A reference to an object that exists. *)
Definition rloc (w : rw) (a : loc) (k : option (rans * rw)) : option (rans * rw) := match r_mem w !! a with Some _ => k | None => None end.
Definition rexec (o : rop) (w : rw) : option (rans * rw) :=
  match o with
  | RNew => rpush w None
  | RBind a => rloc w a (rpush w (Some a))
  | RCopy j => rvar w j (fun r => rpush w r)
  | RDelete i => rvar w i (fun _ => Some (RUnit, rput w i None))
  | RNone i => rvar w i (fun _ => Some (RUnit, rput w i (Some None)))
  | RAssign i j => rvar w j (fun r => rvar w i (fun _ => Some (RUnit, rput w i (Some r))))
  | REmplace i a => rvar w i (fun _ => rloc w a (Some (RUnit, rput w i (Some (Some a)))))
  | RSwap i j => rvar w i (fun a => rvar w j (fun b => Some (RUnit, rput (rput w i (Some b)) j (Some a))))
  | RHas i => rvar w i (fun r => Some (RB (match r with Some _ => true | None => false end), w))
  (* assert(ref) *)
  | RGet i => rvar w i (fun r => match r with Some a => rload w a | None => None end)
  | RSet i z => rvar w i (fun r => match r with Some a => rstore w a z | None => None end)
  | RValue i => rvar w i (fun r => match r with Some a => rload w a | None => Some (RAccess, w) end)
  | RValueOr i z => rvar w i (fun r => match r with Some a => rload w a | None => Some (RZ z, w) end)
  | RPeek a => rload w a
  | RPoke a z => rstore w a z
  end.
Fixpoint rrun (w : rw) (os : list rop) : option (list rans * rw) :=
  match os with
  | [] => Some ([], w)
  | o :: os => match rexec o w with
               | Some (r, w') => match rrun w' os with Some (rs, w'') => Some (r :: rs, w'') | None => None end
               | None => None
               end
  end.
(** A client that has the objects [mem] and no optional yet. *)
Definition rw0 (mem : list Z) : rw := RW mem [].

(** ** optional<void>

    It has no members at all: a variable either exists or was destroyed. *)
Inductive uop :=
| UNew | UCopy (j : nat) | UDelete (i : nat)   (* 1145-1149 *)
| UAssign (i : nat)                            (* from nullopt or from anything: 1151-1159 *)
| UEmplace (i : nat)                           (* 1161-1167 *)
| USwap (i j : nat)                            (* 1169-1170 *)
| UReset (i : nat)                             (* 1202 *)
| UHas (i : nat)                               (* 1186-1193 *)
| UValue (i : nat)                             (* 1182-1184 *)
| UValueOr (i : nat) (z : Z)                   (* 1195-1200 *)
| UDeref (i : nat).                            (* 1172-1180: assert(false) *)
Definition uvar (w : list bool) (i : nat) (k : rans * list bool) : option (rans * list bool) :=
  match w !! i with Some true => Some k | _ => None end.
Definition uexec (o : uop) (w : list bool) : option (rans * list bool) :=
  match o with
  | UNew => Some (RVar (length w), w ++ [true])
  | UCopy j => uvar w j (RVar (length w), w ++ [true])
  | UDelete i => uvar w i (RUnit, <[i := false]> w)
  | UAssign i | UEmplace i | UReset i => uvar w i (RUnit, w)
  | USwap i j => match uvar w i (RUnit, w) with Some _ => uvar w j (RUnit, w) | None => None end
  | UHas i => uvar w i (RB false, w)
  | UValue i => uvar w i (RAccess, w)
  | UValueOr i z => uvar w i (RZ z, w)
  | UDeref i => None
  end.
Fixpoint urun (w : list bool) (os : list uop) : option (list rans * list bool) :=
  match os with
  | [] => Some ([], w)
  | o :: os => match uexec o w with
               | Some (r, w') => match urun w' os with Some (rs, w'') => Some (r :: rs, w'') | None => None end
               | None => None
               end
  end.
