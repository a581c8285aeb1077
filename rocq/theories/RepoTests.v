(** * The tests and examples that come with the library, as client programs

    /repo/tests/*.cpp and /repo/examples/*/*.cpp.  A program returns [OutBool true] exactly if all
    its expectations hold.  Not transcribed: what is decided at compile time (std::bind, reference
    wrappers, virtual functions; see TyModel.v), cow_tests.cpp (see CowModel.v) and the tests with
    threads (see AloneTest.v for one of them).  Floats are given in thousandths. *)
From Verif Require Export Machine Witness Combiners.
From Verif Require OptRel.

(** EXPECT_EQ on what an operation returns; an operation whose result is not looked at. *)
Definition expect (o : op) (r : out) (k : prog) : prog :=
  Do o (fun x => if decide (x = r) then k else Ret (OutBool false)).
Definition just (o : op) (k : prog) : prog := Do o (fun _ => k).
Definition pass : prog := Ret (OutBool true).
Notation "'do' o ; k" := (just o k) (at level 70, k at level 70, right associativity).
Notation "o 'gives' r ; k" := (expect o r k) (at level 70, r at next level, k at level 70, right associativity).

(** Callables: a function pointer or a functor passed as an rvalue, one passed as an lvalue, a
    member function with a raw pointer and with a shared_ptr to object [o].  The decayed types:
    0 is comparable by value, 1 has no operator==, 2 is a lambda without captures, which
    compares as the function it converts to. *)
Definition ptr_to (v : nat) : callable := Callable KFunc (FType 0 CatR) v (FType 0 CatR) 0.
Definition lval (ty v : nat) : callable := Callable KFunc (FType ty CatL) v (FType 0 CatR) 0.
Definition rval (ty v : nat) : callable := Callable KFunc (FType ty CatR) v (FType 0 CatR) 0.
Definition mem_on (v o : nat) : callable := Callable KPmf (FType 0 CatR) v (FType 0 CatR) o.
Definition mem_shared (v o : nat) : callable := Callable KTracked (FType 0 CatR) v (FType 3 CatL) o.

(** The functions of tests_common.cpp, of the tests and of the examples. *)
Inductive fname :=
| void_func | void_func2 | increment_counter | func_adapter | DoSomething | void_lambda
| sum | Functor35 | lambda | Base_sum | pmd_value | WithConstant_add
| make_int2 | make_int72 | make_int62 | make_int42 | make_int63 | inc7 | inc10 | negate | twice
| product | quotient | difference | Ffunc (n : nat).
Definition num (f : fname) : nat :=
  match f with
  | void_func => 1 | void_func2 => 2 | increment_counter => 3 | func_adapter => 4 | DoSomething => 5 | void_lambda => 6
  | sum => 7 | Functor35 => 8 | lambda => 9 | Base_sum => 10 | pmd_value => 11 | WithConstant_add => 12
  | make_int2 => 13 | make_int72 => 14 | make_int62 => 15 | make_int42 => 16 | make_int63 => 17 | inc7 => 18 | inc10 => 19
  | negate => 20 | twice => 21 | product => 22 | quotient => 23 | difference => 24 | Ffunc n => 25 + n
  end.
Definition plus_one (a : nat) : prog :=
  Do (OVar (VRead a)) (fun o => match o with OutZ z => Do (OVar (VWrite a (z + 1))) (fun _ => Ret OutUnit) | o => Ret o end).
Definition counting_up (r : slotref) (n : Z) : prog :=
  Do (OSelfGet r) (fun o => match o with OutZ z => Do (OSelfSet r (z + 1)) (fun _ => Ret (OutZ (n + z))) | o => Ret o end).
Definition bodies (r : slotref) (c : callable) (args : list arg) : prog :=
  match c_fv c, args with
  | 3, [ARef a] | 4, [ARef a] => plus_one a
  | 7, [AVal x; AVal y] | 9, [AVal x; AVal y] => Ret (OutZ (x + y))
  | 8, _ => Ret (OutZ 8)
  | 10, _ => Ret (OutZ 9)
  | 11, _ => Ret (OutZ 5)
  | 12, [AVal x] => Ret (OutZ (x + 7))
  | 13, _ => Ret (OutZ 2)
  | 14, _ => Ret (OutZ 72)
  | 15, _ => Ret (OutZ 62)
  | 16, _ => Ret (OutZ 42)
  | 17, _ => Ret (OutZ 63)
  | 18, _ => counting_up r 7
  | 19, _ => counting_up r 10
  | 20, [AVal x] => Ret (OutZ (- x))
  | 21, [AVal x] => Ret (OutZ (2 * x))
  | 22, [AVal x; AVal y] => Ret (OutZ (x * y / 1000))
  | 23, [AVal x; AVal y] => Ret (OutZ ((1000 * x + y / 2) / y))
  | 24, [AVal x; AVal y] => Ret (OutZ (x - y))
  | _, _ => Ret OutUnit
  end.
(** The comparisons of int and float. *)
Definition int_rel : OptRel.rel Z := OptRel.Rel Z.eqb (fun a b => negb (Z.eqb a b)) Z.ltb (fun a b => Z.ltb b a) Z.leb (fun a b => Z.leb b a).
Definition test_env (void : bool) : env :=
  Env void (fun ty => negb (Nat.eqb ty 1)) (fun _ a b => Ret (OutBool (Nat.eqb a b))) bodies
    (fun _ _ => false) (fun z => z) (fun _ => None)
    (fun k n => match k with
                | 0 => max_or_default int_rel 0 n
                | 1 => maximum_value int_rel n
                | _ => aggregate_values n
                end).

Definition fptr (f : fname) : csrc := SrcFn (ptr_to (num f)).
Definition connect (s : nat) (f : fname) : op := OConnect s (fptr f) false.
Definition connect_scoped (s : nat) (f : fname) : op := OConnect s (fptr f) true.
Definition disconnect (s : nat) (f : fname) : op := OErase s (fptr f).
Definition call (s : nat) : op := OEmit s [].
Definition nothing := OutOpt None.
Definition some (z : Z) := OutOpt (Some z).
Definition yes := OutBool true.
Definition no := OutBool false.

(** ** signal_tests.cpp *)
(** Lines 12-46. *)
Definition t_VoidFunc :=
  do ONewSignal None; do connect 0 void_func; do connect 0 void_func2; do connect 0 void_func2;
  call 0 gives nothing;
  disconnect 0 void_func gives OutNat 1;
  disconnect 0 void_func2 gives OutNat 2;
  call 0 gives nothing;
  pass.
(** Lines 48-75. *)
Definition t_VoidConnection :=
  do ONewSignal None; do connect 0 void_func; do connect 0 void_func2;
  call 0 gives nothing;
  OVar (VDisc 0) gives yes; OVar (VDisc 1) gives yes;
  OVar (VDisc 0) gives no; OVar (VDisc 1) gives no;
  call 0 gives nothing;
  pass.
(** Lines 77-96; the variables of the block are destroyed in reverse order. *)
Definition t_VoidScopedConnection :=
  do ONewSignal None; do connect_scoped 0 void_func; do connect_scoped 0 void_func2;
  call 0 gives nothing;
  do OVar (VDestroyConn 1); do OVar (VDestroyConn 0);
  call 0 gives nothing;
  pass.
(** Lines 98-123: location 0 is counter. *)
Definition t_TestCounter :=
  do ONewSignal None; do connect 0 increment_counter; do connect 0 increment_counter; do connect 0 increment_counter;
  do OVar (VNewLoc 0);
  do OEmit 0 [ARef 0];
  OVar (VRead 0) gives OutZ 3;
  disconnect 0 increment_counter gives OutNat 3;
  do OEmit 0 [ARef 0];
  OVar (VRead 0) gives OutZ 3;
  pass.
(** Lines 125-158. *)
Definition t_TestConnectionBlocking :=
  do ONewSignal None; do connect 0 increment_counter; do connect 0 increment_counter; do connect 0 increment_counter;
  do OVar (VNewLoc 0);
  do OEmit 0 [ARef 0];
  OVar (VRead 0) gives OutZ 3;
  do OVar (VBlock 0); do OVar (VBlock 1);
  do OEmit 0 [ARef 0];
  OVar (VRead 0) gives OutZ 4;
  do OVar (VUnblock 0); do OVar (VUnblock 1);
  do OEmit 0 [ARef 0];
  OVar (VRead 0) gives OutZ 7;
  pass.
(** Lines 160-186: func_adapter is an lvalue both times. *)
Definition t_DefaultArguments :=
  do ONewSignal None; do OConnect 0 (SrcFn (lval 2 (num func_adapter))) false;
  do OVar (VNewLoc 0);
  do OEmit 0 [ARef 0];
  OVar (VRead 0) gives OutZ 1;
  OErase 0 (SrcFn (lval 2 (num func_adapter))) gives OutNat 1;
  do OEmit 0 [ARef 0];
  OVar (VRead 0) gives OutZ 1;
  pass.
(** Lines 188-201. *)
Definition t_PointerToMemberFunction :=
  do ONewSignal None; do OConnect 0 (SrcFn (mem_on (num DoSomething) 0)) false;
  call 0 gives nothing;
  pass.
(** Lines 203-223. *)
Definition t_PointerToMemberFunctionTracked :=
  do ONewSignal None; do OVar VNewObj; do OConnect 0 (SrcFn (mem_shared (num DoSomething) 0)) false;
  do call 0;
  do OVar (VResetObj 0);
  do call 0;
  pass.
(** Lines 416-480: the make_int objects are lvalues; signals 0, 1 and 2; connections 0 to 3 are
    c2, c72, c62, c42, and 4 is c63. *)
Definition mk (f : fname) : csrc := SrcFn (lval 0 (num f)).
Definition incr (n : nat) (f : fname) : csrc := SrcFn (lval (10 + n) (num f)).
Definition t_ZeroArgs :=
  do ONewSignal (Some 0);
  do OConnect 0 (mk make_int2) false; do OConnect 0 (mk make_int72) false;
  do OConnect 0 (mk make_int62) false; do OConnect 0 (mk make_int42) false;
  call 0 gives OutZ 72;
  OErase 0 (mk make_int72) gives OutNat 1;
  call 0 gives OutZ 62;
  OVar (VDisc 1) gives no;
  call 0 gives OutZ 62;
  do OConnect 0 (mk make_int63) false;
  call 0 gives OutZ 63;
  do OErase 0 (mk make_int63); do OErase 0 (mk make_int62);
  call 0 gives OutZ 42;
  do OVar (VDisc 3);
  call 0 gives OutZ 2;
  do OVar (VDisc 0);
  call 0 gives OutZ 0;
  do ODestroySignal 0;
  do ONewSignal (Some 0);
  do OConnect 1 (mk make_int2) false; do OConnect 1 (mk make_int72) false;
  do OConnect 1 (mk make_int62) false; do OConnect 1 (mk make_int42) false;
  call 1 gives OutZ 72;
  do ODestroySignal 1;
  do ONewSignal (Some 0);
  do OConnect 2 (incr 7 inc7) false; do OConnect 2 (incr 10 inc10) false;
  call 2 gives OutZ 10; call 2 gives OutZ 11;
  do ODestroySignal 2;
  pass.
(** Lines 482-493. *)
Definition t_OneArg :=
  do ONewSignal (Some 0);
  do OConnect 0 (SrcFn (rval 4 (num negate))) false; do OConnect 0 (SrcFn (rval 1 (num twice))) false;
  OEmit 0 [AVal 1] gives OutZ 2;
  OEmit 0 [AVal (-1)] gives OutZ 1;
  pass.
(** Lines 495-517. *)
Definition t_ConnectSlot :=
  do ONewSignal None; do OVar (VSlotNew (ptr_to (num void_func)));
  do OConnect 0 (SrcSlot 0) false;
  do call 0;
  OErase 0 (SrcSlot 0) gives OutNat 1;
  do call 0;
  pass.

(** ** slot_tests.cpp *)
Definition new_slot (c : callable) : op := OVar (VSlotNew c).
(** Lines 8-26. *)
Definition t_slot_VoidFunc :=
  do new_slot (ptr_to (num void_func)); do new_slot (ptr_to (num void_func)); do new_slot (ptr_to (num void_func2));
  do OSlotCall 0 []; do OSlotCall 1 []; do OSlotCall 2 [];
  OSlotEq 0 1 gives yes; OSlotEq 0 2 gives no; OSlotEq 1 2 gives no;
  pass.
(** Lines 28-40. *)
Definition t_slot_VoidMemberFunc :=
  do new_slot (mem_on (num DoSomething) 0);
  OSlotCall 0 [] gives nothing;
  pass.
(** Lines 42-62. *)
Definition t_slot_VoidMemberFuncTracked :=
  do OVar VNewObj; do new_slot (mem_shared (num DoSomething) 0);
  OSlotCall 0 [] gives nothing;
  do OVar (VResetObj 0);
  OSlotCall 0 [] gives nothing;
  pass.
(** Lines 64-77. *)
Definition t_slot_IntFunc :=
  do new_slot (ptr_to (num sum)); do new_slot (ptr_to (num sum));
  OSlotCall 0 [AVal 3; AVal 5] gives some 8;
  OSlotEq 0 1 gives yes;
  pass.
(** Lines 79-91. *)
Definition t_slot_Functor :=
  do new_slot (rval 1 (num Functor35)); do new_slot (rval 1 (num Functor35));
  OSlotCall 0 [] gives some 8;
  OSlotEq 0 1 gives OutExn NotComparable;
  pass.
(** Lines 93-105. *)
Definition t_slot_Lambda :=
  do new_slot (lval 2 (num lambda)); do new_slot (lval 2 (num lambda));
  OSlotCall 0 [AVal 3; AVal 5] gives some 8;
  OSlotEq 0 1 gives yes;
  pass.
(** Lines 107-119. *)
Definition t_slot_VoidLambda :=
  do new_slot (lval 2 (num void_lambda)); do new_slot (lval 2 (num void_lambda));
  OSlotCall 0 [] gives nothing;
  OSlotEq 0 1 gives yes;
  pass.
(** Lines 147-157. *)
Definition t_slot_VirtualFunc :=
  do new_slot (mem_on (num Base_sum) 0); do new_slot (mem_on (num Base_sum) 1);
  OSlotCall 0 [] gives some 9; OSlotCall 1 [] gives some 9;
  pass.
(** Lines 159-166. *)
Definition t_slot_PointerToMemberData :=
  do new_slot (mem_on (num pmd_value) 0);
  OSlotCall 0 [] gives some 5;
  pass.
(** Lines 192-205. *)
Definition t_slot_SharedPtr :=
  do OVar VNewObj; do new_slot (mem_shared (num Base_sum) 0);
  OSlotCall 0 [] gives some 9;
  do OVar (VResetObj 0);
  OSlotCall 0 [] gives nothing;
  pass.
(** Lines 207-230: variables 2 and 3 are the temporaries that are assigned. *)
Definition t_slot_NullSlot :=
  do OVar VSlotEmpty; do OVar VSlotEmpty;
  OVar (VSlotBool 0) gives no; OVar (VSlotBool 1) gives no;
  OSlotEq 0 1 gives yes;
  do new_slot (ptr_to (num void_func)); do OVar (VSlotAssignMove 0 2); do OVar (VSlotDestroy 2);
  do new_slot (ptr_to (num void_func)); do OVar (VSlotAssignMove 1 3); do OVar (VSlotDestroy 3);
  OVar (VSlotBool 0) gives yes; OVar (VSlotBool 1) gives yes;
  OSlotEq 0 1 gives yes;
  pass.
(** Lines 267-285. *)
Definition t_slot_DeadSlot :=
  do ONewSignal None; do OVar VNewObj; do new_slot (mem_shared (num WithConstant_add) 0);
  do OVar (VResetObj 0);
  do OConnect 0 (SrcSlot 0) false;
  OVar (VConnected 0) gives no;
  pass.

(** ** connection_tests.cpp *)
(** Lines 6-25: both swap functions exchange the weak_ptrs (signals.hpp, 1537-1540, 1555-1558). *)
Definition t_Swap :=
  do ONewSignal None; do connect 0 void_func; do OVar (VNewConn false);
  OVar (VConnected 0) gives yes; OVar (VConnected 1) gives no;
  do OVar (VSwap 0 1);
  OVar (VConnected 0) gives no; OVar (VConnected 1) gives yes;
  do OVar (VSwap 0 1);
  OVar (VConnected 0) gives yes; OVar (VConnected 1) gives no;
  pass.
(** Lines 27-56: 0 is c1, 1 the first [scoped], 2 what release() returns, 3 c2, 4 the second
    [scoped], 5 what release() returns, 6 what connect returns. *)
Definition t_Release :=
  do ONewSignal None; do OVar (VNewConn false);
  do connect_scoped 0 void_func; OVar (VConnected 1) gives yes;
  do OVar (VRelease 1); do OVar (VAssignMove 0 2); do OVar (VDestroyConn 2); do OVar (VDestroyConn 1);
  OVar (VConnected 0) gives yes;
  do OVar (VNewConn false); do OVar (VCopyConn 0 true);
  OVar (VConnected 4) gives yes;
  do OVar (VRelease 4); do OVar (VAssignMove 0 5); do OVar (VDestroyConn 5);
  OVar (VConnected 0) gives yes; OVar (VConnected 4) gives no;
  OVar (VDisc 0) gives yes;
  do connect 0 void_func; do OVar (VAssignMove 3 6); do OVar (VDestroyConn 6);
  do OVar (VAssignCopy 4 3); do OVar (VDestroyConn 4);
  OVar (VConnected 3) gives no;
  pass.
(** Lines 58-102: 0 is c1, 1 what connect returns, 2 [scoped], then 3 and 4 are scoped1 and
    scoped2, 5 what connect returns, 6 and 7 again scoped1 and scoped2. *)
Definition t_Move :=
  do ONewSignal None; do OVar (VNewConn false);
  do connect 0 void_func; do OVar (VMoveConn 1 true); do OVar (VDestroyConn 1);
  OVar (VConnected 2) gives yes;
  do OVar (VAssignMove 0 2);
  OVar (VConnected 2) gives no;
  do OVar (VDestroyConn 2);
  OVar (VConnected 0) gives yes;
  do OVar (VCopyConn 0 true); OVar (VConnected 3) gives yes;
  do OVar (VMoveConn 3 true);
  OVar (VConnected 3) gives no; OVar (VConnected 4) gives yes; OVar (VConnected 0) gives yes;
  do OVar (VDestroyConn 4); do OVar (VDestroyConn 3);
  OVar (VConnected 0) gives no;
  do connect 0 void_func; do OVar (VAssignMove 0 5); do OVar (VDestroyConn 5);
  do OVar (VNewConn true); do OVar (VCopyConn 0 true); OVar (VConnected 7) gives yes;
  do OVar (VAssignMove 6 7);
  OVar (VConnected 7) gives no; OVar (VConnected 6) gives yes; OVar (VConnected 0) gives yes;
  do OVar (VDestroyConn 7); do OVar (VDestroyConn 6);
  OVar (VConnected 0) gives no;
  pass.

(** All of them: R is void or not, the program. *)
Definition void_tests : list prog :=
  [t_VoidFunc; t_VoidConnection; t_VoidScopedConnection; t_TestCounter; t_TestConnectionBlocking; t_DefaultArguments;
   t_PointerToMemberFunction; t_PointerToMemberFunctionTracked; t_ConnectSlot;
   t_slot_VoidFunc; t_slot_VoidMemberFunc; t_slot_VoidMemberFuncTracked; t_slot_VoidLambda; t_slot_NullSlot;
   t_Swap; t_Release; t_Move].
Definition int_tests : list prog :=
  [t_ZeroArgs; t_OneArg; t_slot_IntFunc; t_slot_Functor; t_slot_Lambda; t_slot_VirtualFunc; t_slot_PointerToMemberData;
   t_slot_SharedPtr; t_slot_DeadSlot].

(** ** The examples *)
(** 5.0f, 3.0f *)
Definition five_three : list arg := [AVal 5000; AVal 3000].
(** hello_world.cpp: function 0 prints the text. *)
Definition x_hello_world := do ONewSignal None; do connect 0 (Ffunc 0); do call 0; pass.
(** multiple_slots.cpp: 1 prints "Hello", 2 prints ", World!". *)
Definition x_multiple_slots := do ONewSignal None; do connect 0 (Ffunc 1); do connect 0 (Ffunc 2); do call 0; pass.
(** slot_arguments.cpp: 3 to 7. *)
Definition x_slot_arguments :=
  do ONewSignal None; do connect 0 (Ffunc 3); do connect 0 (Ffunc 4); do connect 0 (Ffunc 5); do connect 0 (Ffunc 6); do connect 0 (Ffunc 7);
  do OEmit 0 five_three; pass.
(** return_values.cpp, maximum_value.cpp, aggregate_values.cpp *)
Definition four_functions (comb : option nat) (k : prog) : prog :=
  do ONewSignal comb; do connect 0 product; do connect 0 quotient; do connect 0 sum; do connect 0 difference; k.
Definition x_return_values := four_functions None (OEmit 0 five_three gives some 2000; pass).
Definition x_maximum_value := four_functions (Some 1) (OEmit 0 five_three gives some 15000; pass).
Definition x_aggregate_values := four_functions (Some 2) (OEmit 0 five_three gives OutList [15000; 1667; 8000; 2000]; pass)%Z.
(** member_functions.cpp *)
Definition x_member_functions :=
  do ONewSignal None;
  do OConnect 0 (SrcFn (mem_on (num product) 0)) false; do OConnect 0 (SrcFn (mem_on (num sum) 0)) false;
  do OConnect 0 (SrcFn (mem_on (num quotient) 0)) false; do OConnect 0 (SrcFn (mem_on (num difference) 0)) false;
  OEmit 0 five_three gives some 2000; pass.
(** connection_management.cpp *)
Definition x_connection_management :=
  do ONewSignal None; do OVar VNewObj;
  do OConnect 0 (SrcFn (mem_shared (num product) 0)) false; do OConnect 0 (SrcFn (mem_shared (num sum) 0)) false;
  do OConnect 0 (SrcFn (mem_shared (num quotient) 0)) false; do OConnect 0 (SrcFn (mem_shared (num difference) 0)) false;
  OEmit 0 five_three gives some 2000;
  do OVar (VResetObj 0);
  OEmit 0 five_three gives nothing; pass.
(** connections.cpp, blocked_slots.cpp, scoped_connection.cpp: HelloWorld() is a functor without operator==. *)
Definition HelloWorld : csrc := SrcFn (rval 1 (num (Ffunc 0))).
Definition x_connections := do ONewSignal None; do OConnect 0 HelloWorld false; do call 0; do OVar (VDisc 0); do call 0; pass.
Definition x_blocked_slots :=
  do ONewSignal None; do OConnect 0 HelloWorld false; do call 0;
  do OVar (VBlocker 0); do call 0; do OVar (VBDestroy 0);
  do call 0; pass.
Definition x_scoped_connection :=
  do ONewSignal None; do OConnect 0 HelloWorld true; do call 0; do OVar (VDestroyConn 0); do call 0; pass.
(** disconnect_slots.cpp *)
Definition x_disconnect_slots :=
  four_functions None (
  OEmit 0 five_three gives some 2000;
  do disconnect 0 difference;
  OEmit 0 five_three gives some 8000;
  do disconnect 0 product;
  OEmit 0 five_three gives some 1667;
  do disconnect 0 quotient;
  OEmit 0 five_three gives some 8000;
  do disconnect 0 sum;
  OEmit 0 five_three gives nothing; pass).
(** signal_aliases.cpp: HelloWorld(0) in the slot variable is function 0, HelloWorld(1) function 1;
    connection 1 is c, 2 is sc; at the end the variables are destroyed in reverse order. *)
Definition x_signal_aliases :=
  do ONewSignal None; do new_slot (rval 0 (num (Ffunc 0))); do OConnect 0 (SrcSlot 0) false;
  do OConnect 0 (SrcFn (rval 0 (num (Ffunc 1)))) false; do OVar (VCopyConn 1 true); do OVar (VBlocker 1);
  do call 0;
  do OVar (VUnblock 1);
  do OErase 0 (SrcSlot 0);
  do call 0;
  do OVar (VBDestroy 0); do OVar (VDestroyConn 2); do OVar (VDestroyConn 1); do OVar (VSlotDestroy 0); do ODestroySignal 0;
  pass.
(** delegates.cpp: signals 0, 1, 2 are Update, Render, MouseMoved; functions 0, 1, 2 the handlers. *)
Definition WndProc (k : prog) : prog := do OEmit 0 [ARef 0]; do OEmit 1 [ARef 1]; do OEmit 2 [ARef 2]; k.
Definition x_delegates :=
  do ONewSignal None; do ONewSignal None; do ONewSignal None;
  do connect 0 (Ffunc 0); do connect 1 (Ffunc 1); do connect 2 (Ffunc 2);
  WndProc (disconnect 0 (Ffunc 0) gives OutNat 1; disconnect 1 (Ffunc 1) gives OutNat 1; disconnect 2 (Ffunc 2) gives OutNat 1;
  WndProc pass).

(** With the functions that run, in order: what is printed. *)
Definition void_examples : list (prog * list fname) :=
  [(x_hello_world, [Ffunc 0]);
   (x_multiple_slots, [Ffunc 1; Ffunc 2]);
   (x_slot_arguments, [Ffunc 3; Ffunc 4; Ffunc 5; Ffunc 6; Ffunc 7]);
   (x_connections, [Ffunc 0]);
   (x_blocked_slots, [Ffunc 0; Ffunc 0]);
   (x_scoped_connection, [Ffunc 0]);
   (x_signal_aliases, [Ffunc 0; Ffunc 1]);
   (x_delegates, [Ffunc 0; Ffunc 1; Ffunc 2])].
Definition float_examples : list (prog * list fname) :=
  [(x_return_values, [product; quotient; sum; difference]);
   (x_maximum_value, [product; quotient; sum; difference]);
   (x_aggregate_values, [product; quotient; sum; difference]);
   (x_member_functions, [product; sum; quotient; difference]);
   (x_connection_management, [product; sum; quotient; difference]);
   (x_disconnect_slots, [product; quotient; sum; difference; product; quotient; sum; sum; quotient; sum])].

(** ** What it means that a test passes *)
(** No allocation fails. *)
Definition memory_suffices (sc : sched) : Prop := Forall (fun x => snd x = MOk) sc.
(** The main program has returned [o]. *)
Definition returns (w : world) (o : out) : Prop := w_thr w = [[FRet o]].
(** The functions that have been called, in order. *)
Definition printed (w : world) : list nat :=
  omap (fun ev => match ev with ECall _ _ _ c _ _ => Some (c_fv c) | _ => None end) (rev (w_log w)).
(** Program [p] can finish, is never in undefined behaviour, and when it finishes it has returned
    true and [Q] holds. *)
Definition passes (e : env) (p : prog) (Q : world -> Prop) : Prop :=
  (exists sc w o, memory_suffices sc /\ run e (init [p]) sc = inl w /\ returns w o) /\
  forall sc, memory_suffices sc -> exists w, run e (init [p]) sc = inl w /\ forall o, returns w o -> o = OutBool true /\ Q w.
