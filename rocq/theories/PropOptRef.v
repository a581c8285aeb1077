(** * Properties of optional<T&> and optional<void> *)
From Verif Require Import OptRefProof.

(** C49: every answer is about the object the variable was last bound to and what was last
    written there.  Only *opt = v and the client's own writes change an object. *)
Theorem C49_answers mem os rs w : rrun (rw0 mem) os = Some (rs, w) ->
  length rs = length os /\ forall n o, os !! n = Some o -> exists r, rs !! n = Some r /\ ref_answer mem (rev (take n os)) o r.
Proof. exact (ref_answers mem os rs w). Qed.
Print Assumptions C49_answers.

Theorem C49_undefined_only_by_misuse mem os :
  is_Some (rrun (rw0 mem) os) <-> forall n o, os !! n = Some o -> ref_legal mem (rev (take n os)) o.
Proof. exact (ref_undefined mem os). Qed.
Print Assumptions C49_undefined_only_by_misuse.

Example C49_example : exists w, rrun (rw0 [10; 20]%Z) [RBind 0; RBind 1; RAssign 0 1; RSet 0 7; RPeek 0; RPeek 1; RGet 1; RNone 1; RHas 1; RValue 1; RGet 0] =
  Some ([RVar 0; RVar 1; RUnit; RUnit; RZ 10; RZ 7; RZ 7; RUnit; RB false; RAccess; RZ 7], w).
Proof. exact ex_ref. Qed.

(** Construction, assignment, emplace, swap and reset never write an object. *)
Theorem C49_rebinding_never_writes mem os rs w : rrun (rw0 mem) os = Some (rs, w) ->
  Forall (fun o => is_store o = false) os -> r_mem w = mem.
Proof. exact (ref_only_stores_write mem os rs w). Qed.
Print Assumptions C49_rebinding_never_writes.

Example C49_rebinding_example : exists w, rrun (rw0 [10; 20]%Z) [RBind 0; RBind 1; RAssign 0 1; RSwap 0 1; REmplace 1 0; RNone 0] =
  Some ([RVar 0; RVar 1; RUnit; RUnit; RUnit; RUnit], w) /\ r_opt w = [Some None; Some (Some 0)] /\ r_mem w = [10; 20]%Z.
Proof. exact ex_ref_no_store. Qed.

(** Two variables one of which was assigned from the other are aliases until one of them is
    bound again. *)
Theorem C49_copies_alias mem os1 i j os2 rs w rs2 w' z :
  rrun (rw0 mem) (os1 ++ RAssign i j :: os2) = Some (rs, w) ->
  Forall (fun o => binds i o = false /\ binds j o = false) os2 ->
  rrun w [RSet i z; RGet j] = Some (rs2, w') -> rs2 = [RUnit; RZ z].
Proof. exact (ref_alias mem os1 i j os2 rs w rs2 w' z). Qed.
Print Assumptions C49_copies_alias.

Example C49_alias_example : exists w w', rrun (rw0 [10; 20]%Z) ([RBind 0; RBind 1] ++ RAssign 0 1 :: [RPoke 1 3]) = Some ([RVar 0; RVar 1; RUnit; RUnit], w) /\
  rrun w [RSet 0 9; RGet 1] = Some ([RUnit; RZ 9], w') /\ r_mem w' = [10; 9]%Z.
Proof. exact ex_ref_alias. Qed.

(** C50, the part about the optional. *)
Theorem C50_never_engaged os rs w n r : urun [] os = Some (rs, w) -> rs !! n = Some r ->
  match os !! n with
  | Some (UHas _) => r = RB false
  | Some (UValue _) => r = RAccess
  | Some (UValueOr _ z) => r = RZ z
  | _ => True
  end.
Proof. exact (void_disengaged os rs w n r). Qed.
Print Assumptions C50_never_engaged.

Theorem C50_undefined_only_by_misuse os : is_Some (urun [] os) <-> forall n o, os !! n = Some o -> void_legal (rev (take n os)) o.
Proof. exact (void_undefined os). Qed.
Print Assumptions C50_undefined_only_by_misuse.

Example C50_example : urun [] [UNew; UAssign 0; UEmplace 0; UHas 0; UValue 0; UValueOr 0 4] = Some ([RVar 0; RUnit; RUnit; RB false; RAccess; RZ 4], [true]).
Proof. exact ex_void. Qed.
