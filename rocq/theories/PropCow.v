(** * Properties of cow_ptr *)
From Verif Require Import CowExamples.
Open Scope Z_scope.

(** C42: as long as no kept reference is written through, a client sees variables that each
    have their own value; an operation that throws changes nothing. *)
Theorem C42_value_semantics os rs c : crun cow0 os = Some (rs, c) -> Forall (fun o => is_poke (snd o) = false) os ->
  vtrace [] (map snd os) rs (shown c).
Proof. exact (value_semantics os rs c). Qed.
Print Assumptions C42_value_semantics.

Theorem C42_exceptions_change_nothing m c o c' : cstep m c o = CExn c' -> c' = c.
Proof. exact (exception_changes_nothing m c o c'). Qed.
Print Assumptions C42_exceptions_change_nothing.

Example C42_example : exists c, crun cow0 (fine [CMake 1; CCopy 0; CWrite 1 5; CRead 0; CRead 1; CDestroy 0; CRead 1]) =
  Some ([RVal (CNew 0); RVal (CNew 1); RVal CUnit; RVal (CVal 1); RVal (CVal 5); RVal CUnit; RVal (CVal 5)], c) /\
  shown c = [None; Some (Some 5)].
Proof. exact ex_cow_values. Qed.

Example C42_example_exception : exists c, crun cow0 [(CFine, CMake 1); (CFine, CCopy 0); (CThrow, CWrite 1 5); (CFine, CRead 1)] =
  Some ([RVal (CNew 0); RVal (CNew 1); RExn; RVal (CVal 1)], c) /\ shown c = [Some (Some 1); Some (Some 1)].
Proof. exact ex_cow_exn. Qed.

(** A reference kept from write() changes one variable only, until something is copied; after
    a copy it changes two. *)
Theorem C42_kept_references m c i a c1 os rs c2 m' z r c3 : creach c -> cstep m c (CRef i) = COk (CAddr (Some a)) c1 ->
  crun c1 os = Some (rs, c2) -> Forall (fun o => copies (snd o) = false) os -> cstep m' c2 (CPoke a z) = COk r c3 ->
  exists j, cw_vars c2 !! j = Some (Some (Some a)) /\ shown c3 = <[j := Some (Some z)]> (shown c2).
Proof. exact (kept_reference m c i a c1 os rs c2 m' z r c3). Qed.
Print Assumptions C42_kept_references.

Example C42_example_reference : exists c1 c2 c3, cow_after [CMake 1; CCopy 0; CRef 0] = Some c1 /\
  crun c1 (fine [CMove 0]) = Some ([RVal (CNew 2)], c2) /\ cstep CFine c2 (CPoke 1 7) = COk CUnit c3 /\
  shown c3 = [Some None; Some (Some 1); Some (Some 7)].
Proof. exact ex_cow_ref. Qed.

Theorem C42_kept_references_after_a_copy_refuted :
  ~ (forall m c i a c1 os rs c2 m' z r c3, creach c -> cstep m c (CRef i) = COk (CAddr (Some a)) c1 ->
       crun c1 os = Some (rs, c2) -> cstep m' c2 (CPoke a z) = COk r c3 ->
       exists j, cw_vars c2 !! j = Some (Some (Some a)) /\ shown c3 = <[j := Some (Some z)]> (shown c2)).
Proof. exact kept_reference_aliases. Qed.
Print Assumptions C42_kept_references_after_a_copy_refuted.

(** Undefined behaviour: exactly the uses of destroyed variables, null pointers and dangling
    references. *)
Theorem C42_undefined_exactly_when m c o : creach c -> cstep m c o = CBad <-> ~ defined (shown c) (alive c) o.
Proof. exact (undefined_exactly m c o). Qed.
Print Assumptions C42_undefined_exactly_when.

(** C43: write() allocates exactly when another variable has the same object, and then has an
    object of its own; nothing else copies; == tells whether two variables have the same object,
    which a copy and its source have until one of them is written, assigned, moved or destroyed. *)
Theorem C43_write_copies_exactly_when_shared m c i z r c' : creach c -> cstep m c (CWrite i z) = COk r c' ->
  ((exists j, j <> i /\ same c i j) -> length (cw_mem c') = S (length (cw_mem c)) /\ forall j, j <> i -> ~ same c' i j) /\
  (~ (exists j, j <> i /\ same c i j) -> length (cw_mem c') = length (cw_mem c) /\ cw_vars c' = cw_vars c).
Proof. exact (write_copies_when_shared m c i z r c'). Qed.
Print Assumptions C43_write_copies_exactly_when_shared.

Theorem C43_nothing_else_copies m c o r c' : cstep m c o = COk r c' ->
  match o with CMake _ | CAssignRaw _ _ | CWrite _ _ | CRef _ | CData _ => True | _ => length (cw_mem c') = length (cw_mem c) end.
Proof. exact (no_other_copies m c o r c'). Qed.
Print Assumptions C43_nothing_else_copies.

Theorem C43_equality_is_identity m c i j r c' : cstep m c (CEq i j) = COk r c' -> (exists p, cw_vars c !! i = Some (Some (Some p))) ->
  r = CIs true <-> same c i j.
Proof. exact (eq_identity m c i j r c'). Qed.
Print Assumptions C43_equality_is_identity.

Theorem C43_a_copy_is_the_same_object m c i r c' : cstep m c (CCopy i) = COk r c' -> (exists p, cw_vars c !! i = Some (Some (Some p))) ->
  same c' i (length (cw_vars c)).
Proof. exact (copy_same m c i r c'). Qed.
Print Assumptions C43_a_copy_is_the_same_object.

Theorem C43_the_same_until_touched os c rs c' i j : crun c os = Some (rs, c') -> same c i j ->
  Forall (fun o => touches i (snd o) = false /\ touches j (snd o) = false) os -> same c' i j.
Proof. exact (same_until_touched os c rs c' i j). Qed.
Print Assumptions C43_the_same_until_touched.

Example C43_example : exists c, crun cow0 (fine [CMake 1; CCopy 0; CEq 0 1; CRead 0; CEq 0 1; CWrite 0 1; CEq 0 1]) =
  Some ([RVal (CNew 0); RVal (CNew 1); RVal (CIs true); RVal (CVal 1); RVal (CIs true); RVal CUnit; RVal (CIs false)], c).
Proof. exact ex_cow_same. Qed.

Example C43_example_alone : exists c c', cow_after [CMake 1] = Some c /\ cstep CThrow c (CWrite 0 2) = COk CUnit c' /\ cw_mem c' = [2].
Proof. exact ex_cow_write_alone. Qed.

(** C56: a defined call succeeds if memory suffices.  It asks for memory exactly to make an
    object and to write to a shared one.  If the memory for the object cannot be had (or T's
    copy constructor throws), the caller gets the exception and nothing has changed; if the
    memory for the control block cannot be had, the exception meets cow_ptr(T* ) noexcept or
    operator=(T* ) noexcept and the program is terminated. *)
Theorem C56_running_out_of_memory c o : creach c -> defined (shown c) (alive c) o ->
  (exists r c', cstep CFine c o = COk r c') /\
  (cstep CNoBlock c o = CAbort <-> needs_memory c o) /\ (cstep CThrow c o = CExn c <-> needs_memory c o) /\
  (~ needs_memory c o -> forall m, cstep m c o = cstep CFine c o).
Proof. exact (out_of_memory c o). Qed.
Print Assumptions C56_running_out_of_memory.

Example C56_example : exists c, cow_after [CMake 1; CCopy 0; CMake 3] = Some c /\
  cstep CNoBlock c (CWrite 0 2) = CAbort /\ cstep CNoBlock c (CWrite 2 2) = cstep CFine c (CWrite 2 2).
Proof. exact ex_cow_memory. Qed.

(** C62: cow_tests.cpp. *)
Theorem C62_the_cow_tests_pass :
  (exists c, crun cow0 (fine [CMake 1; CCopy 0; CEq 0 1; CRead 0; CRead 1; CEq 0 1; CWrite 1 2; CEq 0 1; CRead 0; CRead 1]) =
     Some (map RVal [CNew 0; CNew 1; CIs true; CVal 1; CVal 1; CIs true; CUnit; CIs false; CVal 1; CVal 2], c)) /\
  (exists c, crun cow0 (fine [CMake 4; CCopy 0; CCopy 1; CEq 0 1; CEq 0 2; CRead 0; CRead 1; CEq 0 1; CData 1; CPoke 1 5; CEq 0 1; CEq 0 2]) =
     Some (map RVal [CNew 0; CNew 1; CNew 2; CIs true; CIs true; CVal 4; CVal 4; CIs true; CAddr (Some 1%nat); CUnit; CIs false; CIs true], c)).
Proof. exact cow_tests_pass. Qed.
Print Assumptions C62_the_cow_tests_pass.
