(** * Concrete runs of cow_ptr clients *)
From Verif Require Export CowProof.
Open Scope Z_scope.

Definition fine (os : list cop) : list (cmem * cop) := map (pair CFine) os.
Definition cow_after (os : list cop) : option cow := snd <$> crun cow0 (fine os).

(** make, copy, write the copy, read both. *)
Lemma ex_cow_values : exists c, crun cow0 (fine [CMake 1; CCopy 0; CWrite 1 5; CRead 0; CRead 1; CDestroy 0; CRead 1]) =
  Some ([RVal (CNew 0); RVal (CNew 1); RVal CUnit; RVal (CVal 1); RVal (CVal 5); RVal CUnit; RVal (CVal 5)], c) /\
  shown c = [None; Some (Some 5)].
Proof. eexists. split; vm_compute; reflexivity. Qed.

Lemma ex_cow_exn : exists c, crun cow0 [(CFine, CMake 1); (CFine, CCopy 0); (CThrow, CWrite 1 5); (CFine, CRead 1)] =
  Some ([RVal (CNew 0); RVal (CNew 1); RExn; RVal (CVal 1)], c) /\ shown c = [Some (Some 1); Some (Some 1)].
Proof. eexists. split; vm_compute; reflexivity. Qed.

(** A reference kept from write(); the variable is moved; then the reference is used. *)
Lemma ex_cow_ref : exists c1 c2 c3, cow_after [CMake 1; CCopy 0; CRef 0] = Some c1 /\
  crun c1 (fine [CMove 0]) = Some ([RVal (CNew 2)], c2) /\ cstep CFine c2 (CPoke 1 7) = COk CUnit c3 /\
  shown c3 = [Some None; Some (Some 1); Some (Some 7)].
Proof. do 3 eexists. repeat split; vm_compute; reflexivity. Qed.

Lemma kept_reference_aliases :
  ~ (forall m c i a c1 os rs c2 m' z r c3, creach c -> cstep m c (CRef i) = COk (CAddr (Some a)) c1 ->
       crun c1 os = Some (rs, c2) -> cstep m' c2 (CPoke a z) = COk r c3 ->
       exists j, cw_vars c2 !! j = Some (Some (Some a)) /\ shown c3 = <[j := Some (Some z)]> (shown c2)).
Proof.
  intros H.
  assert (creach (Cow [1] [Some (Some 0%nat)])) as Hr.
  { exists (fine [CMake 1]). eexists. vm_compute. reflexivity. }
  destruct (H CFine _ 0%nat 0%nat _ (fine [CCopy 0]) _ _ CFine 9 _ _ Hr eq_refl eq_refl eq_refl) as (j & Hj & Hs).
  vm_compute in Hs. destruct j as [|[|j]]; vm_compute in Hs; discriminate Hs.
Qed.

(** A copy is the same object until one of the two is written. *)
Lemma ex_cow_same : exists c, crun cow0 (fine [CMake 1; CCopy 0; CEq 0 1; CRead 0; CEq 0 1; CWrite 0 1; CEq 0 1]) =
  Some ([RVal (CNew 0); RVal (CNew 1); RVal (CIs true); RVal (CVal 1); RVal (CIs true); RVal CUnit; RVal (CIs false)], c).
Proof. eexists. vm_compute. reflexivity. Qed.
Lemma ex_cow_write_alone : exists c c', cow_after [CMake 1] = Some c /\ cstep CThrow c (CWrite 0 2) = COk CUnit c' /\ cw_mem c' = [2].
Proof. do 2 eexists. repeat split; vm_compute; reflexivity. Qed.
Lemma ex_cow_memory : exists c, cow_after [CMake 1; CCopy 0; CMake 3] = Some c /\
  cstep CNoBlock c (CWrite 0 2) = CAbort /\ cstep CNoBlock c (CWrite 2 2) = cstep CFine c (CWrite 2 2).
Proof. eexists. repeat split; vm_compute; reflexivity. Qed.

(** /repo/tests/cow_tests.cpp, lines 15-30 and 32-53: the strings and vectors are named by numbers;
    [vp2->push_back(5)] is operator-> and a write through it. *)
Lemma cow_tests_pass :
  (exists c, crun cow0 (fine [CMake 1; CCopy 0; CEq 0 1; CRead 0; CRead 1; CEq 0 1; CWrite 1 2; CEq 0 1; CRead 0; CRead 1]) =
     Some (map RVal [CNew 0; CNew 1; CIs true; CVal 1; CVal 1; CIs true; CUnit; CIs false; CVal 1; CVal 2], c)) /\
  (exists c, crun cow0 (fine [CMake 4; CCopy 0; CCopy 1; CEq 0 1; CEq 0 2; CRead 0; CRead 1; CEq 0 1; CData 1; CPoke 1 5; CEq 0 1; CEq 0 2]) =
     Some (map RVal [CNew 0; CNew 1; CNew 2; CIs true; CIs true; CVal 4; CVal 4; CIs true; CAddr (Some 1%nat); CUnit; CIs false; CIs true], c)).
Proof. split; eexists; vm_compute; reflexivity. Qed.
