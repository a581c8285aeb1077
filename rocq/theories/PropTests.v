(** The library's own tests and examples (C62). *)
From Verif Require Import TestsProof.

(** C62: the tests of signal_tests.cpp, slot_tests.cpp and connection_tests.cpp (those that do not
    start threads) finish without undefined behaviour and find what they expect, provided that
    memory suffices. *)
Theorem C62_the_tests_pass :
  Forall (fun p => passes (test_env true) p (fun _ => True)) void_tests /\ Forall (fun p => passes (test_env false) p (fun _ => True)) int_tests.
Proof. exact (conj void_tests_pass int_tests_pass). Qed.
Print Assumptions C62_the_tests_pass.

(** The examples find the values that their comments promise and call their functions in the
    order in which README.md shows what is printed. *)
Theorem C62_the_examples_print_what_is_promised :
  Forall (fun x => passes (test_env true) (fst x) (fun w => printed w = map num (snd x))) void_examples /\
  Forall (fun x => passes (test_env false) (fst x) (fun w => printed w = map num (snd x))) float_examples.
Proof. exact (conj void_examples_pass float_examples_pass). Qed.
Print Assumptions C62_the_examples_print_what_is_promised.

Example C62_a_wrong_test_fails : ~ passes (test_env true) t_wrong (fun _ => True).
Proof. exact wrong_fails. Qed.
