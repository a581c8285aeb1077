(** * Properties of integer sequences and tuple unpacking *)
From Verif Require Import IntSeqProof.

(** C51: the k-th element of make_index_sequence<N> is k, there are N of them, and the
    arguments of the call are the elements of the tuple in order. *)
Theorem C51_index_sequence N k : make_index_sequence N !! k = if decide (k < N) then Some k else None.
Proof. exact (index_sequence_at N k). Qed.
Print Assumptions C51_index_sequence.

Theorem C51_index_sequence_size N : pack_size (make_index_sequence N) = N.
Proof. exact (index_sequence_size N). Qed.
Print Assumptions C51_index_sequence_size.

Theorem C51_unpacking_passes_every_argument_once {A} (tuple : list A) : unpack tuple = Some tuple.
Proof. exact (unpack_all tuple). Qed.
Print Assumptions C51_unpacking_passes_every_argument_once.

Example C51_example : make_index_sequence 3 = [0; 1; 2] /\ unpack [7; 8; 7] = Some [7; 8; 7] /\ make_index_sequence 0 = [].
Proof. exact ex_unpack. Qed.
