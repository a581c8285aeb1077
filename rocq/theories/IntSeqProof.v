(** * Proofs about integer sequences *)
From Verif Require Export IntSeq.
From stdpp Require Import list_numbers.

Lemma make_seq N Is : make_integer_sequence N Is = seq 0 N ++ Is.
Proof.
  revert Is. induction N as [|N IH]; intros Is; [reflexivity|].
  cbn [make_integer_sequence]. rewrite IH, seq_S, <- app_assoc. reflexivity.
Qed.
Lemma index_sequence N : make_index_sequence N = seq 0 N.
Proof. unfold make_index_sequence. rewrite make_seq. apply app_nil_r. Qed.
Lemma index_sequence_at N k : make_index_sequence N !! k = if decide (k < N) then Some k else None.
Proof.
  rewrite index_sequence. destruct (decide (k < N)) as [H|H].
  - apply lookup_seq. split; [reflexivity|exact H].
  - apply lookup_ge_None_2. rewrite seq_length. lia.
Qed.
Lemma index_sequence_size N : pack_size (make_index_sequence N) = N.
Proof. unfold pack_size. rewrite index_sequence. apply seq_length. Qed.
Lemma unpack_all {A} (tuple : list A) : unpack tuple = Some tuple.
Proof.
  unfold unpack, index_sequence_for. rewrite index_sequence. apply mapM_Some.
  apply Forall2_same_length_lookup_2; [apply seq_length|]. intros k I x HI Hx.
  apply lookup_seq in HI as [-> _]. exact Hx.
Qed.
Lemma ex_unpack : make_index_sequence 3 = [0; 1; 2] /\ unpack [7; 8; 7] = Some [7; 8; 7] /\ make_index_sequence 0 = [].
Proof. repeat split. Qed.
