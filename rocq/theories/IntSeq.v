(** * Model of integer_sequence and of the tuple unpacking

    /repo/signals.hpp 1047-1078 (sequences), 1118-1146 and 1150-1209 (do_invoke). *)
From stdpp Require Export base list.

(** A pack of integers is a list; integer_sequence<T, Ints...> is the pack [Ints],
    1052-1060.  The value type is left out. *)
Definition pack := list nat.
(** make_integer_sequence<T, N, Is...>, 1065-1072: derives from
    make_integer_sequence<T, N - 1, N - 1, Is...> until N is 0. *)
Fixpoint make_integer_sequence (N : nat) (Is : pack) : pack :=
  match N with
  | 0 => Is
  | S N => make_integer_sequence N (N :: Is)
  end.
(** make_index_sequence<N>, 1074-1075; index_sequence_for<T...>, 1077-1078;
    integer_sequence::size(), 1056-1059. *)
Definition make_index_sequence (N : nat) : pack := make_integer_sequence N [].
Definition index_sequence_for {A} (ts : list A) : pack := make_index_sequence (length ts).
Definition pack_size (Is : pack) : nat := length Is.
(** std::get<I>(tuple): ill-formed (here [None]) beyond the end. *)
Definition get {A} (I : nat) (tuple : list A) : option A := tuple !! I.
(** do_invoke with index_sequence_for<Args...>: the arguments of the call. *)
Definition unpack {A} (tuple : list A) : option (list A) := mapM (fun I => get I tuple) (index_sequence_for tuple).
