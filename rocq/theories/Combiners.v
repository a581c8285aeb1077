(** * The combiners that come with the library's examples and tests

    /repo/examples/maximum_value/maximum_value.cpp, lines 4-25;
    /repo/examples/aggregate_values/aggregate_values.cpp, lines 5-24;
    /repo/tests/signal_tests.cpp, lines 351-372 (max_or_default).
    They are clients of slot_iterator (/repo/signals.hpp, 1080-1207). *)
From Verif Require Export Emission.
From Verif Require OptRel.

(** slot_iterator: m_Iter is a position in the copy of the list; m_Args refers to the one
    tuple of the emission and is part of the emission's frame in the machine. *)
Record slot_iter := It { it_pos : nat }.
(** operator++() (1104-1109, 1169-1174) *)
Definition it_next (i : slot_iter) : slot_iter := It (S (it_pos i)).
(** operator++(int) (1112-1117, 1177-1182): the result, and the iterator afterwards. *)
Definition it_post (i : slot_iter) : slot_iter * slot_iter := (i, it_next i).
(** operator!= (1124-1127, 1189-1192) *)
Definition it_ne (i j : slot_iter) : bool := negb (Nat.eqb (it_pos i) (it_pos j)).
(** operator* (1130-1133, 1194-1197), then the rest of the combiner with the value; an
    exception from the slot leaves the combiner. *)
Definition it_deref (i : slot_iter) (k : option Z -> prog) : prog :=
  Do (ODeref (it_pos i)) (fun o => match o with OutOpt y => k y | o => Ret o end).

(** while (first != last) ...: [fuel] bounds the number of rounds; the answer [OutUnit],
    which none of the combiners gives, means that it was too small. *)
Fixpoint while_ne {A} (fuel : nat) (first last : slot_iter) (a : A) (body : slot_iter -> A -> (slot_iter -> A -> prog) -> prog) (fin : A -> prog) : prog :=
  if it_ne first last then
    match fuel with
    | O => Ret OutUnit
    | S fuel => body first a (fun first a => while_ne fuel first last a body fin)
    end
  else fin a.

(** The elements have type T; [r] holds T's comparisons, values of T are named by integers.
    [if (tmp > max) max = tmp;] with operator> of optional. *)
Definition keep_max (r : OptRel.rel Z) (max tmp : option Z) : option Z := if OptRel.oo_gt r tmp max then tmp else max.
Definition max_body (r : OptRel.rel Z) (first : slot_iter) (max : option Z) (k : slot_iter -> option Z -> prog) : prog :=
  it_deref first (fun tmp => k (it_next first) (keep_max r max tmp)).
Definition maximum_value (r : OptRel.rel Z) (n : nat) : prog :=
  while_ne n (It 0) (It n) None (max_body r) (fun max => Ret (OutOpt max)).
(** [d] is T(). *)
Definition max_or_default (r : OptRel.rel Z) (d : Z) (n : nat) : prog :=
  while_ne n (It 0) (It n) None (max_body r) (fun max => Ret (OutZ (match max with Some z => z | None => d end))).

(** [auto value = *first++; if (value) values.push_back( *value);] *)
Definition aggr_body (first : slot_iter) (values : list Z) (k : slot_iter -> list Z -> prog) : prog :=
  let '(old, first) := it_post first in
  it_deref old (fun value => k first (match value with Some z => values ++ [z] | None => values end)).
Definition aggregate_values (n : nat) : prog :=
  while_ne n (It 0) (It n) [] aggr_body (fun values => Ret (OutList values)).
