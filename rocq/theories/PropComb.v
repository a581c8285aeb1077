(** * C57: the combiners of the examples and tests *)
From Verif Require Import CombProof.

(** maximum_value: unless a slot throws, every slot of the list is visited once, in order,
    and the result is one of the values returned, with none greater than it; no value if
    no slot returned one.  Of equal maxima it is the first, if the comparison of the
    element type is a weak order (it is not for floating point numbers with NaN). *)
Theorem C57_maximum_value r e ps w t eid s a xs k o :
  reachable e ps w -> began (w_log w) t eid s a xs (Some k) -> EEmitRet t eid o ∈ w_log w ->
  e_comb e k (length xs) = maximum_value r (length xs) -> transitive_lt (OptRel.ltT r) -> irreflexive_lt (OptRel.ltT r) ->
  walks xs (answers eid (w_log w)) o (fun zs o => exists m, o = OutOpt m /\ is_max (OptRel.ltT r) zs m /\
    (weakly_ordered (OptRel.ltT r) -> is_first_max (OptRel.ltT r) zs m)).
Proof. exact (maximum_result r e ps w t eid s a xs k o). Qed.
Print Assumptions C57_maximum_value.

Example C57_integers : transitive_lt (OptRel.ltT z_rel) /\ irreflexive_lt (OptRel.ltT z_rel) /\ weakly_ordered (OptRel.ltT z_rel).
Proof. exact (conj z_transitive (conj z_irreflexive z_weakly)). Qed.
Example C57_maximum_example : exists w, reachable c1_env [c1_prog 0] w /\
  emits [OutOpt None; OutOpt (Some 5%Z); OutOpt (Some 9%Z); OutExn (UserExn 5)] (w_log w) = true.
Proof. exact ex_C57_max. Qed.

(** max_or_default: the same, with T() if there is no value. *)
Theorem C57_max_or_default r d e ps w t eid s a xs k o :
  reachable e ps w -> began (w_log w) t eid s a xs (Some k) -> EEmitRet t eid o ∈ w_log w ->
  e_comb e k (length xs) = max_or_default r d (length xs) -> transitive_lt (OptRel.ltT r) -> irreflexive_lt (OptRel.ltT r) ->
  walks xs (answers eid (w_log w)) o (fun zs o => exists m, o = OutZ (match m with Some z => z | None => d end) /\ is_max (OptRel.ltT r) zs m).
Proof. exact (max_or_default_result r d e ps w t eid s a xs k o). Qed.
Print Assumptions C57_max_or_default.

Example C57_default_example : exists w, reachable c1_env [c1_prog 1] w /\
  emits [OutZ (-1); OutZ 5; OutZ 9; OutExn (UserExn 5)] (w_log w) = true.
Proof. exact ex_C57_default. Qed.

(** aggregate_values: the values returned, in the order of the list. *)
Theorem C57_aggregate_values e ps w t eid s a xs k o :
  reachable e ps w -> began (w_log w) t eid s a xs (Some k) -> EEmitRet t eid o ∈ w_log w ->
  e_comb e k (length xs) = aggregate_values (length xs) ->
  walks xs (answers eid (w_log w)) o (fun zs o => o = OutList zs).
Proof. exact (aggregate_result e ps w t eid s a xs k o). Qed.
Print Assumptions C57_aggregate_values.

Example C57_aggregate_example : exists w, reachable c1_env [c1_prog 2] w /\
  emits [OutList []; OutList [3%Z; 5%Z]; OutList [3%Z; 9%Z; 5%Z]; OutExn (UserExn 5)] (w_log w) = true.
Proof. exact ex_C57_aggregate. Qed.
