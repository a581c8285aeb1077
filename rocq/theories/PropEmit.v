(** * Properties: what an emission does *)
From Verif Require Import Examples.

(** C01 once more: an emission that began after a disconnect() of the slot had returned
    does not call the callable. *)
Theorem C01_not_in_a_later_emission e ps w : reachable e ps w ->
  log_all (fun ev pre => match ev with
    | ECall _ (RSlot l) (Some eid) _ _ _ => forall post t s a xs pre', pre = post ++ EEmit t eid s a xs :: pre' ->
        forall t' b, EDisc t' l b ∉ pre'
    | _ => True end) (w_log w).
Proof. exact (not_in_later_emission e ps w). Qed.
Print Assumptions C01_not_in_a_later_emission.

Example C01_later_example : exists w, reachable x2_env [x2_prog; x2_other] w /\
  occurs [EEmit 0 0 0 [] [0]; EDisc 1 0 true; ECall 0 (RSlot 0) (Some 0) (fn 1) [] 4; EEmit 0 1 0 [] []] (rev (w_log w)) = true.
Proof. exact ex_C01. Qed.

(** C07: an emission copies the list the signal has at one instant, and only visits
    positions of that copy. *)
Theorem C07_emission_works_on_a_snapshot e ps w : reachable e ps w ->
  log_all (fun ev pre => match ev with
    | EEmit _ _ s _ xs => xs = spec_list pre s
    | ECall t (RSlot l) (Some eid) _ _ _ | ESkip t (RSlot l) (Some eid) _ =>
        exists post pre' s a xs, pre = post ++ EEmit t eid s a xs :: pre' /\ l ∈ xs
    | EDeref t eid pos l r => exists post pre' s a xs, pre = post ++ EEmit t eid s a xs :: pre' /\ xs !! pos = Some l
    | _ => True end) (w_log w).
Proof. exact (emission_list e ps w). Qed.
Print Assumptions C07_emission_works_on_a_snapshot.

Example C07_example : exists w, reachable x1_env [x1_prog] w /\
  occurs [EEmit 0 0 0 [] [0; 1]; ERem 0 0 1 1; EDeref 0 0 1 1 (OutOpt None); EEmit 0 1 0 [] [0]] (rev (w_log w)) = true.
Proof. exact ex_C07. Qed.

(** C08, and the part of C12 about the result: either every slot of the list was visited
    and the result is the last value a slot gave, or the last slot that was visited threw
    and its exception is the result. *)
Theorem C08_result_is_the_last_value e ps w t eid s a xs o : reachable e ps w -> began (w_log w) t eid s a xs None ->
  EEmitRet t eid o ∈ w_log w ->
  let ans := answers eid (w_log w) in
  (o = OutOpt (last_value ans) /\ map fst ans = zip (seq 0 (length xs)) xs /\ Forall (fun a => exists y, snd a = OutOpt y) ans) \/
  (exists n l x ans0, o = OutExn x /\ ans = ans0 ++ [(n, l, OutExn x)] /\
     map fst ans = zip (seq 0 (S n)) (take (S n) xs) /\ n < length xs /\ Forall (fun a => exists y, snd a = OutOpt y) ans0).
Proof. exact (default_result e ps w t eid s a xs o). Qed.
Print Assumptions C08_result_is_the_last_value.

Example C08_example : exists w, reachable x1_env [x1_prog] w /\
  occurs [EEmit 0 0 0 [] [0; 1]; ERet 0 (RSlot 0) (Some 0) (OutOpt (Some 1%Z)); EDeref 0 0 0 0 (OutOpt (Some 1%Z));
          ESkip 0 (RSlot 1) (Some 0) 12; EDeref 0 0 1 1 (OutOpt None); EEmitRet 0 0 (OutOpt (Some 1%Z))] (rev (w_log w)) = true.
Proof. exact ex_C08. Qed.

(** C09: the trace of an emission at any moment; the number of visits of each slot; why a
    slot is skipped. *)
Theorem C09_emission_trace e ps w t eid s a xs : reachable e ps w -> began (w_log w) t eid s a xs None ->
  default_emission t eid xs (did eid (w_log w)).
Proof. exact (default_combiner e ps w t eid s a xs). Qed.
Print Assumptions C09_emission_trace.

Theorem C09_every_slot_visited_once e ps w t eid s a xs z l : reachable e ps w -> began (w_log w) t eid s a xs None ->
  EEmitRet t eid (OutOpt z) ∈ w_log w -> ecount (is_visit eid l) (w_log w) = if decide (l ∈ xs) then 1 else 0.
Proof. exact (visited_once e ps w t eid s a xs z l). Qed.
Print Assumptions C09_every_slot_visited_once.

Theorem C09_skipped_for_a_reason e ps w : reachable e ps w ->
  log_all (fun ev pre => match ev with
    | ESkip t (RSlot l) (Some eid) start =>
        (exists post pre' s a xs, older start pre = post ++ EEmit t eid s a xs :: pre' /\ l ∈ xs) /\
        did eid pre = did eid (older start pre) /\ seen start pre (fun p => refuses p l)
    | _ => True end) (w_log w).
Proof. exact (skip_reason e ps w). Qed.
Print Assumptions C09_skipped_for_a_reason.

Example C09_example : exists w, reachable x1_env [x1_prog] w /\
  occurs [EEmit 0 0 0 [] [0; 1]; ERet 0 (RSlot 0) (Some 0) (OutOpt (Some 1%Z)); EDeref 0 0 0 0 (OutOpt (Some 1%Z));
          ESkip 0 (RSlot 1) (Some 0) 12; EDeref 0 0 1 1 (OutOpt None); EEmitRet 0 0 (OutOpt (Some 1%Z))] (rev (w_log w)) = true.
Proof. exact ex_C08. Qed.

(** C12: after a callable threw, the emission does nothing but let the exception out. *)
Theorem C12_throw_ends_the_emission e ps w t eid s a xs post t' r x pre : reachable e ps w -> began (w_log w) t eid s a xs None ->
  w_log w = post ++ ERet t' r (Some eid) (OutExn x) :: pre ->
  (forall o, EEmitRet t eid o ∈ w_log w -> o = OutExn x) /\
  forall ev, ev ∈ post -> about eid ev = true -> ev = EEmitRet t eid (OutExn x) \/ exists n l, ev = EDeref t eid n l (OutExn x).
Proof. exact (default_throw e ps w t eid s a xs post t' r x pre). Qed.
Print Assumptions C12_throw_ends_the_emission.

Example C12_example : exists w, reachable x7_env [x7_prog] w /\
  occurs [EEmit 0 0 0 [] [0; 1; 2]; ERet 0 (RSlot 0) (Some 0) (OutOpt (Some 1%Z)); EDeref 0 0 0 0 (OutOpt (Some 1%Z));
          ERet 0 (RSlot 1) (Some 0) (OutExn (UserExn 5)); EDeref 0 0 1 1 (OutExn (UserExn 5));
          EEmitRet 0 0 (OutExn (UserExn 5))] (rev (w_log w)) = true.
Proof. exact ex_C12. Qed.

(** C32: argument number [i] of a call is the argument given to the signal, moved from as
    often as callables of this emission took it before. *)
Theorem C32_arguments_of_a_call e ps w : reachable e ps w ->
  log_all (fun ev pre => match ev with
    | ECall t r (Some eid) c args start => forall post t s a xs pre' i, pre = post ++ EEmit t eid s a xs :: pre' ->
        args !! i = moved_arg e (ecount (takes e eid i) pre) <$> a !! i
    | _ => True end) (w_log w).
Proof. exact (call_args e ps w). Qed.
Print Assumptions C32_arguments_of_a_call.

Example C32_example : exists w, reachable x8_env [x8_prog] w /\
  occurs [EEmit 0 0 0 [AVal 9; ARef 0] [0; 1]; ECall 0 (RSlot 0) (Some 0) (fn 1) [AVal 9; ARef 0] 6;
          ECall 0 (RSlot 1) (Some 0) (fn 2) [AVal 0; ARef 0] 9] (rev (w_log w)) = true.
Proof. exact ex_C32. Qed.

(** It is not the case that every slot receives the given arguments. *)
Theorem C32_same_arguments_for_every_slot_refuted :
  ~ (forall e ps w, reachable e ps w ->
       log_all (fun ev pre => match ev with
         | ECall _ _ (Some eid) _ args _ => forall post t s a xs pre', pre = post ++ EEmit t eid s a xs :: pre' -> args = a
         | _ => True end) (w_log w)).
Proof. exact later_slots_see_moved_from. Qed.
Print Assumptions C32_same_arguments_for_every_slot_refuted.

(** C33: the events of an emission with a user's combiner are those of the combiner's
    program run over the list. *)
Theorem C33_emission_runs_the_combiner e ps w t eid s a xs k : reachable e ps w -> began (w_log w) t eid s a xs (Some k) ->
  progress t eid xs (e_comb e k (length xs)) (did eid (w_log w)).
Proof. exact (user_combiner e ps w t eid s a xs k). Qed.
Print Assumptions C33_emission_runs_the_combiner.

Example C33_example : exists w, reachable x6_env [x6_prog] w /\
  occurs [ENewSig 0 (Some 3); EEmit 0 0 0 [] [0; 1]; ECall 0 (RSlot 1) (Some 0) (fn 2) [] 6; EDeref 0 0 1 1 (OutOpt (Some 2%Z));
          ECall 0 (RSlot 1) (Some 0) (fn 2) [] 9; EDeref 0 0 1 1 (OutOpt (Some 2%Z)); EEmitRet 0 0 (OutOpt (Some 2%Z))] (rev (w_log w)) = true.
Proof. exact ex_C33. Qed.
