(** Destructors of tracked objects (C68). *)
From Verif Require Import ObjExamples.

(** C68: a tracked object is destroyed by a step of the thread that gives up an owner of it: the
    client's reset(), or the end of a slot call that had locked it. *)
Theorem C68_when_an_object_is_destroyed e ps w t fail st w' new o : reachable e ps w -> w_thr w !! t = Some st -> step e w t fail = SOk w' -> w_log w' = new ++ w_log w ->
  EObjDead o ∈ new -> gives_up o st.
Proof. exact (obj_given_up e ps w t fail st w' new o). Qed.
Print Assumptions C68_when_an_object_is_destroyed.

(** It is destroyed at most once, and at most one destructor of it is ever in progress. *)
Theorem C68_destroyed_at_most_once e ps w o : reachable e ps w -> destructors_of o w <= ecount (is_odead o) (w_log w) /\ ecount (is_odead o) (w_log w) <= 1.
Proof. exact (destroyed_once e ps w o). Qed.
Print Assumptions C68_destroyed_at_most_once.

(** From the beginning of its destructor on, no thread calls a slot that tracks it, whatever
    the destructor does. *)
Theorem C68_not_called_back e ps w t st o sc w' new t' l eid c args n : reachable e ps w -> w_thr w !! t = Some st -> FDtor (inr o) ∈ st ->
  run e w sc = inl w' -> since w w' new -> ECall t' (RSlot l) eid c args n ∈ new -> spec_tracks (w_log w') l <> Some o.
Proof. exact (not_called_back e ps w t st o sc w' new t' l eid c args n). Qed.
Print Assumptions C68_not_called_back.

(** With comparisons and functor destructors that leave the library alone (C28), the destructor
    runs without the mutex of any signal. *)
Theorem C68_no_mutex_held e ps w t p o st : lockless_env e -> reachable e ps w -> w_thr w !! t = Some (FProg p :: FDtor (inr o) :: st) ->
  forall s, ~ owns w t s.
Proof. exact (odtor_unlocked e ps w t p o st). Qed.
Print Assumptions C68_no_mutex_held.

(** The object goes while its slot runs; its destructor, after the call, disconnects the slot and
    emits the signal: only the other slot is called. *)
Example C68_example : lockless_env q_env /\ exists w, reachable q_env [q_prog] w /\ finished w 0 /\
  occurs [ECall 0 (RSlot 0) (Some 0) (trk 7 0) [] 7; EReset 0; ERet 0 (RSlot 0) (Some 0) (OutOpt (Some 1%Z)); EObjDead 0;
          EDisc 0 0 true; EEmit 0 1 0 [] [1]; ECall 0 (RSlot 1) (Some 1) (fn 1) [] 15; EEmitRet 0 1 (OutOpt (Some 2%Z));
          ECall 0 (RSlot 1) (Some 0) (fn 1) [] 20; EEmitRet 0 0 (OutOpt (Some 2%Z)); ESlotDead 0] (rev (w_log w)) = true.
Proof. exact ex_C68. Qed.
Example C68_example_inside : exists w p st, reachable q_env [q_prog] w /\ w_thr w !! 0 = Some (FProg p :: FDtor (inr 0) :: st) /\
  EObjDead 0 ∈ w_log w /\ ecount (is_odead 0) (w_log w) = 1 /\ destructors_of 0 w = 1.
Proof. exact ex_C68_inside. Qed.

(** Without that restriction it may: erase by function destroys the functor under the mutex, the
    functor owns the object, and the object's destructor destroys a scoped_connection to the
    same signal: the thread locks a mutex it holds. *)
Theorem C68_destructor_under_the_mutex_refuted : goes_ub h_env [h_prog] ULockSelf.
Proof. exact ex_C68_erase. Qed.
Print Assumptions C68_destructor_under_the_mutex_refuted.
(** disconnect() of the handle releases the mutex first. *)
Example C68_example_handle : exists w, reachable h_env [h_safe] w /\
  occurs [ERem 0 0 1 1; EDisc 0 1 true; ESlotDead 1; EReset 0; EObjDead 0; EDisc 0 0 true; ESlotDead 0] (rev (w_log w)) = true.
Proof. exact ex_C68_handle. Qed.

(** C65 with destructors of tracked objects: clients whose recursion goes down. *)
Example C65_example_objects : lockless_env q2_env /\ ends_env (fun _ => 0) q2_env /\ (exists o p, e_odtor q2_env o = Some p) /\ fair 1 (in_turn 1) /\
  match run q2_env (init [q_prog]) (first (in_turn 1) 100) with
  | inl w => finished w 0 /\ destructors_of 0 w = 0 /\ ecount (is_odead 0) (w_log w) = 1
  | inr _ => False
  end.
Proof. exact ex_C65_objects. Qed.
