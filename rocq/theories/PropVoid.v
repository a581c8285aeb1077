(** * Properties of signals without a result *)
From Verif Require Import VoidSig.

(** C50, the part about signals: the answer of a slot and the result of an emission with the
    default combiner are a disengaged optional, unless an exception was thrown. *)
Theorem C50_slots_of_a_void_signal e ps w : e_void e = true -> reachable e ps w ->
  log_all (fun ev _ => match ev with
    | ERet _ _ _ o => o = OutOpt None \/ exists x, o = OutExn x
    | _ => True end) (w_log w).
Proof. exact (void_slot_ret e ps w). Qed.
Print Assumptions C50_slots_of_a_void_signal.

Theorem C50_combiners_of_a_void_signal e ps w : e_void e = true -> reachable e ps w ->
  log_all (fun ev _ => match ev with
    | EDeref _ _ _ _ o => o = OutOpt None \/ exists x, o = OutExn x
    | _ => True end) (w_log w).
Proof. exact (void_deref e ps w). Qed.
Print Assumptions C50_combiners_of_a_void_signal.

Theorem C50_emission_of_a_void_signal e ps w t eid s a xs o : e_void e = true -> reachable e ps w -> began (w_log w) t eid s a xs None ->
  EEmitRet t eid o ∈ w_log w -> o = OutOpt None \/ exists x, o = OutExn x.
Proof. exact (void_emission e ps w t eid s a xs o). Qed.
Print Assumptions C50_emission_of_a_void_signal.

Example C50_signal_example : exists w, reachable xv_env [xv_prog] w /\
  occurs [EEmit 0 0 0 [] [0; 1]; ERet 0 (RSlot 0) (Some 0) (OutOpt None); ERet 0 (RSlot 1) (Some 0) (OutOpt None); EEmitRet 0 0 (OutOpt None);
          EEmit 0 1 0 [] [0; 1]; EEmitRet 0 1 (OutExn (UserExn 4))] (rev (w_log w)) = true.
Proof. exact ex_C50. Qed.
