(** * Properties: which callables are called *)
From Verif Require Import Examples.

(** C01: whoever entered slot::operator() (at log length [start]) after a
    disconnect() of the slot had returned does not call the callable. *)
Theorem C01_no_call_after_disconnect e ps w : reachable e ps w ->
  log_all (fun ev pre => match ev with
    | ECall _ (RSlot l) _ _ _ start => start <= length pre /\ forall t b, EDisc t l b ∉ older start pre
    | _ => True end) (w_log w).
Proof. exact (no_call_after_disc e ps w). Qed.
Print Assumptions C01_no_call_after_disconnect.

Example C01_example : exists w, reachable x2_env [x2_prog; x2_other] w /\
  occurs [EEmit 0 0 0 [] [0]; EDisc 1 0 true; ECall 0 (RSlot 0) (Some 0) (fn 1) [] 4; EEmit 0 1 0 [] []] (rev (w_log w)) = true.
Proof. exact ex_C01. Qed.

(** C02 *)
Theorem C02_single_thread_disconnect_is_final e p w : reachable e [p] w ->
  log_all (fun ev pre => match ev with
    | ECall _ (RSlot l) _ _ _ _ => forall t b, EDisc t l b ∉ pre
    | _ => True end) (w_log w).
Proof. exact (seq_no_call_after_disc e p w). Qed.
Print Assumptions C02_single_thread_disconnect_is_final.

Example C02_example : exists w, reachable x1_env [x1_prog] w /\
  occurs [EEmit 0 0 0 [] [0; 1]; ECall 0 (RSlot 0) (Some 0) (fn 1) [] 6; EDisc 0 1 true; ESkip 0 (RSlot 1) (Some 0) 12;
          EEmit 0 1 0 [] [0]; EDisc 0 1 false] (rev (w_log w)) = true.
Proof. exact ex_C02. Qed.

(** With two threads the same statement is false. *)
Theorem C02_two_threads_refuted :
  ~ (forall e ps w, reachable e ps w ->
       log_all (fun ev pre => match ev with
         | ECall _ (RSlot l) _ _ _ _ => forall t b, EDisc t l b ∉ pre
         | _ => True end) (w_log w)).
Proof. exact two_threads_call_after_disc. Qed.
Print Assumptions C02_two_threads_refuted.

(** C03 *)
Theorem C03_disconnect_succeeds_once e ps w l : reachable e ps w ->
  ecount (is_disc_true l) (w_log w) <= 1.
Proof. exact (disc_once e ps w l). Qed.
Print Assumptions C03_disconnect_succeeds_once.

Example C03_example : exists w, reachable x1_env [x1_prog] w /\
  occurs [EEmit 0 0 0 [] [0; 1]; ECall 0 (RSlot 0) (Some 0) (fn 1) [] 6; EDisc 0 1 true; ESkip 0 (RSlot 1) (Some 0) 12;
          EEmit 0 1 0 [] [0]; EDisc 0 1 false] (rev (w_log w)) = true.
Proof. exact ex_C02. Qed.

(** C05 *)
Theorem C05_connected_tells_the_truth e ps w : reachable e ps w ->
  log_all (fun ev pre => match ev with EConnd _ l b => b = spec_connected pre l | _ => True end) (w_log w).
Proof. exact (connd_spec e ps w). Qed.
Print Assumptions C05_connected_tells_the_truth.

Theorem C05_false_is_final e ps w post t' l b mid t pre : reachable e ps w ->
  w_log w = post ++ EConnd t' l b :: mid ++ EConnd t l false :: pre ->
  (forall o, spec_tracks pre l = Some o -> ENewObj o ∈ pre) -> b = false.
Proof. exact (connected_final e ps w post t' l b mid t pre). Qed.
Print Assumptions C05_false_is_final.

Example C05_example_disconnected : exists w, reachable x1_env [x1_prog] w /\
  occurs [EDisc 0 1 true; EConnd 0 1 false; EConnd 0 0 true] (rev (w_log w)) = true.
Proof. exact ex_C05_true. Qed.
Example C05_example_object_died : exists w, reachable x3_env [x3_prog] w /\
  occurs [ECall 0 (RSlot 0) (Some 0) (trk 7 0) [] 5; EReset 0; EObjDead 0; EConnd 0 0 false; EConnd 0 0 false] (rev (w_log w)) = true.
Proof. exact ex_C05. Qed.

(** C10: any number of threads, and one thread. *)
Theorem C10_blocked_is_not_called e ps w : reachable e ps w ->
  log_all (fun ev pre => match ev with
    | ECall _ (RSlot l) _ _ _ start => start <= length pre /\ seen start pre (fun p => spec_blk p l = false)
    | _ => True end) (w_log w).
Proof. exact (call_unblocked e ps w). Qed.
Print Assumptions C10_blocked_is_not_called.

Theorem C10_single_thread e p w : reachable e [p] w ->
  log_all (fun ev pre => match ev with
    | ECall _ (RSlot l) _ _ _ _ => spec_blk pre l = false
    | _ => True end) (w_log w).
Proof. exact (seq_unblocked e p w). Qed.
Print Assumptions C10_single_thread.

Example C10_example : exists w, reachable x2_env [x4_prog] w /\
  occurs [EBlk 0 true; EBlk 0 true; EBlkd 0 0 true; ESkip 0 (RSlot 0) (Some 0) 7; EBlk 0 false; EBlkd 0 0 false;
          ECall 0 (RSlot 0) (Some 1) (fn 1) [] 13] (rev (w_log w)) = true.
Proof. exact ex_C11. Qed.

(** C11 *)
Theorem C11_blocked_reports_the_last_operation e ps w : reachable e ps w ->
  log_all (fun ev pre => match ev with
    | EBlkd _ l b => b = spec_alive pre l && spec_blk pre l
    | _ => True end) (w_log w).
Proof. exact (blkd_spec e ps w). Qed.
Print Assumptions C11_blocked_reports_the_last_operation.

(** Blockers do not nest: a slot that was blocked more often than it was unblocked may
    be unblocked. *)
Theorem C11_blockers_nest_refuted :
  ~ (forall e ps w, reachable e ps w ->
       log_all (fun ev pre => match ev with
         | EBlkd _ l b => spec_alive pre l = true ->
             ecount (is_blk l false) pre < ecount (is_blk l true) pre -> b = true
         | _ => True end) (w_log w)).
Proof. exact blockers_do_not_nest. Qed.
Print Assumptions C11_blockers_nest_refuted.

Example C11_example : exists w, reachable x2_env [x4_prog] w /\
  occurs [EBlk 0 true; EBlk 0 true; EBlkd 0 0 true; ESkip 0 (RSlot 0) (Some 0) 7; EBlk 0 false; EBlkd 0 0 false;
          ECall 0 (RSlot 0) (Some 1) (fn 1) [] 13] (rev (w_log w)) = true.
Proof. exact ex_C11. Qed.

(** C40 *)
Theorem C40_functor_state_belongs_to_the_slot e ps w : reachable e ps w ->
  log_all (fun ev pre => match ev with
    | EGet _ (RSlot l) z => spec_alive pre l = true /\ z = spec_st pre l
    | _ => True end) (w_log w).
Proof. exact (get_spec e ps w). Qed.
Print Assumptions C40_functor_state_belongs_to_the_slot.

Example C40_example : exists w, reachable x5_env [x5_prog] w /\
  occurs [ESet 0 (RSlot 0) 1; EGet 0 (RSlot 1) 0; ESet 0 (RSlot 1) 1; EDisc 0 0 true; EGet 0 (RSlot 1) 1; ESet 0 (RSlot 1) 2] (rev (w_log w)) = true.
Proof. exact ex_C40. Qed.
