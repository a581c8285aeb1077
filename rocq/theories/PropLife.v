(** * Properties: lifetimes of slots and tracked objects *)
From Verif Require Import Examples.

(** C18 *)
Theorem C18_never_called_on_a_dead_object e ps w : reachable e ps w ->
  log_all (fun ev pre => match ev with
    | ECall _ (RSlot l) _ _ _ _ => forall o, spec_tracks pre l = Some o -> spec_obj pre o = true
    | EObjDead o => forall l, spec_tracks pre l = Some o ->
        ecount (is_call (RSlot l)) pre = ecount (is_ret (RSlot l)) pre
    | _ => True end) (w_log w).
Proof. exact (tracked_safe e ps w). Qed.
Print Assumptions C18_never_called_on_a_dead_object.

Example C18_example : exists w, reachable x3_env [x3_prog] w /\
  occurs [ENewObj 0; ECall 0 (RSlot 0) (Some 0) (trk 7 0) [] 5; EReset 0; ERet 0 (RSlot 0) (Some 0) (OutOpt (Some 7%Z)); EObjDead 0;
          ESkip 0 (RSlot 0) (Some 1) 13; ESlotDead 0] (rev (w_log w)) = true.
Proof. exact ex_C18. Qed.

(** C19: an object the client has dropped is dead unless a call holds it. *)
Theorem C19_tracking_does_not_keep_alive e ps w o : reachable e ps w -> EReset o ∈ w_log w ->
  (forall t st f, w_thr w !! t = Some st -> f ∈ st ->
     match f with FSlot _ _ _ (Some o') _ _ => o' <> o | _ => True end) ->
  spec_obj (w_log w) o = false.
Proof. exact (dropped_dies e ps w o). Qed.
Print Assumptions C19_tracking_does_not_keep_alive.

(** Conversely an object the client holds is alive. *)
Theorem C19_held_object_is_alive e ps w o : reachable e ps w ->
  ENewObj o ∈ w_log w -> EReset o ∉ w_log w -> spec_obj (w_log w) o = true.
Proof. exact (held_alive e ps w o). Qed.
Print Assumptions C19_held_object_is_alive.

Example C19_example : exists w, reachable x3_env [x3_prog] w /\
  occurs [ENewObj 0; ECall 0 (RSlot 0) (Some 0) (trk 7 0) [] 5; EReset 0; ERet 0 (RSlot 0) (Some 0) (OutOpt (Some 7%Z)); EObjDead 0;
          ESkip 0 (RSlot 0) (Some 1) 13; ESlotDead 0] (rev (w_log w)) = true.
Proof. exact ex_C18. Qed.

(** C41 *)
Theorem C41_destroyed_once_and_never_while_called e ps w : reachable e ps w ->
  log_all (fun ev pre => match ev with
    | ESlotDead l => spec_alive pre l = true /\ ecount (is_call (RSlot l)) pre = ecount (is_ret (RSlot l)) pre
    | ECall _ (RSlot l) _ _ _ _ => spec_alive pre l = true
    | EConnd _ l true => spec_alive pre l = true
    | EConn _ _ l _ => forall t s i, EConn t s l i ∉ pre
    | _ => True end) (w_log w).
Proof. exact (slot_life e ps w). Qed.
Print Assumptions C41_destroyed_once_and_never_while_called.

Example C41_example : exists w, reachable x3_env [x3_prog] w /\
  occurs [ENewObj 0; ECall 0 (RSlot 0) (Some 0) (trk 7 0) [] 5; EReset 0; ERet 0 (RSlot 0) (Some 0) (OutOpt (Some 7%Z)); EObjDead 0;
          ESkip 0 (RSlot 0) (Some 1) 13; ESlotDead 0] (rev (w_log w)) = true.
Proof. exact ex_C18. Qed.

(** C06 *)
Theorem C06_list_follows_history e ps w s : reachable e ps w ->
  match w_sigs w !! s with
  | Some r => match sg_vec r with Some v => vec_of w v | None => [] end
  | None => []
  end = spec_list (w_log w) s /\ NoDup (spec_list (w_log w) s).
Proof. exact (list_spec e ps w s). Qed.
Print Assumptions C06_list_follows_history.

Example C06_example : exists w, reachable x1_env [x1_prog] w /\
  occurs [EConn 0 0 0 (new_impl (fn 1)); EConn 0 0 1 (im_set_idx 1 (new_impl (fn 2))); EEmit 0 0 0 [] [0; 1];
          ERem 0 0 1 1; EEmit 0 1 0 [] [0]] (rev (w_log w)) = true.
Proof. exact ex_C06. Qed.
