(** * connected() with two loads

    slot_state::connected and the pmf variants (720-723, 944-947, 1005-1008) read the
    tracked pointer and the flag one after the other; [impl_connected] reads both at
    once. The answer made of two loads is the answer of one of the two moments. *)
From Verif Require Import OpBound OpQuery.

(** The tracked pointer as [w1] has it, the flag as [w2] has it. *)
Definition two_loads (w1 w2 : world) (l : lid) : option bool :=
  match get_ref w1 (RSlot l), get_ref w2 (RSlot l) with
  | Some i1, Some i2 => Some (negb (expired w1 (im_c i1)) && im_conn i2)
  | _, _ => None
  end.

Lemma run_from e ps w1 sc w2 : reachable e ps w1 -> run e w1 sc = inl w2 -> reachable e ps w2 /\ exists new, w_log w2 = new ++ w_log w1.
Proof.
  revert w1. induction sc as [|[t m] sc IH]; intros w1 Hr Hrun; [injection Hrun as <-; split; [auto|exists []; auto]|].
  cbn in Hrun. destruct (step e w1 t m) as [w'| | |] eqn:Hs; [|eauto|eauto|discriminate].
  destruct (IH w' (reachable_step _ _ _ _ _ _ Hr Hs) Hrun) as [H2 [new Hn]]. split; [auto|].
  destruct (step_thread _ _ _ _ _ Hs) as (_ & _ & [st Hst]).
  destruct (step_inv _ _ _ _ _ _ Hs Hst) as (wa & sta & D & L & Htr & _ & _ & _ & _ & _ & _ & _ & Hl & _).
  destruct (trans_log_app _ _ _ _ _ _ Htr) as [new1 Hn1]. exists (new ++ L ++ new1). rewrite Hn, Hl, Hn1, !app_assoc. reflexivity.
Qed.

Lemma flag_falls new log l : (forall t s i, EConn t s l i ∉ new) -> spec_flag (new ++ log) l = true -> spec_flag log l = true.
Proof.
  induction new as [|ev new IH]; intros H1 H2; [exact H2|].
  assert (IH' : spec_flag (new ++ log) l = true -> spec_flag log l = true).
  { apply IH. intros t s i Hin. eapply H1. apply elem_of_list_further; eauto. }
  destruct ev; cbn in H2; auto.
  - destruct (decide (_ = l)) as [->|]; [|auto]. exfalso. eapply H1. apply elem_of_list_here.
  - destruct (decide (_ = l)); [discriminate|auto].
Qed.

Lemma two_loads_linear e ps w1 sc w2 l b : reachable e ps w1 -> run e w1 sc = inl w2 -> two_loads w1 w2 l = Some b ->
  b = slot_connected w1 l \/ b = slot_connected w2 l.
Proof.
  intros Hr Hrun. destruct (run_from _ _ _ _ _ Hr Hrun) as [Hr2 [new Hn]]. unfold two_loads.
  destruct (get_ref w1 (RSlot l)) as [i1|] eqn:H1; [|discriminate]. destruct (get_ref w2 (RSlot l)) as [i2|] eqn:H2; [|discriminate]. intros [= <-].
  pose proof (ref_fields _ _ _ _ _ Hr H1) as ((i0 & Hi0 & _) & Hf1 & _). pose proof (ref_fields _ _ _ _ _ Hr2 H2) as (_ & Hf2 & _).
  pose proof (wf_log_reach _ _ _ Hr2) as Hwf. rewrite Hn in Hwf, Hf2.
  pose proof (flag_falls new (w_log w1) l (conn_not_again _ _ _ _ Hwf Hi0)) as Hfall.
  unfold slot_connected, impl_connected. cbn in H1, H2. destruct (w_slots w1 !! l) as [r1|]; [|discriminate]. destruct (w_slots w2 !! l) as [r2|]; [|discriminate].
  cbn in H1, H2. injection H1 as <-. injection H2 as <-. rewrite <- Hf1, <- Hf2 in Hfall.
  destruct (im_conn (sl_impl r2)) eqn:Hc; [left; rewrite Hfall by reflexivity; reflexivity|right; rewrite !andb_false_r; reflexivity].
Qed.

(** The object dies between the loads: the answer is the one of the earlier moment. *)
Lemma ex_two_loads : exists w1 sc w2, reachable x3_env [x3_prog] w1 /\ run x3_env w1 sc = inl w2 /\
  two_loads w1 w2 0 = Some true /\ slot_connected w1 0 = true /\ slot_connected w2 0 = false.
Proof.
  destruct (run x3_env (init [x3_prog]) (one 20)) as [w1|] eqn:H1; [|vm_compute in H1; discriminate].
  destruct (run x3_env w1 (one 10)) as [w2|] eqn:H2; [|exfalso; vm_compute in H1; injection H1 as <-; vm_compute in H2; discriminate].
  exists w1, (one 10), w2. split; [exists (one 20); exact H1|]. split; [exact H2|].
  vm_compute in H1. injection H1 as <-. vm_compute in H2. injection H2 as <-. repeat split; vm_compute; reflexivity.
Qed.
