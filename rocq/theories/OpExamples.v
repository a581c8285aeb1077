(** * The executions behind the examples and refutations about single calls *)
From Verif Require Export OpFacts.

Global Instance usv_eq_dec : EqDecision usv. Proof. solve_decision. Defined.
Definition eqn (ty x y : nat) : bool := Nat.eqb x y.
Lemma x2_pure : pure_eq x2_env eqn. Proof. intros ty x y. reflexivity. Qed.
Lemma eqn_equiv : eqb_equivalence eqn.
Proof.
  intros ty. unfold eqn. split; [intros; apply Nat.eqb_refl|]. split; intros *; rewrite !Nat.eqb_eq; congruence.
Qed.

(** One thread; three of five slots are equal to the argument. *)
Definition y1_prog := seqp [ONewSignal None; OConnect 0 (SrcFn (fn 1)) false; OConnect 0 (SrcFn (fn 2)) false; OConnect 0 (SrcFn (fn 1)) false;
                            OConnect 0 (SrcFn (fn 3)) false; OConnect 0 (SrcFn (fn 1)) false; OErase 0 (SrcFn (fn 1)); OEmit 0 []] OutUnit.
Definition lists_are (s : sid) (xs0 xs1 : list lid) (r : out) (w0 w : world) (o : out) : bool :=
  bool_decide (spec_list (w_log w0) s = xs0) && bool_decide (spec_list (w_log w) s = xs1) && bool_decide (o = r).
(** How many steps until the next operation of thread 0 is [o]. *)
Fixpoint until (e : env) (o : op) (n : nat) (w : world) : nat :=
  match n with
  | 0 => 0
  | S n => match w_thr w !! 0 with
           | Some [FProg (Do o' _)] => if bool_decide (o' = o) then 0 else match step e w 0 MOk with SOk w' => S (until e o n w') | _ => 0 end
           | _ => match step e w 0 MOk with SOk w' => S (until e o n w') | _ => 0 end
           end
  end.
Definition upto (e : env) (p : prog) (o : op) : sched := one (until e o 300 (init [p])).
(** Thread 0, one program, calls [o] and gets a result. *)
Lemma call_one e p o P : (forall pos, o <> ODeref pos) -> call_test e [p] (upto e p o) 0 o (one 100) P = true ->
  exists k st w0 w r, reachable e [p] w0 /\ in_call e 0 o k st w0 w /\ returned 0 k st w r /\ P w0 w r = true.
Proof. intros Hn H. eapply call_by_run; eauto. Qed.
Ltac by_one := apply call_one; [intros; discriminate|vm_compute; reflexivity].

(** The same for disconnect(f), with only thread 0 changing the list meanwhile. *)
Definition touches_b (s : sid) (ev : event) : bool :=
  match ev with
  | EConn _ s' _ _ | ERem _ s' _ _ | EErased _ s' _ => Nat.eqb s' s
  | EMoveSig s1 s2 => Nat.eqb s1 s || Nat.eqb s2 s
  | _ => false
  end.
Definition alone_b (s : sid) (new : list event) : bool := forallb (fun ev => bool_decide (thread_of ev = Some 0) || negb (touches_b s ev)) new.
Lemma alone_ok s new : alone_b s new = true -> undisturbed 0 s new.
Proof.
  unfold alone_b, undisturbed. intros H ev Hin Ht Hto. rewrite forallb_forall in H. apply elem_of_list_In in Hin. specialize (H _ Hin).
  apply orb_true_iff in H as [H|H]; [apply bool_decide_eq_true in H; contradiction|].
  destruct ev; cbn in Hto, H; try contradiction; subst; rewrite ?Nat.eqb_refl in H; try discriminate.
  destruct Hto; subst; rewrite Nat.eqb_refl, ?orb_true_r in H; discriminate.
Qed.
Lemma erase_alone e p s src P : call_test e [p] (upto e p (OErase s src)) 0 (OErase s src) (one 100) (fun w0 w r => alone_b s (news w0 w) && P w0 w r) = true ->
  exists k st w0 w r new, reachable e [p] w0 /\ in_call e 0 (OErase s src) k st w0 w /\ returned 0 k st w r /\ since w0 w new /\ undisturbed 0 s new /\ P w0 w r = true.
Proof.
  intros H. apply call_one in H; [|intros; discriminate]. destruct H as (k & st & w0 & w & r & Hr & Hc & Ho & H).
  apply andb_true_iff in H as [Ha HP]. destruct (erase_calls _ _ _ _ _ _ _ _ _ _ Hr Hc Ho) as (new & Hs & _).
  exists k, st, w0, w, r, new. split; [auto|]. split; [auto|]. split; [auto|]. split; [auto|]. split; [|auto].
  apply alone_ok. unfold news in Ha. unfold since in Hs. rewrite Hs, app_length, Nat.add_sub, take_app in Ha. exact Ha.
Qed.
Ltac by_alone := apply erase_alone; vm_compute; reflexivity.

Lemma ex_C13 : exists k st w0 w r new, reachable x2_env [y1_prog] w0 /\
  in_call x2_env 0 (OErase 0 (SrcFn (fn 1))) k st w0 w /\ returned 0 k st w r /\ since w0 w new /\ undisturbed 0 0 new /\ lists_are 0 [0; 1; 2; 3; 4] [3; 1] (OutNat 3) w0 w r = true.
Proof. by_alone. Qed.

(** A functor type (5) without operator==; the pointer type 8 (weak_ptr) has none either. *)
Definition y2_env : env :=
  Env false (fun ty => negb (Nat.eqb ty 5 || Nat.eqb ty 8)) (fun _ a b => Ret (OutBool (Nat.eqb a b)))
    (fun r c args => Ret (OutZ 0)) (fun _ _ => false) (fun _ => 0%Z) (fun _ => None) (fun k n => Ret (OutOpt None)).
Definition fn5 (v : nat) : callable := Callable KFunc (FType 5 CatR) v (FType 0 CatR) 0.
Definition y2_prog := seqp [ONewSignal None; OConnect 0 (SrcFn (fn 1)) false; OConnect 0 (SrcFn (fn5 1)) false; OConnect 0 (SrcFn (fn5 2)) false;
                            OErase 0 (SrcFn (fn5 2))] OutUnit.
Lemma y2_total : eq_total y2_env.
Proof. intros ty x y o H z. inversion H. discriminate. Qed.
Lemma ex_C14 : exists k st w0 w r new, reachable y2_env [y2_prog] w0 /\
  in_call y2_env 0 (OErase 0 (SrcFn (fn5 2))) k st w0 w /\ returned 0 k st w r /\ since w0 w new /\ undisturbed 0 0 new /\ lists_are 0 [0; 1; 2] [0; 1; 2] (OutExn NotComparable) w0 w r = true.
Proof. by_alone. Qed.

(** operator== throws when its left operand is 9. *)
Definition y3_env : env :=
  Env false (fun _ => true) (fun _ a b => if Nat.eqb a 9 then Ret (OutExn (UserExn 4)) else Ret (OutBool (Nat.eqb a b)))
    (fun r c args => Ret (OutZ 0)) (fun _ _ => false) (fun _ => 0%Z) (fun _ => None) (fun k n => Ret (OutOpt None)).
Definition y3_prog := seqp [ONewSignal None; OConnect 0 (SrcFn (fn 1)) false; OConnect 0 (SrcFn (fn 2)) false; OConnect 0 (SrcFn (fn 9)) false;
                            OErase 0 (SrcFn (fn 1))] OutUnit.
Lemma ex_C15 : exists k st w0 w r new, reachable y3_env [y3_prog] w0 /\
  in_call y3_env 0 (OErase 0 (SrcFn (fn 1))) k st w0 w /\ returned 0 k st w r /\ since w0 w new /\ undisturbed 0 0 new /\ lists_are 0 [0; 1; 2] [2; 1] (OutExn (UserExn 4)) w0 w r = true.
Proof. by_alone. Qed.
Lemma erase_not_strong :
  ~ (forall e p t s src k st w0 w x, reachable e [p] w0 -> in_call e t (OErase s src) k st w0 w -> returned t k st w (OutExn x) ->
       slots_of w s = slots_of w0 s).
Proof.
  intros H. destruct ex_C15 as (k & st & w0 & w & r & new & Hr & Hc & Ho & _ & _ & Hl). unfold lists_are in Hl.
  apply andb_true_iff in Hl as [Hl H3]. apply andb_true_iff in Hl as [H1 H2]. apply bool_decide_eq_true in H1, H2, H3. subst r.
  specialize (H _ _ _ _ _ _ _ _ _ _ Hr Hc Ho). change slots_of with cur in H.
  rewrite (proj1 (list_spec _ _ _ 0 Hr)), (proj1 (list_spec _ _ _ 0 (in_call_reachable _ _ _ _ _ _ _ _ Hr Hc))), H1, H2 in H. discriminate.
Qed.

(** The same functor connected as an lvalue and as an rvalue. *)
Definition fnL (v : nat) : callable := Callable KFunc (FType 0 CatL) v (FType 0 CatR) 0.
Definition y4_prog := seqp [ONewSignal None; OConnect 0 (SrcFn (fnL 1)) false; OConnect 0 (SrcFn (fn 1)) false; OErase 0 (SrcFn (fn 1))] OutUnit.
Lemma ex_C16 : exists k st w0 w r new, reachable x2_env [y4_prog] w0 /\
  in_call x2_env 0 (OErase 0 (SrcFn (fn 1))) k st w0 w /\ returned 0 k st w r /\ since w0 w new /\ undisturbed 0 0 new /\ lists_are 0 [0; 1] [0] (OutNat 1) w0 w r = true.
Proof. by_alone. Qed.
Lemma ex_C16_callee : exists k st w0 w r, reachable x2_env [y4_prog] w0 /\
  in_call x2_env 0 (OErase 0 (SrcFn (fn 1))) k st w0 w /\ returned 0 k st w r /\
  lists_are 0 [0; 1] [0] (OutNat 1) w0 w r && bool_decide (spec_callee (w_log w) 0 = Some (fnL 1)) = true.
Proof. by_one. Qed.
Lemma equal_value_stays :
  ~ (forall e p t s b k st w0 w n l c, pure_eq e eqn -> reachable e [p] w0 -> in_call e t (OErase s (SrcFn b)) k st w0 w -> returned t k st w (OutNat n) ->
       l ∈ spec_list (w_log w) s -> spec_callee (w_log w) l = Some c -> c_kind c = c_kind b -> ft_base (c_fty c) = ft_base (c_fty b) -> c_fv c <> c_fv b).
Proof.
  intros H. destruct ex_C16_callee as (k & st & w0 & w & r & Hr & Hc & Ho & Hl). apply andb_true_iff in Hl as [Hl H4]. unfold lists_are in Hl.
  apply andb_true_iff in Hl as [Hl H3]. apply andb_true_iff in Hl as [H1 H2]. apply bool_decide_eq_true in H1, H2, H3, H4. subst r.
  assert (Hin : 0 ∈ spec_list (w_log w) 0) by (rewrite H2; apply elem_of_list_here).
  exact (H _ _ _ _ _ _ _ _ _ _ _ _ x2_pure Hr Hc Ho Hin H4 eq_refl eq_refl eq_refl).
Qed.

(** Slots with a tracked object; their pointers are weak_ptr (type 8). *)
Definition trk8 (v o : nat) : callable := Callable KTracked (FType 0 CatR) v (FType 8 CatR) o.
Definition y5_prog := seqp [ONewSignal None; OVar VNewObj; OConnect 0 (SrcFn (fn 1)) false; OConnect 0 (SrcFn (trk8 1 0)) false;
                            OErase 0 (SrcFn (trk8 1 0))] OutUnit.
Lemma ex_C17 : exists k st w0 w r new, reachable y2_env [y5_prog] w0 /\
  in_call y2_env 0 (OErase 0 (SrcFn (trk8 1 0))) k st w0 w /\ returned 0 k st w r /\ since w0 w new /\ undisturbed 0 0 new /\ lists_are 0 [0; 1] [0; 1] (OutExn NotComparable) w0 w r = true.
Proof. by_alone. Qed.

(** connect: normally, and out of memory while the list is copied (an emission uses it). *)
Lemma ex_C31 : exists k st w0 w r, reachable x2_env [y1_prog] w0 /\
  in_call x2_env 0 (OConnect 0 (SrcFn (fn 3)) false) k st w0 w /\ returned 0 k st w r /\ lists_are 0 [0; 1; 2] [0; 1; 2; 3] (OutId 3) w0 w r = true.
Proof. by_one. Qed.
(** The last step of a call. *)
Lemma call_last e t op k st w0 w o : in_call e t op k st w0 w -> returned t k st w o ->
  (exists fail w', step e w0 t fail = SOk w' /\ returned t k st w' o) \/
  exists w1 fail w2, in_call e t op k st w0 w1 /\ (forall o', ~ returned t k st w1 o') /\ step e w1 t fail = SOk w2 /\ returned t k st w2 o.
Proof.
  intros H. induction H as [fail w Ht Hs|t' fail w w' H IH Hn Hs]; intros Ho; [eauto|].
  destruct (decide (t' = t)) as [->|Hne]; [right; exists w, fail, w'; eauto|]. apply IH.
  destruct (step_trans _ _ _ _ _ Hs) as (st0 & w1 & st1 & Ht0 & _). destruct (step_inv _ _ _ _ _ _ Hs Ht0) as (w2 & st2 & D & L & _ & _ & _ & _ & _ & _ & _ & _ & _ & Hthr).
  unfold returned in Ho |- *. rewrite Hthr, list_lookup_insert_ne in Ho by auto. exact Ho.
Qed.
Definition y31_prog := seqp [ONewSignal None; OConnect 0 (SrcFn (fn 1)) false; OConnect 0 (SrcFn (fn 2)) true] OutUnit.
Lemma ex_C31_handle : exists k st w0 w fail w', reachable x2_env [y31_prog] w0 /\ in_call x2_env 0 (OConnect 0 (SrcFn (fn 2)) true) k st w0 w /\
  (forall o, ~ returned 0 k st w o) /\ step x2_env w 0 fail = SOk w' /\ returned 0 k st w' (OutId 1).
Proof.
  destruct (call_one x2_env y31_prog (OConnect 0 (SrcFn (fn 2)) true) (fun w0 w o => bool_decide (o = OutId 1) && match step x2_env w0 0 MOk with SOk _ => true | _ => false end))
    as (k & st & w0 & w & o & Hr & Hc & Ho & HP); [intros; discriminate|vm_compute; reflexivity|].
  apply andb_true_iff in HP as [HP _]. apply bool_decide_eq_true in HP. subst o.
  destruct (call_last _ _ _ _ _ _ _ _ Hc Ho) as [(fail & w' & Hs & Hx)|(w1 & fail & w2 & H1 & H2 & H3 & H4)]; [|exists k, st, w0, w1, fail, w2; auto].
  exfalso. clear Ho. assert (Ht : w_thr w0 !! 0 = Some (FProg (Do (OConnect 0 (SrcFn (fn 2)) true) k) :: st)) by (induction Hc; auto).
  destruct (step_inv _ _ _ _ _ _ Hs Ht) as (w3 & st3 & D & L & Htr & _ & HD & _ & _ & _ & _ & _ & _ & Hthr).
  unfold returned in Hx. rewrite Hthr, list_lookup_insert in Hx by (eapply lookup_lt_Some; eauto). injection Hx as Hx.
  destruct D as [|g D]; [|injection Hx as -> _; unfold dtorish in HD; rewrite Forall_cons in HD; destruct HD as [[[? ?]|[? ?]] _]; discriminate].
  cbn in Hx. subst st3. inversion Htr; subst; try discriminate.
Qed.
Lemma ex_C31_throws : exists k st w0 w r, reachable x2_env [y1_prog] w0 /\
  in_call x2_env 0 (OConnect 0 (SrcFn (fn 3)) false) k st w0 w /\ returned 0 k st w r /\ lists_are 0 [0; 1; 2] [0; 1; 2] (OutExn BadAlloc) w0 w r = true.
Proof.
  apply (call_by_run _ _ (upto x2_env y1_prog (OConnect 0 (SrcFn (fn 3)) false)) _ _ ([(0, MOk); (0, MOk); (0, MOk)] ++ repeat (0, MThrow) 20));
    [vm_compute; reflexivity|intros; discriminate].
Qed.

(** A blocked slot object is connected twice, then unblocked. *)
Definition y6_prog := seqp [ONewSignal None; OVar (VSlotNew (fn 1)); OVar (VSlotBlock 0); OConnect 0 (SrcSlot 0) false; OVar (VSlotUnblock 0);
                            OConnect 0 (SrcSlot 0) false; OVar (VSlotDisc 0); OEmit 0 []; OVar VSlotEmpty] OutUnit.
Lemma ex_C34 : exists w, reachable x2_env [y6_prog] w /\
  occurs [EConn 0 0 0 (im_set_blk true (new_impl (fn 1))); EConn 0 0 1 (im_set_idx 1 (new_impl (fn 1))); EEmit 0 0 0 [] [0; 1];
          ESkip 0 (RSlot 0) (Some 0) 6; ECall 0 (RSlot 1) (Some 0) (fn 1) [] 8] (rev (w_log w)) = true.
Proof. by_run x2_env [y6_prog] (one 200). Qed.
Lemma ex_C34_call : exists k st w0 w r, reachable x2_env [y6_prog] w0 /\
  in_call x2_env 0 (OConnect 0 (SrcSlot 0) false) k st w0 w /\ returned 0 k st w r /\
  lists_are 0 [] [0] (OutId 0) w0 w r && bool_decide (v_us (w_vars w0) !! 0 = Some (UsV true (Some (im_set_blk true (new_impl (fn 1)))))) = true.
Proof. by_one. Qed.
Lemma ex_C34_change : exists w, reachable x2_env [y6_prog] w /\
  step_is x2_env w 0 (fun w' => bool_decide (v_us (w_vars w') !! 0 <> v_us (w_vars w) !! 0)) && bool_decide (0 < length (v_us (w_vars w))) = true.
Proof. by_state x2_env [y6_prog] (upto x2_env y6_prog (OVar (VSlotUnblock 0))). Qed.
Definition y7_prog := seqp [ONewSignal None; OVar VSlotEmpty; OConnect 0 (SrcSlot 0) false] OutUnit.
Lemma connect_empty_undefined : goes_ub x2_env [y7_prog] UNullSlot.
Proof. apply (run_ub _ _ (one 30)). vm_compute. reflexivity. Qed.
Lemma ex_C35 : exists w, reachable x2_env [y6_prog] w /\
  stack_is w 0 (fun st => match st with [FProg (Do (OVar (VSlotDisc 0)) _)] => true | _ => false end) &&
  bool_decide (v_us (w_vars w) !! 0 = Some (UsV true (Some (new_impl (fn 1))))) = true.
Proof. by_state x2_env [y6_prog] (upto x2_env y6_prog (OVar (VSlotDisc 0))). Qed.

(** Slot comparison. *)
Definition y8_prog := seqp [OVar (VSlotNew (fn 1)); OVar (VSlotNew (fn 1)); OVar (VSlotNew (fn 2)); OVar VSlotEmpty; OVar (VSlotNew (fn5 1));
                            OSlotEq 0 1; OSlotEq 0 2; OSlotEq 3 3; OSlotEq 0 3; OSlotEq 4 4] OutUnit.
Definition eq_gives (o r : out) : bool := bool_decide (o = r).
Lemma ex_C36 a b (r : out) : In (a, b, r) [(0, 1, OutBool true); (0, 2, OutBool false); (3, 3, OutBool true); (0, 3, OutBool false); (4, 4, OutExn NotComparable)] ->
  exists k st w0 w o, reachable y2_env [y8_prog] w0 /\ in_call y2_env 0 (OSlotEq a b) k st w0 w /\ returned 0 k st w o /\ bool_decide (o = r) = true.
Proof. intros H. repeat (destruct H as [H|H]; [injection H as <- <- <-; apply call_one with (P := fun _ _ o => bool_decide (o = _)); [intros; discriminate|vm_compute; reflexivity]|]). destruct H. Qed.

(** The same functor connected twice, one of the slots is blocked, then disconnected. *)
Definition y9_prog := seqp [ONewSignal None; OConnect 0 (SrcFn (fn 1)) false; OConnect 0 (SrcFn (fn 1)) false; OEmit 0 []; OVar (VBlock 0); OEmit 0 [];
                            OVar (VUnblock 0); OVar (VDisc 0); OEmit 0 []] OutUnit.
Lemma ex_C37 : exists w, reachable x2_env [y9_prog] w /\
  occurs [EConn 0 0 0 (new_impl (fn 1)); EHandle 0 0 0; EConn 0 0 1 (im_set_idx 1 (new_impl (fn 1))); EHandle 0 1 1; 
          EEmit 0 0 0 [] [0; 1]; ECall 0 (RSlot 0) (Some 0) (fn 1) [] 6; ECall 0 (RSlot 1) (Some 0) (fn 1) [] 9;
          EBlk 0 true; EEmit 0 1 0 [] [0; 1]; ESkip 0 (RSlot 0) (Some 1) 15; ECall 0 (RSlot 1) (Some 1) (fn 1) [] 17;
          EDisc 0 0 true; EEmit 0 2 0 [] [1]; ECall 0 (RSlot 1) (Some 2) (fn 1) [] 27] (rev (w_log w)) = true.
Proof. by_run x2_env [y9_prog] (one 200). Qed.

(** Scoped connections are moved. *)
Definition z1_prog := seqp [ONewSignal None; OConnect 0 (SrcFn (fn 1)) true; OConnect 0 (SrcFn (fn 2)) true; OVar (VMoveConn 0 true);
                            OVar (VAssignMove 0 2); OVar (VRelease 0); OVar (VMoveConn 3 true); OVar (VAssignMove 1 4); OVar (VDestroyConn 4); OVar (VDestroyConn 0);
                            OVar (VDestroyConn 1); OEmit 0 []] OutUnit.
Definition about_to (e : env) (w : world) (o : op) : bool :=
  stack_is w 0 (fun st => match st with [FProg (Do o' _)] => bool_decide (o' = o) | _ => false end) && goes e w 0.
Lemma ex_C22_move : exists w, reachable x2_env [z1_prog] w /\
  about_to x2_env w (OVar (VMoveConn 0 true)) && bool_decide (v_conns (w_vars w) !! 0 = Some (ConnV true true (Some 0))) = true.
Proof. by_state x2_env [z1_prog] (upto x2_env z1_prog (OVar (VMoveConn 0 true))). Qed.
Lemma ex_C22_release : exists w, reachable x2_env [z1_prog] w /\
  about_to x2_env w (OVar (VRelease 0)) && bool_decide (v_conns (w_vars w) !! 0 = Some (ConnV true true (Some 0))) = true.
Proof. by_state x2_env [z1_prog] (upto x2_env z1_prog (OVar (VRelease 0))). Qed.
Lemma ex_C22_assign_empty : exists w, reachable x2_env [z1_prog] w /\
  about_to x2_env w (OVar (VAssignMove 0 2)) && bool_decide (v_conns (w_vars w) !! 0 = Some (ConnV true true None)) &&
  bool_decide (v_conns (w_vars w) !! 2 = Some (ConnV true true (Some 0))) = true.
Proof. by_state x2_env [z1_prog] (upto x2_env z1_prog (OVar (VAssignMove 0 2))). Qed.
Lemma ex_C22_assign : exists w, reachable x2_env [z1_prog] w /\
  about_to x2_env w (OVar (VAssignMove 1 4)) && bool_decide (v_conns (w_vars w) !! 1 = Some (ConnV true true (Some 1))) &&
  bool_decide (v_conns (w_vars w) !! 4 = Some (ConnV true true (Some 0))) = true.
Proof. by_state x2_env [z1_prog] (upto x2_env z1_prog (OVar (VAssignMove 1 4))). Qed.
Lemma ex_C22_assign_end : exists w, reachable x2_env [z1_prog] w /\
  stack_is w 0 (fun st => match st with [FRet _; FAssignMv 1 4 1; FWait _] => true | _ => false end) && goes x2_env w 0 &&
  bool_decide (v_conns (w_vars w) !! 1 = Some (ConnV true true (Some 1))) && bool_decide (v_conns (w_vars w) !! 4 = Some (ConnV true true (Some 0))) = true.
Proof. by_state x2_env [z1_prog] (upto x2_env z1_prog (OVar (VAssignMove 1 4)) ++ one 7). Qed.
Lemma ex_C22_empty : exists w, reachable x2_env [z1_prog] w /\
  about_to x2_env w (OVar (VDestroyConn 4)) && bool_decide (v_conns (w_vars w) !! 4 = Some (ConnV true true None)) = true.
Proof. by_state x2_env [z1_prog] (upto x2_env z1_prog (OVar (VDestroyConn 4))). Qed.
Lemma ex_C22 : exists w, reachable x2_env [z1_prog] w /\
  occurs [EDisc 0 1 true; EScoped 0 1; EDisc 0 0 true; EScoped 0 0; EEmit 0 0 0 [] []] (rev (w_log w)) = true.
Proof. by_run x2_env [z1_prog] (one 300). Qed.
