(** * Concrete optional<T> runs *)
From Verif Require Export OptFacts.

(** A type for which a move leaves 0 behind. *)
Definition mz : Z -> Z := fun _ => 0%Z.
Definition run_rets (mv : Z -> Z) (oracle : list tout) (os : list oop) : option (list oret) := fst <$> orun mv (ow0 oracle) os.
Definition d_opt : list oop :=
  [ONewVal 5; ONew; OAssign 1 0; OAssignMove 0 1; OGet 1; OSwap 0 1; OGet 1; OReset 0; OHas 0; OValue 0; OValueOr 0 8; OEmplace 0 3; OTake 0; OGet 0].
Lemma ex_behaviour : exists w, orun mz (ow0 []) d_opt =
  Some ([RetV (VI 0); RetV (VI 1); RetV VU; RetV VU; RetV (VZ 0); RetV VU; RetV (VZ 5); RetV VU; RetV (VB false); RetX XAccess;
         RetV (VZ 8); RetV VU; RetV (VZ 3); RetV (VZ 0)], w).
Proof. eexists. vm_compute. reflexivity. Qed.
(** The same with exceptions: an assignment that throws, then a failed emplace. *)
Lemma ex_behaviour_throw : exists w, orun mz (ow0 [TFine; TThrow 9 9; TThrow 1 1]) [ONewVal 5; OAssignVal 0 7; OGet 0; OEmplace 0 2; OHas 0] =
  Some ([RetV (VI 0); RetX XT; RetV (VZ 9); RetX XT; RetV (VB false)], w).
Proof. eexists. vm_compute. reflexivity. Qed.
Lemma ex_no_throw : no_throw [] d_opt /\ exists rs w, orun mz (ow0 []) d_opt = Some (rs, w).
Proof.
  split.
  - split; [repeat constructor|]. unfold d_opt. repeat (apply Forall_cons; split; [done|]). done.
  - eexists _, _. vm_compute. reflexivity.
Qed.
Lemma ex_undefined : orun mz (ow0 []) [ONew; OGet 0] = None /\ ospec mz [Some None] (OGet 0) = AUndef.
Proof. done. Qed.
Lemma ex_trace : opt_trace mz [] [ONewVal 5; OTakeValue 0; OGet 0] [RetV (VI 0); RetV (VZ 5); RetV (VZ 0)] [Some (Some 0%Z)].
Proof. repeat (econstructor; [reflexivity|]). constructor. Qed.
(** A swap with a disengaged optional constructs one object, moves twice, destroys two. *)
Lemma ex_lives : exists rs w, orun mz (ow0 []) [ONewVal 5; ONew; OSwap 0 1; ODelete 0; ODelete 1] = Some (rs, w) /\
  Forall (eq None) (w_opt w) /\ length (w_objs w) = 3 /\ EvCon 2 ∈ w_ev w.
Proof. eexists _, _. split; [vm_compute; reflexivity|]. split; [repeat constructor|]. split; [done|]. repeat constructor. Qed.
Lemma ex_exceptions : exists rs w w', orun mz (ow0 [TFine; TThrow 0 0]) [ONewVal 5] = Some (rs, w) /\
  oexec mz (OEmplace 0 7) w = Throw XT w' /\ is_engaged w 0 = true /\ is_engaged w' 0 = false.
Proof. eexists _, _, _. split_and!; [vm_compute; reflexivity|vm_compute; reflexivity|done|done]. Qed.
(** Swap of an engaged with a disengaged optional: the last move throws, and the value is in
    neither of them. *)
Lemma swap_loses : ~ (forall mv oracle os rs w i j w', orun mv (ow0 oracle) os = Some (rs, w) -> oexec mv (OSwap i j) w = Throw XT w' ->
  forall k, is_engaged w' k = is_engaged w k).
Proof.
  intros H. pose (os := [ONewVal 5; ONew]). pose (or := [TFine; TFine; TThrow 0 0]).
  destruct (orun mz (ow0 or) os) as [[rs w]|] eqn:E; [|by vm_compute in E].
  destruct (oexec mz (OSwap 0 1) w) as [|[] w'|] eqn:E'; vm_compute in E; simplify_eq; vm_compute in E'; simplify_eq.
  specialize (H mz or os _ _ 0 1 _ eq_refl eq_refl 0). vm_compute in H. done.
Qed.
(** "upon exception *this is always uninitialized" does not hold of the representation for
    scalars: the value stays. *)
Lemma scalar_emplace_keeps : ~ (forall os rs w i w', trun [] os = Some (rs, w) -> texec (OEmplaceX i) w = TX XT w' ->
  exists w'', texec (OHas i) w' = TOk (VB false) w'').
Proof.
  intros H. destruct (H [ONewVal 5] [RetV (VI 0)] [Some (TCell true 5)] 0 [Some (TCell true 5)]) as [w'' Hw]; done.
Qed.
Lemma scalar_differs : ~ (forall os, fst <$> trun [] os = fst <$> orun id (ow0 []) os).
Proof. intros H. specialize (H [ONewVal 5; OEmplaceX 0; OHas 0]). vm_compute in H. done. Qed.
Lemma ex_scalar : no_throw [] d_opt /\ exists rs, fst <$> trun [] d_opt = Some rs.
Proof. split; [apply ex_no_throw|]. eexists. vm_compute. reflexivity. Qed.
