(** * The steps of the machine as a relation

    [trans e w t st w' st'] lists the ways [lstep] can succeed; it is only a
    device for case analysis, [lstep_trans] shows that nothing is missing. *)
From Verif Require Export Machine.

(** The operations that start by locking a signal. *)
Inductive begins (w : world) : op -> sid -> crit -> list frame -> Prop :=
| B_move s : begins w (OMoveSignal s) s KMove []
| B_conn s c sc : begins w (OConnect s (SrcFn c) sc) s (KAdd (new_impl c)) [FMkConn sc]
| B_conn_slot s u sc b i :
    get_us (w_vars w) u = Some (UsV b (Some i)) ->
    begins w (OConnect s (SrcSlot u) sc) s (KAdd i) [FMkConn sc]
| B_erase s c : begins w (OErase s (SrcFn c)) s (KErase (Some c)) []
| B_erase_slot s u x :
    get_us (w_vars w) u = Some x ->
    begins w (OErase s (SrcSlot u)) s (KErase (im_c <$> us_impl x)) []
| B_emit s args : begins w (OEmit s args) s (KRead args) [].

Inductive skips (w : world) (r : slotref) : stage -> Prop :=
| K_null g : get_ref w r = None -> skips w r g
| K_blk i : get_ref w r = Some i -> im_blk i = true -> skips w r SBlk
| K_exp i : get_ref w r = Some i -> expired w (im_c i) = true -> skips w r SExp
| K_conn i : get_ref w r = Some i -> im_conn i = false -> skips w r SConn
| K_pin i : get_ref w r = Some i -> im_conn i = false -> skips w r SPin.

Inductive advances (w : world) (r : slotref) (i : impl) : stage -> option oid -> stage -> option oid -> Prop :=
| A_blk pin : im_blk i = false -> advances w r i SBlk pin SExp pin
| A_exp pin : expired w (im_c i) = false -> advances w r i SExp pin SConn pin
| A_conn pin : im_conn i = true -> advances w r i SConn pin SDisp pin
| A_disp pin : c_kind (im_c i) <> KTracked -> advances w r i SDisp pin SCall pin
| A_pin pin : c_kind (im_c i) = KTracked -> obj_alive w (c_pv (im_c i)) = true ->
    advances w r i SDisp pin SPin (Some (c_pv (im_c i)))
| A_dead pin : c_kind (im_c i) = KTracked -> obj_alive w (c_pv (im_c i)) = false ->
    advances w r i SDisp pin SDead pin
| A_call pin : im_conn i = true -> advances w r i SPin pin SCall pin.

(** The operations that allocate before they lock. *)
Definition can_oom (o : op) : Prop :=
  match o with ONewSignal _ | OConnect _ _ _ | OErase _ _ => True | _ => False end.

Definition writes (k : crit) : Prop :=
  match k with KAdd _ | KRem _ | KErase _ => True | _ => False end.

Inductive trans (e : env) (w : world) (t : tid) : list frame -> world -> list frame -> Prop :=
| T_ret o st : trans e w t (FProg (Ret o) :: st) w (FRet o :: st)
| T_vok v k st x o :
    exec_vop w t v = VOk x o EfNone ->
    trans e w t (FProg (Do (OVar v) k) :: st) (w_set_vars w x) (FRet o :: FWait k :: st)
| T_vblk v k st x o l b :
    exec_vop w t v = VOk x o (EfBlk l b) ->
    trans e w t (FProg (Do (OVar v) k) :: st)
      (w_add_log (w_alter_slot (w_set_vars w x) l (im_set_blk b)) (EBlk l b)) (FRet o :: FTmp l :: FWait k :: st)
| T_vlog v k st x o ev :
    exec_vop w t v = VOk x o (EfLog ev) -> held w ev = [] ->
    trans e w t (FProg (Do (OVar v) k) :: st) (w_add_log (w_set_vars w x) ev) (FRet o :: FWait k :: st)
| T_vheld v k st x o ev l :
    exec_vop w t v = VOk x o (EfLog ev) -> held w ev = [FTmp l] ->
    trans e w t (FProg (Do (OVar v) k) :: st) (w_add_log (w_set_vars w x) ev) (FRet o :: FTmp l :: FWait k :: st)
| T_vdo v k st x l after :
    exec_vop w t v = VDo x l after -> slot_alive w l = true ->
    trans e w t (FProg (Do (OVar v) k) :: st) (w_set_vars w x) (FDisc l :: after ++ FWait k :: st)
| T_vdead v k st x l after :
    exec_vop w t v = VDo x l after -> slot_alive w l = false ->
    trans e w t (FProg (Do (OVar v) k) :: st) (w_add_log (w_set_vars w x) (EDisc t l false))
      (FRet (OutBool false) :: after ++ FWait k :: st)
| T_oom o k st : can_oom o -> trans e w t (FProg (Do o k) :: st) w (FRet oom :: FWait k :: st)
| T_new c k st :
    trans e w t (FProg (Do (ONewSignal c) k) :: st)
      (w_add_log (w_set_sigs (w_set_vecs w (w_vecs w ++ [[]]))
                   (w_sigs w ++ [SigRec true None (Some (length (w_vecs w))) false c]))
                 (ENewSig (length (w_sigs w)) c))
      (FRet (OutId (length (w_sigs w))) :: FWait k :: st)
| T_destroy s r k st :
    get_sig w s = Some r -> sg_lock r = None ->
    trans e w t (FProg (Do (ODestroySignal s) k) :: st)
      (w_add_log (w_alter_sig w s (sg_set_alive false)) (EDestroySig s)) (FRet OutUnit :: FWait k :: st)
| T_begin o k st s kk fr r :
    begins w o s kk fr -> get_sig w s = Some r ->
    trans e w t (FProg (Do o k) :: st) w (FLock s kk :: fr ++ FWait k :: st)
| T_emit_blocked s args k st r :
    get_sig w s = Some r -> sg_blocked r = true ->
    trans e w t (FProg (Do (OEmit s args) k) :: st) w (FRet (OutOpt None) :: FWait k :: st)
| T_slotcall u args k st x :
    get_us (w_vars w) u = Some x ->
    trans e w t (FProg (Do (OSlotCall u args) k) :: st) w
      (FSlot (RUser u) SBlk args None None (length (w_log w)) :: FCallRet :: FWait k :: st)
| T_sloteq a b k st x y :
    get_us (w_vars w) a = Some x -> get_us (w_vars w) b = Some y ->
    trans e w t (FProg (Do (OSlotEq a b) k) :: st) w
      (FProg (slot_eq e (im_c <$> us_impl x) (im_c <$> us_impl y)) :: FWait k :: st)
| T_selfget r k st i :
    ref_ok w r = true -> get_ref w r = Some i ->
    trans e w t (FProg (Do (OSelfGet r) k) :: st) (w_add_log w (EGet t r (im_st i))) (FRet (OutZ (im_st i)) :: FWait k :: st)
| T_selfset r z k st :
    ref_ok w r = true ->
    trans e w t (FProg (Do (OSelfSet r z) k) :: st) (w_add_log (alter_ref w r (im_set_st z)) (ESet t r z)) (FRet OutUnit :: FWait k :: st)
| T_deref pos k s eid v args st l :
    vec_of w v !! pos = Some l ->
    trans e w t (FProg (Do (ODeref pos) k) :: FEmit s eid v args :: st) w
      (FSlot (RSlot l) SBlk args None (Some eid) (length (w_log w)) :: FDeref k pos l :: FEmit s eid v args :: st)
| T_skip r g args pin eid start st :
    ref_ok w r = true -> skips w r g ->
    trans e w t (FSlot r g args pin eid start :: st) (w_add_log w (ESkip t r eid start))
      (FRet (OutCall (OutOpt None) args) :: st)
| T_dead r args pin eid start st i :
    ref_ok w r = true -> get_ref w r = Some i ->
    trans e w t (FSlot r SDead args pin eid start :: st) (w_add_log (clear_conn w r) (ESkip t r eid start))
      (FRet (OutCall (OutOpt None) args) :: st)
| T_adv r g args pin eid start st i g' pin' :
    ref_ok w r = true -> get_ref w r = Some i -> advances w r i g pin g' pin' ->
    trans e w t (FSlot r g args pin eid start :: st) w (FSlot r g' args pin' eid start :: st)
| T_call r args pin eid start st i :
    ref_ok w r = true -> get_ref w r = Some i ->
    trans e w t (FSlot r SCall args pin eid start :: st) (w_add_log w (ECall t r eid (im_c i) args start))
      (FProg (e_body e r (im_c i) args) :: FSlot r SRun (consume e (im_c i) args) pin eid start :: st)
| T_disc l st r :
    w_slots w !! l = Some r -> im_conn (sl_impl r) = true ->
    trans e w t (FDisc l :: st) (w_add_log (w_alter_slot w l (im_set_conn false)) (EFlag l))
      (FLock (sl_sig r) (KRem l) :: FRemRet l :: st)
| T_disc_false l st r :
    w_slots w !! l = Some r -> im_conn (sl_impl r) = false ->
    trans e w t (FDisc l :: st) (w_add_log w (EDisc t l false)) (FRet (OutBool false) :: st)
| T_lock s k st r :
    get_sig w s = Some r -> sg_lock r = None ->
    trans e w t (FLock s k :: st) (w_alter_sig w s (sg_set_lock (Some t))) (FWrite s k :: st)
| T_move s st r :
    w_sigs w !! s = Some r ->
    trans e w t (FWrite s KMove :: st)
      (w_add_log (w_set_sigs w (alter (sg_set_vec None) s (w_sigs w)
                                ++ [SigRec true None (sg_vec r) (sg_blocked r) (sg_comb r)]))
                 (EMoveSig s (length (w_sigs w))))
      (FUnlock s (OutId (length (w_sigs w))) :: st)
| T_read s args st r v :
    w_sigs w !! s = Some r -> sg_vec r = Some v ->
    trans e w t (FWrite s (KRead args) :: st)
      (w_add_log (w_set_neid (w_alter_sig w s (sg_set_lock None)) (S (w_neid w)))
                 (EEmit t (w_neid w) s args (vec_of w v)))
      (FProg (combiner e (sg_comb r) (length (vec_of w v))) :: FEmit s (w_neid w) v args :: st)
| T_write_oom s k st r v :
    w_sigs w !! s = Some r -> sg_vec r = Some v -> writes k -> (forall l, k <> KRem l) ->
    trans e w t (FWrite s k :: st) w (FUnlock s oom :: st)
| T_detach s k st r v :
    w_sigs w !! s = Some r -> sg_vec r = Some v -> writes k ->
    trans e w t (FWrite s k :: st)
      (w_alter_sig (w_set_vecs w (w_vecs w ++ [vec_of w v])) s (sg_set_vec (Some (length (w_vecs w)))))
      (FBody s (length (w_vecs w)) k :: st)
| T_nodetach s k st r v :
    w_sigs w !! s = Some r -> sg_vec r = Some v -> writes k -> use_count w v <= 1 ->
    trans e w t (FWrite s k :: st) w (FBody s v k :: st)
| T_add_oom s v i st : trans e w t (FBody s v (KAdd i) :: st) w (FUnlock s oom :: st)
| T_add s v i st :
    trans e w t (FBody s v (KAdd i) :: st)
      (w_add_log
         (w_set_slots (w_set_vec w v (vec_of w v ++ [length (w_slots w)]))
            (w_slots w ++ [SlotRec (im_set_idx (length (vec_of w v)) i) s]))
         (EConn t s (length (w_slots w)) (im_set_idx (length (vec_of w v)) i)))
      (FUnlock s (OutId (length (w_slots w))) :: st)
| T_rem s v l st r l' :
    w_slots w !! l = Some r -> vec_of w v !! im_idx (sl_impl r) = Some l' ->
    trans e w t (FBody s v (KRem l) :: st)
      (w_add_log (do_swap_pop w v (im_idx (sl_impl r))) (ERem t s l l')) (FUnlock s OutUnit :: st)
| T_remmiss s v l st r :
    w_slots w !! l = Some r -> vec_of w v !! im_idx (sl_impl r) = None ->
    trans e w t (FBody s v (KRem l) :: st) (w_add_log w (ERemMiss t s l)) (FUnlock s OutUnit :: st)
| T_erase s v tgt st :
    trans e w t (FBody s v (KErase tgt) :: st) w (FErase s v tgt 0 0 (vec_of w v) :: st)
| T_unlock s o st :
    trans e w t (FUnlock s o :: st) (w_alter_sig w s (sg_set_lock None)) (FRet o :: st)
| T_erase_end s v tgt i n xs0 st :
    vec_of w v !! i = None ->
    trans e w t (FErase s v tgt i n xs0 :: st)
      (w_add_log w (EErase t s tgt xs0 (vec_of w v) n)) (FUnlock s (OutNat n) :: st)
| T_erase_cmp s v tgt i n xs0 st l r :
    vec_of w v !! i = Some l -> w_slots w !! l = Some r ->
    trans e w t (FErase s v tgt i n xs0 :: st) w
      (FProg (slot_eq e (Some (im_c (sl_impl r))) tgt) :: FEraseCmp s v tgt i n xs0 :: st)
| T_wait o k st : trans e w t (FRet o :: FWait k :: st) w (FProg (k o) :: st)
| T_deref_ret r args' k pos l s eid v args st :
    trans e w t (FRet (OutCall r args') :: FDeref k pos l :: FEmit s eid v args :: st)
      (w_add_log w (EDeref t eid pos l r)) (FProg (k r) :: FEmit s eid v args' :: st)
| T_dtor o d st : (forall x, o <> OutExn x) -> trans e w t (FRet o :: FDtor d :: st) w st
| T_mkconn l sc st :
    trans e w t (FRet (OutId l) :: FMkConn sc :: st)
      (w_add_log (w_set_vars w (add_conn (w_vars w) (ConnV true sc (Some l))))
         (EHandle t l (length (v_conns (w_vars w)))))
      (FRet (OutId (length (v_conns (w_vars w)))) :: st)
| T_mkconn_no o sc st :
    (forall l, o <> OutId l) -> trans e w t (FRet o :: FMkConn sc :: st) w (FRet o :: st)
| T_assign o d m l st :
    trans e w t (FRet o :: FAssign d m l :: st)
      (w_add_log (w_set_vars w (put_conn (w_vars w) d m)) (EScoped t l)) (FRet OutUnit :: st)
| T_assignmv_self o d l st :
    trans e w t (FRet o :: FAssignMv d d l :: st) (w_add_log w (EScoped t l)) (FRet OutUnit :: st)
| T_assignmv o d s l st r :
    d <> s -> v_conns (w_vars w) !! s = Some r ->
    trans e w t (FRet o :: FAssignMv d s l :: st)
      (w_add_log (w_set_vars w (put_conn (put_conn (w_vars w) s None) d (cn_slot r))) (EScoped t l))
      (FRet OutUnit :: st)
| T_unit o l st : trans e w t (FRet o :: FUnit l :: st) (w_add_log w (EScoped t l)) (FRet OutUnit :: st)
| T_remret o l st :
    trans e w t (FRet o :: FRemRet l :: st) (w_add_log w (EDisc t l true)) (FRet (OutBool true) :: st)
| T_tmp o l st : trans e w t (FRet o :: FTmp l :: st) w (FRet o :: st)
| T_cmp_true s v tgt i n xs0 st l :
    vec_of w v !! i = Some l ->
    trans e w t (FRet (OutBool true) :: FEraseCmp s v tgt i n xs0 :: st)
      (w_add_log (do_swap_pop w v i) (EErased t s l)) (FErase s v tgt i (S n) xs0 :: st)
| T_cmp_false s v tgt i n xs0 st :
    trans e w t (FRet (OutBool false) :: FEraseCmp s v tgt i n xs0 :: st) w (FErase s v tgt (S i) n xs0 :: st)
| T_cmp_exn s v tgt i n xs0 st x :
    trans e w t (FRet (OutExn x) :: FEraseCmp s v tgt i n xs0 :: st)
      (w_add_log w (EEraseExn t s tgt xs0 (vec_of w v) x)) (FUnlock s (OutExn x) :: st)
| T_emitret o s eid v args st :
    trans e w t (FRet o :: FEmit s eid v args :: st) (w_add_log w (EEmitRet t eid o)) (FRet o :: st)
| T_slotret o o' r args pin eid start st :
    wrap e o = Some o' ->
    trans e w t (FRet o :: FSlot r SRun args pin eid start :: st) (w_add_log w (ERet t r eid o'))
      (FRet (OutCall o' args) :: st)
| T_callret r args st :
    trans e w t (FRet (OutCall r args) :: FCallRet :: st) w (FRet r :: st).

Ltac dm H := match type of H with
  | context [match ?x with _ => _ end] => destruct x eqn:?
  | context [if ?x then _ else _] => destruct x eqn:?
  end.

Lemma held_cases w ev : held w ev = [] \/ exists l, held w ev = [FTmp l] /\ slot_alive w l = true.
Proof. destruct ev; cbn; auto; destruct (slot_alive w l) eqn:?; eauto. Qed.

Lemma lstep_trans e w t fail st w' st' :
  lstep e w t fail st = LOk w' st' -> trans e w t st w' st'.
Proof.
  intros H. destruct st as [|f st]; [discriminate|].
  destruct f; cbn in H; try discriminate.
  - (* FRet *) destruct st as [|f st]; [discriminate|].
    destruct f; cbn in H; try discriminate; repeat (dm H; try discriminate); simplify_eq;
      try (econstructor; eauto; congruence).
    + case_bool_decide; [|discriminate]. subst. constructor.
    + case_bool_decide; [discriminate|]. econstructor; eauto.
  - (* FProg *) destruct p as [o|o k]; cbn in H.
    { simplify_eq. constructor. }
    destruct o; cbn in H; repeat (dm H; try discriminate); simplify_eq;
      try match goal with
        | |- trans _ _ _ _ (w_add_log _ ?ev) (_ :: held _ _ ++ _) =>
            destruct (held_cases w ev) as [Hh|(l & Hh & _)]; rewrite Hh; cbn; [eapply T_vlog|eapply T_vheld]; eauto; fail
        end;
      try (econstructor; eauto; exact I); try (econstructor; eauto; fail);
      try (eapply (T_begin _ _ _ _ _ _ _ _ []); [econstructor; eauto|eauto]; fail);
      try (eapply (T_begin _ _ _ _ _ _ _ _ [_]); [econstructor; eauto|eauto]; fail).
  - (* FDisc *) destruct (w_slots w !! l) as [r|] eqn:Hl; [|discriminate].
    destruct (im_conn (sl_impl r)) eqn:Hc; simplify_eq.
    + rewrite Hc. econstructor; eauto.
    + econstructor; eauto.
  - (* FLock *) repeat (dm H; try discriminate). simplify_eq. econstructor; eauto.
  - (* FWrite *) unfold step_write in H. repeat (dm H; try discriminate); simplify_eq;
      try (econstructor; eauto; cbn; eauto; try (intros; congruence); fail);
      eapply T_nodetach; eauto; cbn; eauto;
      match goal with H : (_ <? _) = false |- _ => apply Nat.ltb_ge in H; lia end.
  - (* FBody *) unfold step_body in H. repeat (dm H; try discriminate); simplify_eq;
      try (econstructor; eauto; fail).
  - (* FUnlock *) simplify_eq. constructor.
  - (* FErase *) destruct (vec_of w v !! i) as [l|] eqn:Hi.
    + destruct (w_slots w !! l) as [r|] eqn:Hl; [|discriminate].
      simplify_eq. eapply T_erase_cmp; eauto.
    + simplify_eq. eapply T_erase_end; eauto.
  - (* FSlot *) unfold step_slot, skip in H.
    repeat (dm H; try discriminate); simplify_eq;
      try (econstructor; eauto; fail);
      try (eapply T_skip; [assumption|econstructor; eauto; fail]);
      try (eapply T_adv; [assumption|eassumption|econstructor; eauto; congruence]).
Qed.

(** What a temporary of a query points to lives. *)
Lemma tmp_alive w ev l : held w ev = [FTmp l] -> slot_alive w l = true.
Proof. destruct ev; cbn; try discriminate; destruct (slot_alive w _) eqn:?; intros; simplify_eq; auto. Qed.
Lemma blk_alive w t v x o l b : exec_vop w t v = VOk x o (EfBlk l b) -> slot_alive w l = true.
Proof.
  unfold exec_vop, disc_res, blk_eff. intros H.
  destruct v; try discriminate; repeat (dm H; try discriminate); simplify_eq;
    match goal with Hw : wlock w _ = Some _ |- _ => unfold wlock in Hw; repeat case_match; simplify_eq; assumption end.
Qed.
