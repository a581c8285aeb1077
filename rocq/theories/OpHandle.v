(** * What the operations on handles leave in the variables: proofs *)
From Verif Require Export SpecHandle OpQuery.

Lemma written_none {A} (xs : list A) : written xs xs [].
Proof. intros x. reflexivity. Qed.
Lemma written_push {A} (xs : list A) r : written xs (xs ++ [r]) [(length xs, r)].
Proof.
  intros x. cbn. destruct (Nat.eqb_spec x (length xs)) as [->|Hn].
  - rewrite lookup_app_r, Nat.sub_diag by auto. reflexivity.
  - destruct (decide (x < length xs)) as [Hlt|Hge]; [apply lookup_app_l; auto|].
    rewrite !lookup_ge_None_2; [auto|lia|rewrite app_length; cbn; lia].
Qed.
Lemma written_alter {A} (f : A -> A) (xs : list A) y r : xs !! y = Some r -> written xs (alter f y xs) [(y, f r)].
Proof.
  intros Hy x. cbn. rewrite alter_lookup. destruct (Nat.eqb_spec x y) as [->|Hn].
  - rewrite decide_True by auto. rewrite Hy. reflexivity.
  - rewrite decide_False by auto. reflexivity.
Qed.
Lemma vop_step_any e w t fail v k st x o ef : w_thr w !! t = Some (FProg (Do (OVar v) k) :: st) -> exec_vop w t v = VOk x o ef ->
  exists w' D T, step e w t fail = SOk w' /\ dtorish D /\ (T = [] \/ exists l, T = [FTmp l]) /\ w_thr w' !! t = Some (D ++ FRet o :: T ++ FWait k :: st) /\
    w_vars w' = x /\ w_sigs w' = w_sigs w /\ w_vecs w' = w_vecs w /\ length (w_slots w') = length (w_slots w).
Proof.
  intros Ht Hx. destruct (step e w t fail) as [w'| | |] eqn:Hst.
  2-4: unfold step in Hst; rewrite Ht in Hst; cbn [lstep start_op] in Hst; rewrite Hx in Hst; destruct ef; discriminate.
  destruct (step_inv _ _ _ _ _ _ Hst Ht) as (w1 & st1 & D & L & _ & Hl & HD & HL & H1 & H2 & H3 & Hv & _ & Hthr).
  assert (HT : exists T, (T = [] \/ exists l, T = [FTmp l]) /\ st1 = FRet o :: T ++ FWait k :: st).
  { cbn [lstep start_op] in Hl. rewrite Hx in Hl. destruct ef as [|l b|ev]; injection Hl as <- <-; [exists []; auto|exists [FTmp l]; eauto|].
    destruct (held_cases w ev) as [Hh|(l & Hh & _)]; rewrite Hh; [exists []|exists [FTmp l]]; eauto. }
  destruct HT as (T & HT & ->). exists w', D, T. split; [reflexivity|]. split; [exact HD|]. split; [exact HT|]. rewrite H1, H2, H3, Hv, Hthr, list_lookup_insert by (eapply lookup_lt_Some; eauto).
  cbn [lstep start_op] in Hl. rewrite Hx in Hl. destruct ef; injection Hl as <- _; wcbn; repeat (split; [reflexivity|]); try reflexivity.
  apply alter_length.
Qed.
Lemma entry_app {A} x (us vs : list (nat * A)) : entry x (us ++ vs) = match entry x us with Some r => Some r | None => entry x vs end.
Proof. induction us as [|[y r] us IH]; cbn; [reflexivity|]. destruct (Nat.eqb x y); auto. Qed.
Lemma written_trans {A} (xs ys zs : list A) us vs : written xs ys us -> written ys zs vs -> written xs zs (vs ++ us).
Proof. intros H1 H2 x. rewrite entry_app, H2. destruct (entry x vs); [reflexivity|]. apply H1. Qed.
Ltac wr := first [apply written_none | apply written_push | match goal with H : _ !! _ = Some _ |- _ => exact (written_alter _ _ _ _ H) end].

Lemma handle_exec w t v cs bs us o : handle_op (w_vars w) v cs bs us o ->
  exists x ef, exec_vop w t v = VOk x o ef /\
    written (v_conns (w_vars w)) (v_conns x) cs /\ written (v_blks (w_vars w)) (v_blks x) bs /\ written (v_us (w_vars w)) (v_us x) us /\
    v_objs x = v_objs (w_vars w) /\ v_store x = v_store (w_vars w).
Proof.
  set (x0 := w_vars w).
  assert (Hc : forall c sc m, conn_is x0 c sc m -> get_conn x0 c = Some (ConnV true sc m)) by (unfold conn_is, get_conn; intros c sc m ->; reflexivity).
  assert (Hb : forall c m, blk_is x0 c m -> get_blk x0 c = Some (BlkV true m)) by (unfold blk_is, get_blk; intros c m ->; reflexivity).
  assert (Hu : forall c m, slot_is x0 c m -> get_us x0 c = Some (UsV true m)) by (unfold slot_is, get_us; intros c m ->; reflexivity).
  assert (Hpush2 : forall A (xs : list A) f y r r', xs !! y = Some r -> written xs (alter f y xs ++ [r']) [(length xs, r'); (y, f r)]).
  { intros A xs f y r r' Hy. apply (written_trans xs (alter f y xs) _ [(y, f r)] [(length xs, r')]); [apply written_alter; auto|].
    rewrite <- (alter_length f xs y). apply written_push. }
  assert (Hput2 : forall A (xs : list A) f g y z r r', xs !! y = Some r -> xs !! z = Some r' -> y <> z -> written xs (alter g z (alter f y xs)) [(z, g r'); (y, f r)]).
  { intros A xs f g y z r r' Hy Hz Hn. apply (written_trans xs (alter f y xs) _ [(y, f r)] [(z, g r')]); [apply written_alter; auto|].
    apply written_alter. rewrite alter_lookup, decide_False by auto. auto. }
  assert (Hswap : forall A (xs : list A) us vs ys, written xs ys us -> (forall x, entry x us = entry x vs) -> written xs ys vs).
  { intros A xs us0 vs ys H1 H2 x. rewrite <- H2. apply H1. }
  intros H; destruct H; unfold exec_vop; cbv zeta; fold x0;
    repeat match goal with
    | H : conn_is _ _ _ _ |- _ => pose proof (Hc _ _ _ H) as ?; unfold conn_is in H; revert H
    | H : blk_is _ _ _ |- _ => pose proof (Hb _ _ H) as ?; unfold blk_is in H; revert H
    | H : slot_is _ _ _ |- _ => pose proof (Hu _ _ H) as ?; unfold slot_is in H; revert H
    end; intros;
    repeat match goal with H : get_conn _ _ = _ |- _ => rewrite H; clear H | H : get_blk _ _ = _ |- _ => rewrite H; clear H | H : get_us _ _ = _ |- _ => rewrite H; clear H end;
    cbn [cn_slot cn_scoped bk_slot us_impl disc_res].
  all: try (eexists _, _; split; [reflexivity|]; cbn; repeat split; solve [wr | match goal with H : _ !! _ = Some _ |- _ => exact (Hpush2 _ _ _ _ _ _ H) end | reflexivity]).
  all: try (rewrite (bool_decide_eq_true_2 (_ = _)) by reflexivity).
  all: try (rewrite (bool_decide_eq_false_2 (_ = _)) by assumption).
  all: try (assert (Hn2 := not_eq_sym ltac:(eassumption))).
  all: try (eexists _, _; split; [reflexivity|]; cbn; repeat split; solve [wr | match goal with H : _ !! _ = Some _, H' : _ !! _ = Some _, Hn : _ <> _ |- _ => exact (Hput2 _ _ _ _ _ _ _ _ H H' Hn) end | reflexivity]).
  all: try (match goal with H : _ = false \/ _ = None |- _ => destruct H as [-> | ->]; [|destruct scd] end).
  all: try (eexists _, _; split; [reflexivity|]; cbn; repeat split; solve [wr | match goal with H : _ !! _ = Some _, H' : _ !! _ = Some _, Hn : _ <> _ |- _ => exact (Hput2 _ _ _ _ _ _ _ _ H H' Hn) end | reflexivity]).
  - assert (Hw := Hput2 _ _ (fun r => ConnV (cn_live r) (cn_scoped r) None) (fun r => ConnV (cn_live r) (cn_scoped r) m) _ _ _ _ H4 H Hn2). cbn in Hw.
    destruct scs; cbn; (eexists _, _; split; [reflexivity|]; cbn; repeat split; solve [wr | exact Hw | reflexivity]).
  - eexists _, _; split; [reflexivity|]; cbn; repeat split; try solve [wr | reflexivity].
    destruct (decide (c = d)) as [->|Hn].
    + rewrite H in H2. injection H2 as -> ->. intros y. cbn. rewrite !alter_lookup. destruct (Nat.eqb_spec y d) as [->|Hy]; [rewrite !decide_True by auto; rewrite H; reflexivity|rewrite !decide_False by auto; reflexivity].
    + eapply Hswap; [exact (Hput2 _ _ (fun r => ConnV (cn_live r) (cn_scoped r) md) (fun r => ConnV (cn_live r) (cn_scoped r) mc) _ _ _ _ H H2 Hn)|].
      intros y. cbn. destruct (Nat.eqb_spec y d), (Nat.eqb_spec y c); congruence.
  - assert (Hw := written_alter (fun r => ConnV false (cn_scoped r) None) _ _ _ H). cbn in Hw.
    match goal with H : _ = false \/ _ = None |- _ => destruct H as [-> | ->]; [|destruct sc] end;
      (eexists _, _; split; [reflexivity|]; cbn; repeat split; solve [wr | exact Hw | reflexivity]).
  - eexists _, _; split; [reflexivity|]; cbn; repeat split; try solve [wr | reflexivity].
    destruct (decide (b = c)) as [->|Hn].
    + rewrite H in *; simplify_eq. intros y. cbn. rewrite !alter_lookup. destruct (Nat.eqb_spec y c) as [->|Hy]; [rewrite !decide_True by auto; rewrite H; reflexivity|rewrite !decide_False by auto; reflexivity].
    + eapply Hswap; [exact (Hput2 _ _ (fun r => BlkV (bk_live r) mc) (fun r => BlkV (bk_live r) mb) _ _ _ _ H ltac:(eassumption) Hn)|].
      intros y. cbn. destruct (Nat.eqb_spec y c), (Nat.eqb_spec y b); congruence.
  - eexists _, _; split; [|repeat split; solve [wr | reflexivity]]. destruct m; reflexivity.
  - eexists _, _; split; [reflexivity|]; cbn; repeat split; try solve [wr | reflexivity].
    intros y. cbn. rewrite alter_lookup. case_decide; subst; [rewrite H|]; reflexivity.
  - eexists _, _; split; [reflexivity|]; cbn; repeat split; try solve [wr | reflexivity].
    intros y. cbn. rewrite alter_lookup. case_decide; subst; [rewrite H|]; reflexivity.
Qed.
Lemma handle_step e w t fail v k st cs bs us o : w_thr w !! t = Some (FProg (Do (OVar v) k) :: st) -> handle_op (w_vars w) v cs bs us o ->
  exists w' D T, step e w t fail = SOk w' /\ dtorish D /\ (T = [] \/ exists l, T = [FTmp l]) /\ w_thr w' !! t = Some (D ++ FRet o :: T ++ FWait k :: st) /\
    written (v_conns (w_vars w)) (v_conns (w_vars w')) cs /\ written (v_blks (w_vars w)) (v_blks (w_vars w')) bs /\
    written (v_us (w_vars w)) (v_us (w_vars w')) us /\
    v_objs (w_vars w') = v_objs (w_vars w) /\ v_store (w_vars w') = v_store (w_vars w) /\
    w_sigs w' = w_sigs w /\ w_vecs w' = w_vecs w /\ length (w_slots w') = length (w_slots w).
Proof.
  intros Ht Hh. destruct (handle_exec w t _ _ _ _ _ Hh) as (x & ef & Hx & H1 & H2 & H3 & H4 & H5).
  destruct (vop_step_any e w t fail v k st x o ef Ht Hx) as (w' & D & T & Hs & HD & HT & Hw & <- & Hr). exists w', D, T. auto 20.
Qed.

(** ** Assigning to a scoped connection that refers to a slot *)
Lemma scoped_copy_starts e w t fail d s l scs m k st w' : w_thr w !! t = Some (FProg (Do (OVar (VAssignCopy d s)) k) :: st) ->
  conn_is (w_vars w) d true (Some l) -> conn_is (w_vars w) s scs m -> step e w t fail = SOk w' ->
  w_vars w' = w_vars w /\
  exists D f, dtorish D /\ (f = FDisc l \/ f = FRet (OutBool false)) /\ w_thr w' !! t = Some (D ++ f :: FAssign d m l :: FWait k :: st).
Proof.
  intros Ht Hd Hs Hst. destruct (step_inv _ _ _ _ _ _ Hst Ht) as (w1 & st1 & D & L & Htr & Hls' & HD & HL & _ & _ & _ & Hv & _ & Hthr).
  pose proof (get_conn_live _ _ _ Hd eq_refl) as Hgd. pose proof (get_conn_live _ _ _ Hs eq_refl) as Hgs.
  unfold lstep, start_op, exec_vop, disc_res in Hls'. cbv zeta in Hls'. rewrite Hgd, Hgs in Hls'. cbn [cn_scoped cn_slot] in Hls'.
  rewrite Hthr, list_lookup_insert by (eapply lookup_lt_Some; eauto).
  destruct (slot_alive w l); simplify_eq; (split; [rewrite Hv; destruct w; reflexivity|]); eexists _, _; (split; [exact HD|]); (split; [|reflexivity]); auto.
Qed.
Lemma scoped_move_starts e w t fail d s l m k st w' : w_thr w !! t = Some (FProg (Do (OVar (VAssignMove d s)) k) :: st) ->
  conn_is (w_vars w) d true (Some l) -> conn_is (w_vars w) s false m -> step e w t fail = SOk w' ->
  written (v_conns (w_vars w)) (v_conns (w_vars w')) [(s, ConnV true false None)] /\
  exists D f, dtorish D /\ (f = FDisc l \/ f = FRet (OutBool false)) /\ w_thr w' !! t = Some (D ++ f :: FAssign d m l :: FWait k :: st).
Proof.
  intros Ht Hd Hs Hst. destruct (step_inv _ _ _ _ _ _ Hst Ht) as (w1 & st1 & D & L & Htr & Hls' & HD & HL & _ & _ & _ & Hv & _ & Hthr).
  pose proof (get_conn_live _ _ _ Hd eq_refl) as Hgd. pose proof (get_conn_live _ _ _ Hs eq_refl) as Hgs.
  unfold lstep, start_op, exec_vop, disc_res in Hls'. cbv zeta in Hls'. rewrite Hgd, Hgs in Hls'. cbn [cn_scoped cn_slot] in Hls'.
  rewrite Hthr, list_lookup_insert by (eapply lookup_lt_Some; eauto).
  assert (Hw := written_alter (fun r => ConnV (cn_live r) (cn_scoped r) None) _ _ _ Hs). cbn in Hw.
  destruct (slot_alive w l); simplify_eq; (split; [rewrite Hv; wcbn; exact Hw|]); eexists _, _; (split; [exact HD|]); (split; [|reflexivity]); auto.
Qed.
Lemma scoped_assign_ends e w t fail d m md l o st w' : w_thr w !! t = Some (FRet o :: FAssign d m l :: st) ->
  conn_is (w_vars w) d true md -> step e w t fail = SOk w' ->
  written (v_conns (w_vars w)) (v_conns (w_vars w')) [(d, ConnV true true m)] /\
  exists D, dtorish D /\ w_thr w' !! t = Some (D ++ FRet OutUnit :: st).
Proof.
  intros Ht Hd Hst. destruct (step_inv _ _ _ _ _ _ Hst Ht) as (w1 & st1 & D & L & Htr & Hls' & HD & HL & _ & _ & _ & Hv & _ & Hthr).
  inversion Htr; subst. wcbn_in Hv. rewrite Hv, Hthr, list_lookup_insert by (eapply lookup_lt_Some; eauto). split; [|eauto].
  exact (written_alter (fun r => ConnV (cn_live r) (cn_scoped r) m) _ _ _ Hd).
Qed.

(** ** slot::connected() on a slot object *)
Lemma slot_connected_step e w t fail u m k st : w_thr w !! t = Some (FProg (Do (OVar (VSlotConnected u)) k) :: st) -> slot_is (w_vars w) u m ->
  exists w' b, step e w t fail = SOk w' /\ completes w w' t k st (OutBool b) /\ w_vars w' = w_vars w /\ w_log w' = w_log w /\
    (b = true <-> exists i, m = Some i /\ im_conn i = true /\ (c_kind (im_c i) = KTracked -> obj_alive w (c_pv (im_c i)) = true)).
Proof.
  intros Ht Hu.
  assert (Hx : exec_vop w t (VSlotConnected u) = VOk (w_vars w) (OutBool (match m with Some i => impl_connected w i | None => false end)) EfNone).
  { unfold exec_vop, get_us. cbv zeta. unfold slot_is in Hu. rewrite Hu. reflexivity. }
  eexists _, _. split; [exact (vop_step e w t fail _ k st _ _ Ht Hx eq_refl)|]. split; [reflexivity|]. split; [reflexivity|]. split; [reflexivity|].
  destruct m as [i|]; [|split; [discriminate|intros (i & ? & _); discriminate]].
  unfold impl_connected, expired. rewrite andb_true_iff, negb_true_iff. split.
  - intros [H1 H2]. exists i. split; [auto|]. split; [auto|]. intros Hk. rewrite Hk in H1. apply negb_false_iff in H1. auto.
  - intros (i' & [= <-] & H1 & H2). split; [|auto]. destruct (c_kind (im_c i)); auto. rewrite H2 by auto. reflexivity.
Qed.

(** ** The flag of a tracked slot is read again once the object is locked *)
Lemma tracked_rechecked e ps w t fail l g a pin eid start st w' a' pin' eid' start' o : reachable e ps w ->
  w_thr w !! t = Some (FSlot (RSlot l) g a pin eid start :: st) -> step e w t fail = SOk w' ->
  w_thr w' !! t = Some (FSlot (RSlot l) SCall a' pin' eid' start' :: st) ->
  spec_tracks (w_log w) l = Some o ->
  spec_flag (w_log w) l = true /\ pin = Some o /\ spec_obj (w_log w) o = true /\
  a' = a /\ pin' = pin /\ eid' = eid /\ start' = start.
Proof.
  intros Hr Ht Hst Ht' Hk. destruct (step_inv _ _ _ _ _ _ Hst Ht) as (w1 & st1 & D & L & Htr & _ & HD & _ & _ & _ & _ & _ & _ & Hthr).
  rewrite Hthr, list_lookup_insert in Ht' by (eapply lookup_lt_Some; eauto). injection Ht' as Ht'.
  assert (D = []) as ->.
  { destruct D as [|f D]; [reflexivity|]. cbn in Ht'. injection Ht' as -> _. unfold dtorish in HD. rewrite Forall_cons in HD. destruct HD as [[[d H]|[p H]] _]; discriminate. }
  cbn in Ht'. subst st1. 
  pose proof (I_call_inv _ _ _ Hr _ _ Ht) as HF. rewrite Forall_cons in HF. destruct HF as [(_ & _ & _ & _ & _ & HP) _].
  inversion Htr; subst; try (match goal with H : _ :: _ = _ |- _ => discriminate H end).
  assert (Hi := ref_tracks _ _ _ _ _ Hr H13). destruct (ref_fields _ _ _ _ _ Hr H13) as (_ & Hf & _).
  inversion H14; subst.
  - exfalso. rewrite Hk in Hi. destruct (c_kind (im_c i)); congruence.
  - destruct HP as [HP _]. split; [congruence|]. split; [congruence|]. split; [|auto].
    destruct (I_obj_inv _ _ _ Hr) as [Ho _]. rewrite <- Ho. apply obj_alive_iff. right. eexists t, _, _. split; [exact Ht|]. split; [apply elem_of_list_here|].
    rewrite HP, Hk. cbn. apply bool_decide_eq_true_2. reflexivity.
Qed.

(** ** Concrete calls *)
Global Instance blkv_eq : EqDecision blkv. Proof. solve_decision. Defined.
Global Instance usv_eq : EqDecision usv. Proof. solve_decision. Defined.
Lemma about_to_state e p v P : match run e (init [p]) (upto e p (OVar v)) with inl w => about_to e w (OVar v) && P w | inr _ => false end = true ->
  exists w k st, reachable e [p] w /\ w_thr w !! 0 = Some (FProg (Do (OVar v) k) :: st) /\ P w = true.
Proof.
  destruct (run e (init [p]) (upto e p (OVar v))) as [w|] eqn:Hrun; [|intros H; discriminate H].
  rewrite andb_true_iff. intros [Ha HP]. unfold about_to, stack_is in Ha. apply andb_true_iff in Ha as [Ha _].
  destruct (w_thr w !! 0) as [st|] eqn:Ht; [|discriminate Ha]. destruct st as [|f st]; [discriminate Ha|]. destruct f; try discriminate Ha. match goal with H : context [FProg ?q] |- _ => rename q into q0 end.
  destruct q0 as [|o1 k]; [discriminate Ha|]. destruct st; [|discriminate Ha]. apply bool_decide_eq_true in Ha as ->.
  exists w, k, []. split; [exists (upto e p (OVar v)); exact Hrun|]. split; [exact Ht|exact HP].
Qed.
(** Connections 0 (plain, slot 0) and 1 (scoped, slot 1) are swapped, copied and assigned; blockers and slot objects are moved. *)
Definition h1_prog := seqp [ONewSignal None; OConnect 0 (SrcFn (fn 1)) false; OConnect 0 (SrcFn (fn 2)) true; OVar (VCopyConn 0 false); OVar (VSwap 0 1); OVar (VAssignCopy 2 1);
  OVar (VBlocker 0); OVar VBNew; OVar (VBAssign 1 0); OVar (VBSwap 0 1); OVar (VBDestroy 0);
  OVar (VSlotNew (fn 3)); OVar (VSlotBlock 0); OVar (VSlotCopy 0); OVar (VSlotUnblock 0); OVar (VSlotMove 1); OVar (VSlotBlocked 2); OVar (VSlotConnected 0); OVar (VAssignCopy 1 2); OEmit 0 []] OutUnit.
Lemma ex_C53_copy : exists w k st, reachable x2_env [h1_prog] w /\ w_thr w !! 0 = Some (FProg (Do (OVar (VCopyConn 0 false)) k) :: st) /\
  handle_op (w_vars w) (VCopyConn 0 false) [(2, ConnV true false (Some 0))] [] [] (OutId 2).
Proof.
  destruct (about_to_state x2_env h1_prog (VCopyConn 0 false) (fun w => bool_decide (v_conns (w_vars w) = [ConnV true false (Some 0); ConnV true true (Some 1)]))) as (w & k & st & Hr & Ht & HP);
    [vm_compute; reflexivity|]. apply bool_decide_eq_true in HP. exists w, k, st. split; [exact Hr|]. split; [exact Ht|].
  assert (Hl : length (v_conns (w_vars w)) = 2) by (rewrite HP; reflexivity). rewrite <- Hl. eapply HO_copy. unfold conn_is. rewrite HP. reflexivity.
Qed.
Lemma ex_C53_swap : exists w k st, reachable x2_env [h1_prog] w /\ w_thr w !! 0 = Some (FProg (Do (OVar (VSwap 0 1)) k) :: st) /\
  handle_op (w_vars w) (VSwap 0 1) [(0, ConnV true false (Some 1)); (1, ConnV true true (Some 0))] [] [] OutUnit.
Proof.
  destruct (about_to_state x2_env h1_prog (VSwap 0 1) (fun w => bool_decide (v_conns (w_vars w) = [ConnV true false (Some 0); ConnV true true (Some 1); ConnV true false (Some 0)]))) as (w & k & st & Hr & Ht & HP);
    [vm_compute; reflexivity|]. apply bool_decide_eq_true in HP. exists w, k, st. split; [exact Hr|]. split; [exact Ht|].
  eapply HO_swap; unfold conn_is; rewrite HP; reflexivity.
Qed.
Lemma ex_C53_blocker : exists w k st, reachable x2_env [h1_prog] w /\ w_thr w !! 0 = Some (FProg (Do (OVar (VBAssign 1 0)) k) :: st) /\
  handle_op (w_vars w) (VBAssign 1 0) [] [(1, BlkV true (Some 1)); (0, BlkV true None)] [] OutUnit.
Proof.
  destruct (about_to_state x2_env h1_prog (VBAssign 1 0) (fun w => bool_decide (v_blks (w_vars w) = [BlkV true (Some 1); BlkV true None]))) as (w & k & st & Hr & Ht & HP);
    [vm_compute; reflexivity|]. apply bool_decide_eq_true in HP. exists w, k, st. split; [exact Hr|]. split; [exact Ht|].
  eapply HO_bassign; [..|discriminate]; unfold blk_is; rewrite HP; reflexivity.
Qed.
Lemma ex_C53_slot : exists w k st, reachable x2_env [h1_prog] w /\ w_thr w !! 0 = Some (FProg (Do (OVar (VSlotCopy 0)) k) :: st) /\
  handle_op (w_vars w) (VSlotCopy 0) [] [] [(1, UsV true (Some (Impl (fn 3) 0 true true 0)))] (OutId 1).
Proof.
  destruct (about_to_state x2_env h1_prog (VSlotCopy 0) (fun w => bool_decide (v_us (w_vars w) = [UsV true (Some (Impl (fn 3) 0 true true 0))]))) as (w & k & st & Hr & Ht & HP);
    [vm_compute; reflexivity|]. apply bool_decide_eq_true in HP. exists w, k, st. split; [exact Hr|]. split; [exact Ht|].
  assert (Hl : length (v_us (w_vars w)) = 1) by (rewrite HP; reflexivity). rewrite <- Hl. eapply HO_scopy. unfold slot_is. rewrite HP. reflexivity.
Qed.
Lemma ex_C53_scoped : exists w k st, reachable x2_env [h1_prog] w /\ w_thr w !! 0 = Some (FProg (Do (OVar (VAssignCopy 1 2)) k) :: st) /\
  conn_is (w_vars w) 1 true (Some 0) /\ conn_is (w_vars w) 2 false (Some 0).
Proof.
  destruct (about_to_state x2_env h1_prog (VAssignCopy 1 2) (fun w => bool_decide (v_conns (w_vars w) !! 1 = Some (ConnV true true (Some 0))) && bool_decide (v_conns (w_vars w) !! 2 = Some (ConnV true false (Some 0))))) as (w & k & st & Hr & Ht & HP);
    [vm_compute; reflexivity|]. apply andb_true_iff in HP as [H1 H2]. apply bool_decide_eq_true in H1. apply bool_decide_eq_true in H2. exists w, k, st. auto.
Qed.
Lemma ex_C53_connected : exists w k st, reachable x2_env [h1_prog] w /\ w_thr w !! 0 = Some (FProg (Do (OVar (VSlotConnected 0)) k) :: st) /\
  slot_is (w_vars w) 0 (Some (Impl (fn 3) 0 true false 0)).
Proof.
  destruct (about_to_state x2_env h1_prog (VSlotConnected 0) (fun w => bool_decide (v_us (w_vars w) !! 0 = Some (UsV true (Some (Impl (fn 3) 0 true false 0)))))) as (w & k & st & Hr & Ht & HP);
    [vm_compute; reflexivity|]. apply bool_decide_eq_true in HP. exists w, k, st. auto.
Qed.
Definition h2_prog := seqp [ONewSignal None; OConnect 0 (SrcFn (fn 1)) false; OConnect 0 (SrcFn (fn 2)) true; OVar (VAssignMove 1 0); OEmit 0 []] OutUnit.
Lemma ex_C53_scoped_move : exists w k st, reachable x2_env [h2_prog] w /\ w_thr w !! 0 = Some (FProg (Do (OVar (VAssignMove 1 0)) k) :: st) /\
  conn_is (w_vars w) 1 true (Some 1) /\ conn_is (w_vars w) 0 false (Some 0).
Proof.
  destruct (about_to_state x2_env h2_prog (VAssignMove 1 0) (fun w => bool_decide (v_conns (w_vars w) !! 1 = Some (ConnV true true (Some 1))) && bool_decide (v_conns (w_vars w) !! 0 = Some (ConnV true false (Some 0))))) as (w & k & st & Hr & Ht & HP);
    [vm_compute; reflexivity|]. apply andb_true_iff in HP as [H1 H2]. apply bool_decide_eq_true in H1. apply bool_decide_eq_true in H2. exists w, k, st. auto.
Qed.
Lemma ex_C53_scoped_end : exists w, reachable x2_env [h2_prog] w /\
  stack_is w 0 (fun st => match st with [FRet _; FAssign 1 (Some 0) 1; FWait _] => true | _ => false end) && goes x2_env w 0 &&
  bool_decide (v_conns (w_vars w) !! 1 = Some (ConnV true true (Some 1))) && bool_decide (v_conns (w_vars w) !! 0 = Some (ConnV true false None)) = true.
Proof. by_state x2_env [h2_prog] (upto x2_env h2_prog (OVar (VAssignMove 1 0)) ++ one 7). Qed.

(** A slot that tracks object 0; another thread disconnects it. *)
Definition h3_prog := seqp [ONewSignal None; OVar VNewObj; OConnect 0 (SrcFn (trk 1 0)) false; OEmit 0 []] OutUnit.
Definition h3_other := seqp [OVar (VDisc 0)] OutUnit.
Lemma call_from_SCall e ps w t fail st w' r eid c args start : reachable e ps w ->
  w_thr w !! t = Some st -> step e w t fail = SOk w' -> ECall t r eid c args start ∈ w_log w' -> ECall t r eid c args start ∉ w_log w ->
  exists pin st0, st = FSlot r SCall args pin eid start :: st0.
Proof.
  intros Hr Ht Hst Hin Hout. destruct (step_inv _ _ _ _ _ _ Hst Ht) as (w1 & st1 & D & L & Htr & _ & _ & HL & _ & _ & _ & _ & Hlog & _).
  rewrite Hlog in Hin. apply elem_of_app in Hin as [Hin|Hin].
  { unfold deadish in HL. rewrite Forall_forall in HL. destruct (HL _ Hin) as [[? ?]|[? ?]]; discriminate. }
  inversion Htr; subst; wcbn_in Hin; autorewrite with wsimp in Hin; try (exfalso; apply Hout; exact Hin).
  all: repeat (apply elem_of_cons in Hin as [Hin|Hin]; [first [discriminate Hin|idtac]|first [exfalso; apply Hout; exact Hin|idtac]]).
  all: try discriminate Hin.
  all: try (injection Hin; intros; subst; eauto; fail).
  all: try (match goal with H : exec_vop _ _ _ = VOk _ _ (EfLog _) |- _ => apply vop_ev in H; exfalso; destruct H as [(? & H & _)|[(? & H & _)|[(? & H & _)|[(? & H & _)|(? & H & _)]]]]; congruence end).
  destruct (clear_conn_log w r0) as [Hc|(l & _ & Hc)]; rewrite Hc in Hin; [exfalso; apply Hout; exact Hin|].
  apply elem_of_cons in Hin as [Hin|Hin]; [discriminate Hin|exfalso; apply Hout; exact Hin].
Qed.
Lemma ex_C54 : exists w, reachable x2_env [h3_prog] w /\
  stack_is w 0 (fun st => match st with FSlot (RSlot 0) SPin [] (Some 0) (Some 0) _ :: _ => true | _ => false end) &&
  step_is x2_env w 0 (fun w' => stack_is w' 0 (fun st => match st with FSlot (RSlot 0) SCall [] (Some 0) (Some 0) _ :: _ => true | _ => false end)) &&
  bool_decide (spec_tracks (w_log w) 0 = Some 0) = true.
Proof. by_state x2_env [h3_prog] (one 19). Qed.
(** Between the first test of the flag and the second one the other thread disconnects. *)
Lemma ex_C54_race : exists w, reachable x2_env [h3_prog; h3_other] w /\
  occurs [EEmit 0 0 0 [] [0]; EDisc 1 0 true; ESkip 0 (RSlot 0) (Some 0) 5] (rev (w_log w)) = true /\ ECall 0 (RSlot 0) (Some 0) (trk 1 0) [] 5 ∉ w_log w.
Proof.
  destruct (run_world x2_env [h3_prog; h3_other] (one 19 ++ repeat (1, MOk) 20 ++ one 30)
    (fun w => occurs [EEmit 0 0 0 [] [0]; EDisc 1 0 true; ESkip 0 (RSlot 0) (Some 0) 5] (rev (w_log w)) &&
              bool_decide (ECall 0 (RSlot 0) (Some 0) (trk 1 0) [] 5 ∉ w_log w))) as (w & Hr & HP); [vm_compute; reflexivity|].
  apply andb_true_iff in HP as [H1 H2]. apply bool_decide_eq_true in H2. exists w. auto.
Qed.
