(** * The life of tracked objects: proof *)
From Verif Require Import InvDeath InvFields InvObj InvCall Facts ObjProof.
From Verif Require Export SpecObjLife LifeOnce.

(** ** Who holds an object *)
Definition pinning_obj (w : world) (t : tid) (o : oid) : Prop := exists st, w_thr w !! t = Some st /\ pins o st <> 0.
Lemma pins_zero o st : pins o st = 0 <-> forall f, f ∈ st -> frame_pins_obj o f = false.
Proof.
  unfold pins. induction st as [|f st IH]; [split; [intros _ f Hf; inversion Hf|reflexivity]|]. rewrite filter_cons. case_decide as E.
  - split; [discriminate|]. intros H. specialize (H f (elem_of_list_here _ _)). rewrite H in E. destruct E.
  - rewrite IH. split; intros H g Hg; [|apply H; right; auto]. apply elem_of_cons in Hg as [->|Hg]; [|auto]. destruct (frame_pins_obj o f); [exfalso; apply E; exact I|reflexivity].
Qed.
Lemma pins_iff o st : pins o st <> 0 <-> exists f, f ∈ st /\ frame_pins_obj o f = true.
Proof.
  rewrite pins_zero. split.
  - intros H. induction st as [|f st IH]; [exfalso; apply H; intros f Hf; inversion Hf|]. destruct (frame_pins_obj o f) eqn:E; [exists f; split; [left|auto]|].
    destruct IH as (g & Hg & Hp); [|exists g; split; [right; auto|auto]]. intros H'. apply H. intros g Hg. apply elem_of_cons in Hg as [->|Hg]; auto.
  - intros (f & Hf & Hp) H. rewrite (H f Hf) in Hp. discriminate.
Qed.
Lemma alive_obj w o : obj_alive w o = true <-> client_holds w o = true \/ exists t, pinning_obj w t o.
Proof.
  rewrite obj_alive_iff. unfold client_holds. f_equiv.
  - destruct (v_objs (w_vars w) !! o) as [[]|]; cbn; split; congruence.
  - split; [intros (t & st & f & Ht & Hf & Hp); exists t, st; split; [auto|apply pins_iff; eauto]|].
    intros (t & st & Ht & Hp). apply pins_iff in Hp as (f & Hf & Hp). eauto 6.
Qed.

Lemma gains_pin e w t st w' st' o f : trans e w t st w' st' -> f ∈ st' -> frame_pins_obj o f = true ->
  (exists g, g ∈ st /\ frame_pins_obj o g = true) \/
  (exists r a pin eid n k i, st = FSlot r SDisp a pin eid n :: k /\ ref_ok w r = true /\ get_ref w r = Some i /\ tracked i = Some o /\ obj_alive w o = true).
Proof.
  intros Htr Hf Hp. destruct f; try discriminate Hp. destruct pin as [o'|]; [|discriminate Hp]. cbn in Hp. apply bool_decide_eq_true in Hp. subst o'.
  assert (Hk : forall st0 : list frame, FSlot r g args (Some o) eid start ∈ st0 -> exists g : frame, g ∈ st0 /\ frame_pins_obj o g = true).
  { intros st0 H. eexists. split; [exact H|]. cbn. apply bool_decide_eq_true. reflexivity. }
  destruct Htr; repeat (apply elem_of_cons in Hf as [Hf|Hf]; [try discriminate Hf|]);
    try (left; apply Hk; rewrite ?elem_of_cons, ?elem_of_app, ?elem_of_cons; tauto).
  all: try (left; eexists; split; [left|injection Hf as <- <- <- <- <- <-; cbn; apply bool_decide_eq_true; reflexivity]; fail).
  - left. apply Hk. right. apply elem_of_app in Hf as [Hf|Hf]; [|apply elem_of_cons in Hf as [Hf|Hf]; [discriminate|exact Hf]].
    apply vop_after in H. rewrite Forall_forall in H. specialize (H _ Hf). contradiction.
  - left. apply Hk. right. apply elem_of_app in Hf as [Hf|Hf]; [|apply elem_of_cons in Hf as [Hf|Hf]; [discriminate|exact Hf]].
    apply vop_after in H. rewrite Forall_forall in H. specialize (H _ Hf). contradiction.
  - left. apply Hk. right. apply elem_of_app in Hf as [Hf|Hf]; [|apply elem_of_cons in Hf as [Hf|Hf]; [discriminate|exact Hf]].
    match goal with H : begins _ _ _ _ _ |- _ => apply begins_fr in H; rewrite Forall_forall in H; specialize (H _ Hf); contradiction end.
  - match goal with H : advances _ _ _ _ _ _ _ |- _ => destruct H end; injection Hf as -> -> -> Hpin -> ->; try subst pin;
      try (left; eexists; split; [left|cbn; apply bool_decide_eq_true; reflexivity]; fail).
    right. eexists _, _, _, _, _, _, _. split; [reflexivity|]. split; [eassumption|]. split; [eassumption|]. try (injection Hpin as ->); subst o. split; [|assumption].
    unfold tracked. match goal with H : c_kind _ = KTracked |- _ => rewrite H end. reflexivity.
  - left. injection Hf as -> -> -> <- -> ->. eexists. split; [left|]. cbn. apply bool_decide_eq_true. reflexivity.
Qed.

Lemma makes e w t st w' st' n : trans e w t st w' st' -> w_log w' = ENewObj n :: w_log w -> exists k r, st = FProg (Do (OVar VNewObj) k) :: r.
Proof.
  assert (Hno : forall (x : event) l, l = x :: l -> False) by (intros x l H; apply (f_equal length) in H; cbn in H; lia).
  assert (Hv : forall v x o, exec_vop w t v = VOk x o (EfLog (ENewObj n)) -> v = VNewObj).
  { intros v x o H. destruct v; auto; exfalso; revert H; unfold exec_vop, blk_eff; cbv zeta; repeat case_match; intros H'; try discriminate H'. all: unfold disc_res in H'; case_match; discriminate H'. }
  intros Htr H. destruct Htr; wcbn_in H; autorewrite with wsimp in H; try (injection H; discriminate); try (exfalso; eapply Hno; exact H; fail).
  all: try (exfalso; revert H; unfold clear_conn; repeat case_match; cbn; intros H; first [discriminate H|eapply Hno; exact H|injection H; intros; discriminate]; fail).
  all: injection H as ->; match goal with H : exec_vop _ _ _ = _ |- _ => rewrite (Hv _ _ _ H) end; eauto.
Qed.

(** A slot that tracks [o] did so before, or was connected in this step. *)
Lemma tracks_step e w t st w' st' l o : trans e w t st w' st' -> spec_tracks (w_log w') l = Some o ->
  spec_tracks (w_log w) l = Some o \/
  exists s v i k, st = FBody s v (KAdd i) :: k /\ l = length (w_slots w) /\ tracked i = Some o /\ length (w_slots w) < length (w_slots w').
Proof.
  intros Htr H. destruct Htr; wcbn_in H; autorewrite with wsimp in H; try (left; exact H).
  - left. apply vop_ev in H0 as [(?&->&_)|[(?&->&_)|[(?&->&_)|[(?&->&_)|(?&->&_)]]]]; exact H.
  - left. apply vop_ev in H0 as [(?&->&_)|[(?&->&_)|[(?&->&_)|[(?&->&_)|(?&->&_)]]]]; exact H.
  - left. revert H. unfold clear_conn. repeat case_match; intros H'; exact H'.
  - unfold spec_tracks in H. cbn in H. destruct (decide (length (w_slots w) = l)) as [<-|Hn]; [|left; exact H].
    right. exists s, v, i, st. split; [reflexivity|]. split; [reflexivity|]. split; [|wcbn; rewrite app_length; cbn; lia].
    unfold tracked. destruct i. exact H.
Qed.
Lemma tracks_dead L log l : deadish L -> spec_tracks (L ++ log) l = spec_tracks log l.
Proof. intros HL. unfold spec_tracks. rewrite conn0_dead by auto. reflexivity. Qed.

(** ** What a step does to the owners of objects *)
Inductive vkind (w w' : world) (st : list frame) : Prop :=
| VK_same : v_objs (w_vars w') = v_objs (w_vars w) -> vkind w w' st
| VK_new k r : st = FProg (Do (OVar VNewObj) k) :: r -> v_objs (w_vars w') = v_objs (w_vars w) ++ [true] -> vkind w w' st
| VK_reset o k r : st = FProg (Do (OVar (VResetObj o)) k) :: r -> v_objs (w_vars w) !! o = Some true ->
    v_objs (w_vars w') = <[o := false]> (v_objs (w_vars w)) -> vkind w w' st.

Lemma owners e ps w t fail st w' : reachable e ps w -> w_thr w !! t = Some st -> step e w t fail = SOk w' ->
  exists st' new, w_thr w' = <[t := st']> (w_thr w) /\ w_log w' = new ++ w_log w /\ vkind w w' st /\
    (forall o, pins o st' <> 0 -> pins o st <> 0 \/
      exists r a pin eid n k i, st = FSlot r SDisp a pin eid n :: k /\ ref_ok w r = true /\ get_ref w r = Some i /\ tracked i = Some o /\ obj_alive w o = true) /\
    (forall l o, spec_tracks (w_log w') l = Some o -> spec_tracks (w_log w) l = Some o \/
      exists s v i k, st = FBody s v (KAdd i) :: k /\ l = length (w_slots w) /\ tracked i = Some o /\ length (w_slots w) < length (w_slots w')).
Proof.
  intros Hr Ht Hs. destruct (step_inv _ _ _ _ _ _ Hs Ht) as (w1 & st1 & D & L & Htr & _ & HD & HL & _ & _ & Esl & Eva & Elog & Ethr).
  destruct (trans_log_app _ _ _ _ _ _ Htr) as [new Enew]. exists (D ++ st1), (L ++ new). split; [exact Ethr|]. split; [rewrite Elog, Enew, app_assoc; reflexivity|]. split; [|split].
  - destruct (trans_objs _ _ _ _ _ _ Htr) as [[He _]|[[He Hl]|(ob & Hob & He & Hl)]].
    + apply VK_same. congruence.
    + destruct (makes _ _ _ _ _ _ _ Htr Hl) as (k & r & ->). eapply VK_new; [reflexivity|congruence].
    + destruct (resets _ _ _ _ _ _ _ Htr Hl) as (k & r & ->). eapply VK_reset; [reflexivity|eauto|congruence].
  - intros o Hp. apply pins_iff in Hp as (f & Hf & Hp). apply elem_of_app in Hf as [Hf|Hf].
    + exfalso. unfold dtorish in HD. rewrite Forall_forall in HD. destruct (HD _ Hf) as [[d ->]|[p ->]]; discriminate.
    + destruct (gains_pin _ _ _ _ _ _ _ _ Htr Hf Hp) as [H|H]; [left; apply pins_iff; exact H|right; exact H].
  - intros l o H. rewrite Elog, tracks_dead in H by auto. destruct (tracks_step _ _ _ _ _ _ _ _ Htr H) as [H'|(s & v & i & k & H1 & H2 & H3 & H4)]; [auto|].
    right. exists s, v, i, k. rewrite Esl. auto.
Qed.

(** ** Locations *)
Lemma all_acts_obj w t st w' o : Rd (LObj o) ∉ all_acts w t st w' /\ Wr (LObj o) ∉ all_acts w t st w'.
Proof.
  assert (H : forall b : bool, (if b then Wr (LObj o) else Rd (LObj o)) ∉ all_acts w t st w'); [|split; [apply (H false)|apply (H true)]].
  intros b Hi. unfold all_acts in Hi. rewrite !elem_of_app in Hi. destruct Hi as [Hi|[Hi|Hi]].
  - unfold slot_uses, last_slot, nth_slot in Hi. destruct b; repeat case_match; rewrite ?elem_of_app, ?elem_of_cons, ?elem_of_nil in Hi; destruct_or?; simplify_eq; contradiction.
  - destruct (acts_off w t st w' (LObj o) I). destruct b; contradiction.
  - apply drops_in in Hi as (l & _ & _ & H). destruct b; destruct_or?; destruct_and?; discriminate.
Qed.
Lemma uses_in w st w' a : a ∈ obj_uses w st w' ->
  (exists o, a = Rd (LObj o) /\ pins o st <> 0) \/ (exists o, a = Acq (YGive o)) \/
  (exists k r, st = FProg (Do (OVar VNewObj) k) :: r /\ length (v_objs (w_vars w)) < length (v_objs (w_vars w')) /\
     (a = Wr (LObj (length (v_objs (w_vars w)))) \/ a = Rel (YGive (length (v_objs (w_vars w)))))).
Proof.
  unfold obj_uses. rewrite elem_of_app. intros [H|H].
  - right. unfold client_uses in H. repeat case_match; rewrite ?elem_of_cons, ?elem_of_nil in H; destruct_or?; simplify_eq; try contradiction; eauto 8.
    all: right; match goal with H : (_ <? _) = true |- _ => apply Nat.ltb_lt in H end; eauto 8.
  - left. rewrite elem_of_list_In, in_flat_map in H. destruct H as (f & Hf & H). apply elem_of_list_In in H, Hf.
    destruct f; cbn in H; try (inversion H; fail). destruct g; try (inversion H; fail); destruct pin as [o|]; try (inversion H; fail);
      (apply elem_of_list_singleton in H as ->; exists o; split; [reflexivity|]; apply pins_iff; eexists; split; [exact Hf|]; cbn; apply bool_decide_eq_true; reflexivity).
Qed.
Lemma odrops_in w t st w' a : a ∈ obj_drops w t st w' -> exists o, o < length (v_objs (w_vars w)) /\ gives_up_obj w t st w' o = true /\
  (a = Acq (YObj o) \/ a = Rel (YObj o) \/ (a = Wr (LObj o) /\ obj_alive w' o = false)).
Proof.
  unfold obj_drops. rewrite elem_of_list_In, in_flat_map. intros (o & Hl & Ha). apply in_seq in Hl. apply elem_of_list_In in Ha. exists o. split; [lia|].
  unfold drop_obj in Ha. destruct (gives_up_obj w t st w' o); [|inversion Ha]. split; [auto|].
  destruct (obj_alive w' o) eqn:E; rewrite ?elem_of_app, ?elem_of_cons, ?elem_of_nil in Ha; destruct_or?; try contradiction; auto.
Qed.
Lemma given_up_alive w t st w' o : w_thr w !! t = Some st -> gives_up_obj w t st w' o = true -> obj_alive w o = true.
Proof.
  intros Ht H. apply alive_obj. unfold gives_up_obj in H. apply orb_true_iff in H as [H|H].
  - right. exists t, st. split; [auto|]. apply Nat.ltb_lt in H. lia.
  - left. apply andb_true_iff in H. tauto.
Qed.
Lemma gives_up_unpin w t st w' st' o : w_thr w !! t = Some st -> w_thr w' = <[t := st']> (w_thr w) -> pins o st <> 0 -> pins o st' = 0 -> gives_up_obj w t st w' o = true.
Proof.
  intros Ht Et H1 H2. unfold gives_up_obj. apply orb_true_iff. left. apply Nat.ltb_lt. rewrite Et, list_lookup_insert by (eapply lookup_lt_Some; eauto).
  change (default [] (Some st')) with st'. lia.
Qed.

Lemma dying w w' t st st' o : w_thr w !! t = Some st -> w_thr w' = <[t := st']> (w_thr w) -> obj_alive w o = true -> obj_alive w' o = false -> gives_up_obj w t st w' o = true.
Proof.
  intros Ht Et Ha Hd. assert (Hc : client_holds w' o = false) by (destruct (client_holds w' o) eqn:E; [|reflexivity]; assert (obj_alive w' o = true) by (apply alive_obj; auto); congruence).
  assert (Hp : forall u, ~ pinning_obj w' u o) by (intros u Hu; assert (obj_alive w' o = true) by (apply alive_obj; eauto); congruence).
  apply alive_obj in Ha as [Ha|(u & x & Hx & Hpin)].
  - unfold gives_up_obj. rewrite Ha, Hc. apply orb_true_iff. auto.
  - destruct (decide (u = t)) as [->|Hn].
    + rewrite Ht in Hx. injection Hx as <-. eapply gives_up_unpin; eauto. destruct (decide (pins o st' = 0)) as [|Hz]; [auto|]. exfalso. apply (Hp t). exists st'. split; [|auto].
      rewrite Et. apply list_lookup_insert. eapply lookup_lt_Some; eauto.
    + exfalso. apply (Hp u). exists x. rewrite Et, list_lookup_insert_ne by auto. auto.
Qed.

Section order.
Context (sw : act -> act -> Prop) (uses : Prop).
Context (Hlock : forall s, sw (Rel (YLock s)) (Acq (YLock s))).
Context (Hcount : forall v, sw (Rel (YCount v)) (Acq (YCount v))).
Context (Huse : uses -> forall v, sw (Rel (YCount v)) (Use v)).
Context (Hslot : forall l, sw (Rel (YSlot l)) (Acq (YSlot l))).
Context (Hhand : forall l, sw (Rel (YHand l)) (Acq (YHand l))).
Context (Hobj : forall o, sw (Rel (YObj o)) (Acq (YObj o))).
Context (Hgive : forall o, sw (Rel (YGive o)) (Acq (YGive o))).
Notation hb := (hb sw).
Notation acc := accesses.
Notation known := (RaceProof.known sw).
Notation publ := (RaceProof.publ sw).
Notation Inv := (RaceProof.Inv sw uses).
Notation Life := (Life sw uses).

Lemma odrops_publ w t st w' o tr i : o < length (v_objs (w_vars w)) -> gives_up_obj w t st w' o = true -> known tr t i ->
  publ (tr ++ blk t (obj_drops w t st w')) (YObj o) i.
Proof.
  intros Hl Hg Hk. unfold obj_drops. replace (length (v_objs (w_vars w))) with (o + S (length (v_objs (w_vars w)) - S o)) by lia.
  rewrite seq_app, flat_map_app. cbn [seq flat_map]. rewrite blk_app, Nat.add_0_l, blk_app. apply publ_mono.
  unfold drop_obj at 2. rewrite Hg.
  change ([Acq (YObj o); Rel (YObj o)]) with ([Acq (YObj o)] ++ [Rel (YObj o)]). rewrite !blk_app. apply publ_mono, known_publ, known_mono, known_mono. auto.
Qed.

(** More actions, none of them on slot objects. *)
Lemma life_ext w tr t as_ : Life w tr -> (forall l (b : bool), (if b then Wr (LSlot l) else Rd (LSlot l)) ∉ as_) -> Life w (tr ++ blk t as_).
Proof.
  intros HL Hno. assert (Hacc : forall i l b, acc (tr ++ blk t as_) i (LSlot l) b -> acc tr i (LSlot l) b) by (intros i l b; apply acc_left; auto).
  split.
  - intros i l b H. eapply (L_ok _ _ _ _ HL). eauto.
  - intros i l H Ha. apply publ_mono. apply (L_hand _ _ _ _ HL); eauto.
  - intros i l h H Hh. apply knows_mono. eapply (L_made _ _ _ _ HL); eauto.
  - intros i l b H Ha Hf. apply U_mono. eapply (L_use _ _ _ _ HL); eauto.
  - apply ordered_blk; [apply (L_ord _ _ _ _ HL)|]. intros l b Hin. exfalso. eapply Hno; eauto.
Qed.

(** ** Order *)
Definition oordered (P : oid -> Prop) (tr : list (tid * act)) : Prop :=
  forall i j o a b, i < j -> acc tr i (LObj o) a -> acc tr j (LObj o) b -> a = true \/ b = true -> b = true \/ P o -> hb tr i j.
Lemma oordered_snoc P tr t a : oordered P tr ->
  (forall o (b : bool), a = (if b then Wr (LObj o) else Rd (LObj o)) -> forall i a', acc tr i (LObj o) a' -> a' = true \/ b = true -> b = true \/ P o -> known tr t i) ->
  oordered P (tr ++ [(t, a)]).
Proof.
  intros Hg Ha i j o x y Hlt [u Hi] [u' Hj] Hc Hc'.
  assert (Hjl : j < length (tr ++ [(t, a)])) by (eapply lookup_lt_Some; eauto). rewrite app_length in Hjl. cbn in Hjl.
  destruct (decide (j < length tr)) as [Hj'|Hj'].
  - rewrite lookup_app_l in Hi, Hj by lia. apply hb_mono. eapply Hg; [exact Hlt| | |exact Hc|exact Hc']; eexists; eauto.
  - assert (j = length tr) as -> by lia. rewrite lookup_app_l in Hi by lia.
    rewrite lookup_app_r, Nat.sub_diag in Hj by lia. cbn in Hj. injection Hj as <- Hj. apply known_hb.
    eapply Ha; [exact Hj|eexists; exact Hi|exact Hc|exact Hc'].
Qed.
Lemma oordered_blk P tr t as_ : oordered P tr ->
  (forall o (b : bool), (if b then Wr (LObj o) else Rd (LObj o)) ∈ as_ -> forall i a', acc tr i (LObj o) a' -> a' = true \/ b = true -> b = true \/ P o -> known tr t i) ->
  oordered P (tr ++ blk t as_).
Proof.
  revert tr. induction as_ as [|a as_ IH]; intros tr Hg Ha; [rewrite app_nil_r; exact Hg|].
  rewrite blk_cons. apply IH.
  - apply oordered_snoc; [exact Hg|]. intros o b ->. apply Ha. apply elem_of_list_here.
  - intros o b Hin i a' Hi Hc Hc'. change [(t, a)] with (blk t [a]) in *. apply (acc_app sw) in Hi as [Hi|[_ Hk]]; [|exact Hk].
    apply known_mono. eapply Ha; [apply elem_of_list_further; exact Hin|exact Hi|exact Hc|exact Hc'].
Qed.

(** ** The invariant *)
Notation first w := (made_before_connected (w_log w)).
Record Objs (w : world) (tr : list (tid * act)) : Prop := {
  O_ok : forall i o b, acc tr i (LObj o) b -> o < length (v_objs (w_vars w));
  O_give : forall i o, acc tr i (LObj o) true -> obj_alive w o = true -> publ tr (YGive o) i;
  O_made : forall i o, acc tr i (LObj o) true -> obj_alive w o = true -> client_holds w o = true \/ publ tr (YObj o) i;
  O_use : forall i o, acc tr i (LObj o) false -> obj_alive w o = true -> publ tr (YObj o) i \/ exists u, pinning_obj w u o /\ known tr u i;
  O_slot : forall i o l, acc tr i (LObj o) true -> obj_alive w o = true -> first w o -> spec_tracks (w_log w) l = Some o ->
    exists k, acc tr k (LSlot l) true /\ hb tr i k;
  O_pin : forall i o u, acc tr i (LObj o) true -> first w o -> pinning_obj w u o -> known tr u i;
  O_ord : oordered (fun o => first w o) tr }.

Lemma objs_init ps : Objs (init ps) [].
Proof.
  assert (Hno : forall i l b, ~ accesses [] i l b) by (intros i l b (t & Hi); discriminate).
  split; intros; try (exfalso; eapply Hno; eauto; fail).
  intros i j l a b _ Hi. exfalso. eapply Hno; eauto.
Qed.

Lemma known_all tr t i as_ a : known tr t i -> a ∈ as_ -> exists k, (tr ++ blk t as_) !! k = Some (t, a) /\ hb (tr ++ blk t as_) i k.
Proof.
  intros Hk Ha. apply elem_of_list_split in Ha as (a1 & a2 & ->). rewrite blk_app, blk_cons. exists (length (tr ++ blk t a1)). split.
  - apply lookup_app_l_Some. rewrite lookup_app_r, Nat.sub_diag by lia. reflexivity.
  - apply hb_mono, known_hb, known_mono. auto.
Qed.
Lemma known_trans tr t i k : hb tr i k -> known tr t k -> known tr t i.
Proof. intros H (j & a & Hj & [->|Hk]); exists j, a; (split; [exact Hj|right]); [exact H|eapply HB_trans; eauto]. Qed.

Lemma objs_step e ps w tr t fail st w' : reachable e ps w -> Inv w tr -> Life w tr -> Objs w tr -> w_thr w !! t = Some st -> step e w t fail = SOk w' ->
  Inv w' (tr ++ blk t (full_acts w t st w')) /\ Life w' (tr ++ blk t (full_acts w t st w')) /\ Objs w' (tr ++ blk t (full_acts w t st w')).
Proof.
  intros Hr HI HL HO Ht Hs. assert (Hr' : reachable e ps w') by (eapply reachable_step; eauto).
  destruct (owners _ _ _ _ _ _ _ Hr Ht Hs) as (st' & new & Ethr & Elog & Hv & Hgain & Htrk).
  assert (Ht' : w_thr w' !! t = Some st') by (rewrite Ethr; apply list_lookup_insert; eapply lookup_lt_Some; eauto).
  unfold full_acts. rewrite !blk_app.
  set (tr0 := tr ++ blk t (obj_uses w st w')). set (tr1 := tr0 ++ blk t (all_acts w t st w')). set (tr2 := tr1 ++ blk t (obj_drops w t st w')).
  assert (HI0 : Inv w tr0).
  { eapply inv_ext; eauto.
    - intros v a Ha ->. apply uses_in in Ha as [(o & ? & _)|[(o & ?)|(k & r & _ & _ & [?|?])]]; discriminate.
    - intros a Ha. apply uses_in in Ha as [(o & -> & _)|[(o & ->)|(k & r & _ & _ & [->| ->])]]; exact I. }
  assert (HL0 : Life w tr0).
  { apply life_ext; [auto|]. intros l b Ha. apply uses_in in Ha as [(o & E & _)|[(o & E)|(k & r & _ & _ & [E|E])]]; destruct b; discriminate. }
  destruct (life_step sw uses Hlock Hcount Huse Hslot Hhand _ _ _ _ _ _ _ _ Hr HI0 HL0 Ht Hs) as [HI1 HL1]. fold tr1 in HI1, HL1.
  split; [|split].
  { eapply inv_ext; eauto.
    - intros v a Ha ->. apply odrops_in in Ha as (l & _ & _ & [?|[?|[? _]]]); discriminate.
    - intros a Ha. apply odrops_in in Ha as (l & _ & _ & [->|[->|[-> _]]]); exact I. }
  { apply life_ext; [auto|]. intros l b Ha. apply odrops_in in Ha as (o & _ & _ & [E|[E|[E _]]]); destruct b; discriminate. }
  pose proof (I_obj_inv _ _ _ Hr) as [_ Hbound].
  (* owners *)
  assert (Hother : forall u o, u <> t -> pinning_obj w' u o <-> pinning_obj w u o).
  { intros u o Hn. unfold pinning_obj. rewrite Ethr, list_lookup_insert_ne by auto. reflexivity. }
  assert (Hmine : forall o, pinning_obj w' t o <-> pins o st' <> 0).
  { intros o. split; [intros (x & Hx & Hp); congruence|exists st'; auto]. }
  assert (Hmine0 : forall o, pinning_obj w t o <-> pins o st <> 0).
  { intros o. split; [intros (x & Hx & Hp); congruence|exists st; auto]. }
  assert (Hcl : forall o, o < length (v_objs (w_vars w)) -> client_holds w' o = true -> client_holds w o = true).
  { intros o Ho. unfold client_holds. destruct Hv as [E|k r _ E|o' k r _ Ho' E]; rewrite E; [auto| |].
    - rewrite lookup_app_l by auto. auto.
    - destruct (decide (o' = o)) as [->|Hn]; [rewrite list_lookup_insert by auto; discriminate|rewrite list_lookup_insert_ne by auto; auto]. }
  assert (Hback : forall o, o < length (v_objs (w_vars w)) -> obj_alive w' o = true -> obj_alive w o = true).
  { intros o Ho Ha. apply alive_obj in Ha as [Ha|(u & Hu)]; [apply alive_obj; left; auto|].
    destruct (decide (u = t)) as [->|Hn]; [|apply alive_obj; right; exists u; apply Hother; auto].
    apply Hmine, Hgain in Hu as [Hu|(r & a & pin & eid & n & k & i & _ & _ & _ & _ & Hal)]; [|auto]. apply alive_obj. right. exists t. apply Hmine0. auto. }
  assert (Hreset : forall o, client_holds w o = true -> client_holds w' o = false -> Acq (YGive o) ∈ obj_uses w st w' /\ gives_up_obj w t st w' o = true).
  { intros o H1 H2. split; [|unfold gives_up_obj; rewrite H1, H2; apply orb_true_iff; auto].
    revert H1 H2. unfold client_holds. destruct Hv as [E|k r _ E|o' k r Est Ho' E]; rewrite E; [congruence| |].
    - intros H1 H2. assert (Hlt : o < length (v_objs (w_vars w))) by (destruct (v_objs (w_vars w) !! o) eqn:E'; [eapply lookup_lt_Some; eauto|discriminate]). rewrite lookup_app_l in H2 by auto. congruence.
    - destruct (decide (o' = o)) as [->|Hn]; [intros _ _|rewrite list_lookup_insert_ne by auto; congruence].
      rewrite Est. apply elem_of_app. left. left. }
  assert (Hlen : length (v_objs (w_vars w)) <= length (v_objs (w_vars w'))).
  { destruct Hv as [E|k r _ E|o' k r _ Ho' E]; rewrite E; rewrite ?app_length, ?insert_length; lia. }
  assert (Hfirst : forall o, first w' o -> first w o).
  { intros o H post ev pre E. apply (H (new ++ post) ev pre). rewrite Elog, E, app_assoc. reflexivity. }
  (* accesses after the step *)
  assert (Hacc0 : forall i o b, acc tr0 i (LObj o) b -> acc tr i (LObj o) b \/
    (known tr0 t i /\ ((b = false /\ pins o st <> 0) \/ (b = true /\ o = length (v_objs (w_vars w)) /\ o < length (v_objs (w_vars w')) /\ exists k r, st = FProg (Do (OVar VNewObj) k) :: r)))).
  { intros i o b H. apply (acc_app sw) in H as [H|[H Hk]]; [auto|]. right. split; [auto|].
    apply uses_in in H as [(o' & E & Hp)|[(o' & E)|(k & r & Est & Hlt & [E|E])]]; destruct b; try discriminate; injection E as ->; [left; auto|right]. split; [auto|]. split; [auto|]. split; [auto|]. exists k, r. exact Est. }
  assert (Hacc1 : forall i o b, acc tr1 i (LObj o) b -> acc tr0 i (LObj o) b).
  { intros i o b H. apply (acc_app sw) in H as [H|[H _]]; [auto|]. exfalso. destruct (all_acts_obj w t st w' o). destruct b; contradiction. }
  assert (Hacc2 : forall i o b, acc tr2 i (LObj o) b -> acc tr1 i (LObj o) b \/ (b = true /\ o < length (v_objs (w_vars w)) /\ obj_alive w' o = false)).
  { intros i o b H. apply (acc_app sw) in H as [H|[H _]]; [auto|]. right. apply odrops_in in H as (o' & H1 & H2 & H3).
    destruct b; destruct H3 as [?|[?|[? ?]]]; simplify_eq; auto. }
  assert (Hpb : forall o u, pinning_obj w u o -> o < length (v_objs (w_vars w))).
  { intros o u Hp. apply Hbound, alive_obj. eauto. }
  (* a thread that pins keeps what it knows, or publishes it *)
  assert (Hpins : forall o i, pins o st <> 0 -> known tr0 t i -> publ tr2 (YObj o) i \/ exists u, pinning_obj w' u o /\ known tr2 u i).
  { intros o i Hp Hk. destruct (decide (pins o st' = 0)) as [Hz|Hz].
    - left. apply odrops_publ; [eapply (Hpb o t); apply Hmine0; auto|eapply gives_up_unpin; eauto|apply known_mono; auto].
    - right. exists t. split; [apply Hmine; auto|]. do 2 apply known_mono. auto. }
  split.
  - (* O_ok *) intros i o b H. apply Hacc2 in H as [H|(_ & H & _)]; [|lia]. apply Hacc1, Hacc0 in H as [H|[_ [[_ H]|(_ & -> & H & _)]]].
    + apply (O_ok _ _ HO) in H. lia.
    + apply Hmine0, Hpb in H. lia.
    + auto.
  - (* O_give *) intros i o H Ha. apply Hacc2 in H as [H|(_ & _ & H)]; [|congruence]. apply Hacc1 in H. do 2 apply publ_mono.
    pose proof H as H'. apply Hacc0 in H' as [H'|[_ [[? _]|(_ & -> & Hlt & k & r & Est)]]]; [|discriminate|].
    + apply publ_mono. apply (O_give _ _ HO); auto. apply Hback; auto. eapply (O_ok _ _ HO); eauto.
    + clear Hacc0 Hacc1 Hacc2 Hpins. subst tr2 tr1 tr0.
      assert (Eu : exists us, obj_uses w st w' = Wr (LObj (length (v_objs (w_vars w)))) :: Rel (YGive (length (v_objs (w_vars w)))) :: us /\ forall a, a ∈ us -> exists o, a = Rd (LObj o)).
      { rewrite Est. unfold obj_uses, client_uses. cbv zeta. apply Nat.ltb_lt in Hlt. rewrite Hlt. eexists. split; [reflexivity|].
        intros a Ha'. rewrite elem_of_list_In, in_flat_map in Ha'. destruct Ha' as (f & _ & Hf). apply elem_of_list_In in Hf. destruct f; cbn in Hf; try (inversion Hf; fail). repeat case_match; try (inversion Hf; fail); apply elem_of_list_singleton in Hf; eauto. }
      destruct Eu as (us & Eu & Hus). rewrite Eu in H |- *. rewrite !blk_cons in H |- *. apply publ_mono.
      apply (acc_app sw) in H as [H|[H _]]; [|destruct (Hus _ H); discriminate].
      change [(t, Rel (YGive (length (v_objs (w_vars w)))))] with (blk t [Rel (YGive (length (v_objs (w_vars w))))]) in H.
      apply (acc_app sw) in H as [H|[H _]]; [|apply elem_of_list_singleton in H; discriminate].
      apply known_publ. change [(t, Wr (LObj (length (v_objs (w_vars w)))))] with (blk t [Wr (LObj (length (v_objs (w_vars w))))]) in *.
      apply (acc_app sw) in H as [H|[_ H]]; [|auto]. apply (O_ok _ _ HO) in H. lia.
  - (* O_made *) intros i o H Ha. apply Hacc2 in H as [H|(_ & _ & H)]; [|congruence].
    apply Hacc1, Hacc0 in H as [H|[_ [[? _]|(_ & -> & Hlt & k & r & Est)]]]; [|discriminate|].
    + assert (Ho : o < length (v_objs (w_vars w))) by (eapply (O_ok _ _ HO); eauto). specialize (Hback _ Ho Ha).
      destruct (O_made _ _ HO _ _ H Hback) as [Hc|Hp]; [|right; do 3 apply publ_mono; auto].
      destruct (client_holds w' o) eqn:Ec; [auto|]. right. destruct (Hreset _ Hc Ec) as [Hin Hg].
      apply odrops_publ; [auto|auto|]. apply known_mono. eapply publ_known_blk; [exact Hin|apply (O_give _ _ HO); [exact H|exact Hback]|apply Hgive].
    + left. unfold client_holds. destruct Hv as [E|k' r' _ E|o' k' r' _ Ho' E]; rewrite E in Hlt |- *; [lia| |rewrite insert_length in Hlt; lia].
      rewrite lookup_app_r, Nat.sub_diag by lia. reflexivity.
  - (* O_use *) intros i o H Ha. apply Hacc2 in H as [H|(? & _)]; [|discriminate].
    apply Hacc1, Hacc0 in H as [H|[Hk [[_ Hp]|(? & _)]]]; [|auto|discriminate].
    assert (Ho : o < length (v_objs (w_vars w))) by (eapply (O_ok _ _ HO); eauto). specialize (Hback _ Ho Ha).
    destruct (O_use _ _ HO _ _ H Hback) as [Hp|(u & Hu & Hk)]; [left; do 3 apply publ_mono; auto|].
    destruct (decide (u = t)) as [->|Hn].
    + apply Hpins; [apply Hmine0; auto|apply known_mono; auto].
    + right. exists u. split; [apply Hother; auto|]. do 3 apply known_mono. auto.
  - (* O_slot *) intros i o l H Ha Hf Hl. apply Hacc2 in H as [H|(_ & _ & H)]; [|congruence]. apply Hacc1 in H.
    assert (Hmono : forall k, acc tr1 k (LSlot l) true -> hb tr1 i k -> exists k, acc tr2 k (LSlot l) true /\ hb tr2 i k) by (intros k H1 H2; exists k; split; [apply acc_mono|apply hb_mono]; auto).
    destruct (Htrk _ _ Hl) as [Hl0|(s & v & im & k & Est & El & Etr & Elt)].
    + apply Hacc0 in H as [H|[_ [[? _]|(_ & -> & Hlt & _)]]]; [|discriminate|].
      * destruct (O_slot _ _ HO i o l H) as (k & Hk1 & Hk2); auto; [apply Hback; auto; eapply (O_ok _ _ HO); eauto|].
        apply (Hmono k); [do 2 apply acc_mono; auto|do 2 apply hb_mono; auto].
      * exfalso. unfold spec_tracks in Hl0. destruct (spec_conn0 (w_log w) l) as [im|] eqn:Ec; [|discriminate]. apply conn0_known in Ec as (u & s & Hin).
        destruct (c_kind (im_c im)) eqn:Ek; try discriminate. injection Hl0 as Epv. apply elem_of_list_split in Hin as (l1 & l2 & El).
        specialize (Hfirst _ Hf l1 _ l2 El Ek Epv). assert (Hn : ENewObj (length (v_objs (w_vars w))) ∈ w_log w) by (rewrite El; apply elem_of_app; right; right; auto).
        apply (new_objs_bound _ _ _ _ Hr) in Hn. lia.
    + apply Hacc0 in H as [H|[_ [[? _]|(_ & _ & _ & k' & r' & Est')]]]; [|discriminate|rewrite Est in Est'; discriminate].
      assert (Hk : known tr0 t i).
      { eapply publ_known_blk; [|apply (O_give _ _ HO); [exact H|apply Hback; auto; eapply (O_ok _ _ HO); eauto]|apply Hgive]. rewrite Est. apply elem_of_app. left. unfold client_uses. rewrite Etr. left. }
      destruct (known_all _ _ _ (all_acts w t st w') (Wr (LSlot l)) Hk) as (k0 & Hk1 & Hk2).
      { unfold all_acts. apply elem_of_app. left. rewrite Est. cbn [slot_uses]. apply Nat.ltb_lt in Elt. rewrite Elt, El. left. }
      apply (Hmono k0); [exists t; exact Hk1|exact Hk2].
  - (* O_pin *) intros i o u H Hf Hu. assert (Ha : obj_alive w' o = true) by (apply alive_obj; eauto).
    apply Hacc2 in H as [H|(_ & _ & H)]; [|congruence]. apply Hacc1, Hacc0 in H.
    assert (Hold : pinning_obj w u o -> known tr2 u i).
    { intros Hp. destruct H as [H|[_ [[? _]|(_ & -> & _)]]]; [|discriminate|apply Hpb in Hp; lia].
      do 3 apply known_mono. apply (O_pin _ _ HO i o u); auto. }
    destruct (decide (u = t)) as [->|Hn]; [|apply Hold, Hother; auto].
    pose proof Hu as Hu'. apply Hmine, Hgain in Hu' as [Hp|(r & a & pin & eid & n & k & im & Est & Hok & Hget & Etr & Hal)]; [apply Hold, Hmine0; auto|].
    destruct H as [H|[_ [[? _]|(_ & -> & _)]]]; [|discriminate|apply Hbound in Hal; lia].
    destruct r as [l|x].
    + assert (Hl : spec_tracks (w_log w) l = Some o) by (rewrite (ref_tracks _ _ _ _ _ Hr Hget); exact Etr).
      destruct (O_slot _ _ HO i o l H Hal (Hfirst _ Hf) Hl) as (k0 & Hk1 & Hk2). do 3 apply known_mono.
      assert (Hin : Rd (LSlot l) ∈ slot_uses w t st w') by (rewrite Est; left).
      destruct (use_step sw _ _ _ _ _ _ _ Hr Ht Hin) as [E|(h & Hh & Heq)]; [rewrite Est in E; discriminate|].
      eapply known_trans; [exact Hk2|]. apply Heq. eapply (L_made _ _ _ _ HL); eauto.
    + do 2 apply known_mono. eapply publ_known_blk; [|apply (O_give _ _ HO); [exact H|exact Hal]|apply Hgive].
      rewrite Est. apply elem_of_app. left. unfold client_uses. rewrite Hget, Etr. left.
  - (* O_ord *)
    assert (O0 : oordered (fun o => first w' o) tr0).
    { apply oordered_blk.
      - intros i j o a b Hlt Hi Hj Hc Hc'. eapply (O_ord _ _ HO); eauto. destruct Hc' as [?|Hf]; [auto|right; apply Hfirst; auto].
      - intros o b Hin i a Hi Hc Hc'. apply uses_in in Hin as [(o' & E & Hp)|[(o' & E)|(k & r & _ & _ & [E|E])]]; destruct b; try discriminate; injection E as ->.
        + destruct Hc as [->|?]; [|discriminate]. destruct Hc' as [?|Hf]; [discriminate|]. eapply (O_pin _ _ HO); eauto. apply Hmine0. auto.
        + apply (O_ok _ _ HO) in Hi. lia. }
    assert (O1 : oordered (fun o => first w' o) tr1).
    { apply oordered_blk; [exact O0|]. intros o b Hin. exfalso. destruct (all_acts_obj w t st w' o). destruct b; contradiction. }
    assert (Hkn : forall o i a, gives_up_obj w t st w' o = true -> obj_alive w' o = false -> acc tr1 i (LObj o) a -> publ tr1 (YObj o) i \/ known tr1 t i).
    { intros o i a Hg Hd Hi. assert (Hal : obj_alive w o = true) by (eapply given_up_alive; eauto).
      apply Hacc1, Hacc0 in Hi as [Hi|[Hi _]]; [|right; apply known_mono; auto]. destruct a.
      - destruct (O_made _ _ HO _ _ Hi Hal) as [Hc|Hp]; [|left; do 2 apply publ_mono; auto].
        right. apply known_mono. destruct (Hreset o Hc) as [Hin _].
        + destruct (client_holds w' o) eqn:E; [|auto]. assert (obj_alive w' o = true) by (apply alive_obj; auto). congruence.
        + eapply publ_known_blk; [exact Hin|apply (O_give _ _ HO); [exact Hi|exact Hal]|apply Hgive].
      - destruct (O_use _ _ HO _ _ Hi Hal) as [Hp|(u & Hu & Hk)]; [left; do 2 apply publ_mono; auto|]. right.
        destruct (decide (u = t)) as [->|Hn]; [do 2 apply known_mono; auto|]. exfalso. assert (obj_alive w' o = true) by (apply alive_obj; right; exists u; apply Hother; auto). congruence. }
    subst tr2. unfold obj_drops. clearbody tr1. clear - O1 Hkn Hobj.
    generalize (seq 0 (length (v_objs (w_vars w)))). intros os.
    induction os as [|o os IH] using rev_ind; [rewrite app_nil_r; exact O1|].
    rewrite flat_map_app, blk_app. cbn [flat_map]. rewrite app_nil_r.
    set (trx := tr1 ++ blk t (flat_map (drop_obj w t st w') os)) in *.
    unfold drop_obj. destruct (gives_up_obj w t st w' o) eqn:Eg; [|rewrite app_nil_r; exact IH].
    rewrite blk_app.
    assert (IH1 : oordered (fun o => first w' o) (trx ++ blk t [Acq (YObj o); Rel (YObj o)])).
    { apply oordered_blk; [exact IH|]. intros o0 b Hin. exfalso. rewrite !elem_of_cons, elem_of_nil in Hin. destruct b; destruct_or?; simplify_eq; contradiction. }
    destruct (obj_alive w' o) eqn:Ed; [rewrite app_nil_r; exact IH1|].
    apply oordered_blk; [exact IH1|]. intros o0 b Hin i a Hi _ Hc. apply elem_of_list_singleton in Hin. destruct b; [|discriminate]. injection Hin as ->.
    apply (acc_app sw) in Hi as [Hi|[_ Hi]]; [|auto]. apply (acc_app sw) in Hi as [Hi|[_ Hi]]; [|apply known_mono; auto].
    destruct (Hkn o i a) as [Hp|Hp]; auto.
    + eapply publ_known_blk; [left|apply publ_mono; eauto|apply Hobj].
    + do 2 apply known_mono. auto.
Qed.

Lemma tracked_reach e ps w tr : tracked_run e ps w tr -> reachable e ps w.
Proof. induction 1; [exists []; reflexivity|eapply reachable_step; eauto]. Qed.
Lemma tracked_inv e ps w tr : tracked_run e ps w tr -> Inv w tr /\ Life w tr /\ Objs w tr.
Proof.
  induction 1 as [|w tr t fail st w' Hl (IH1 & IH2 & IH3) Ht Hs]; [split; [apply inv_init|split; [apply life_init|apply objs_init]]|].
  eapply objs_step; eauto using tracked_reach.
Qed.
End order.
